(** Concrete runs of the tracker model, used by the examples and refutations of P_Track. *)
From Coq Require Import Reals List Arith ZArith Bool Lia Lra FinFun.
From Verif Require Import RBool Outcome DbModel DbSpec DbProofs DbThms TrackModel TrackSpec TrackProofs TrackProofs2 TrackThms.
Import ListNotations.
Open Scope R_scope.

Definition zp (x : Z * Z) : pt := (IZR (fst x), IZR (snd x)).
Definition ex_o : kopts := mkKO 30 2 true 2 1 1 10.
Definition ex_f : frame := mkFrame 300 100 (fun _ _ => false).
Definition ex_row (y : Z) : list (Z * Z) := map (fun k => (20 * k + 25, y)%Z) [0; 1; 2; 3; 4; 5; 6; 7; 8; 9]%Z.

Lemma Int_part_IZR z : Int_part (IZR z) = z.
Proof. apply Int_part_unique. lra. Qed.
Lemma to_int_IZR z : to_int (IZR z) = z.
Proof.
  unfold to_int. destruct (Rleb_spec 0 (IZR z)); [apply Int_part_IZR|].
  rewrite <- opp_IZR, Int_part_IZR. lia.
Qed.
Lemma Int_part_div a b : (0 < b)%Z -> Int_part (IZR a / IZR b) = (a / b)%Z.
Proof.
  intros B. apply Int_part_unique. pose proof (Z_div_mod_eq_full a b) as E. pose proof (Z.mod_pos_bound a b B) as M.
  pose proof (IZR_lt _ _ B) as B'. set (q := (a / b)%Z) in *. set (r := (a mod b)%Z) in *.
  destruct M as [M1 M2]. apply IZR_le in M1. apply IZR_lt in M2. rewrite E, plus_IZR, mult_IZR. split.
  - apply div_le_iff; lra.
  - apply div_lt_iff; lra.
Qed.
Lemma cell_zp o x : (0 < ko_px o)%Z -> (0 <= fst x)%Z -> (0 <= snd x)%Z -> cell o (zp x) = (fst x / ko_px o, snd x / ko_px o)%Z.
Proof.
  intros D A B. pose proof (IZR_lt _ _ D). apply IZR_le in A, B. unfold cell, zp. cbn [fst snd].
  rewrite !to_int_nonneg by (apply div_le_iff; lra). rewrite !Int_part_div by auto. auto.
Qed.
Definition zstays (o : kopts) (fr : frame) (x : Z * Z) : bool :=
  ((10 <=? fst x) && (fst x <? fr_w fr - 10) && (10 <=? snd x) && (snd x <? fr_h fr - 10) &&
   (fst x <? ko_px o * (fr_w fr / ko_px o)) && (snd x <? ko_px o * (fr_h fr / ko_px o)) &&
   negb (fr_mask fr (fst x) (snd x)))%Z%bool.
Lemma stays_zp o fr x : dims_ok o fr = true -> zstays o fr x = true -> stays o fr (zp x).
Proof.
  intros D H. apply dims_true in D. destruct D as (D & _). unfold zstays in H.
  rewrite !andb_true_iff, negb_true_iff, !Z.leb_le, !Z.ltb_lt in H. destruct H as [[[[[[A B] C] E] F] G] M].
  apply IZR_le in A, C. apply IZR_lt in B, E, F, G. rewrite minus_IZR in B, E. rewrite mult_IZR in F, G.
  unfold stays, zp. cbn [fst snd]. rewrite !Int_part_div, !Int_part_IZR by auto. repeat split; auto.
Qed.
Lemma bad_zp b fr x : bad_pt b fr (zp x) =
  ((fst x <? 0) || (snd x <? 0) || (if b then (fr_w fr <? fst x) || (fr_h fr <? snd x) else (fr_w fr <=? fst x) || (fr_h fr <=? snd x)))%Z%bool.
Proof.
  unfold bad_pt, zp. cbn [fst snd]. rewrite !to_int_IZR.
  assert (L : forall z, Rltb (IZR z) 0 = (z <? 0)%Z).
  { intros z. destruct (Z.ltb_spec z 0) as [H|H]; [apply Rltb_true; apply IZR_lt in H; auto|apply Rltb_false; apply IZR_le in H; auto]. }
  rewrite !L. auto.
Qed.
Lemma in_img_zp fr x : in_img fr (zp x) = ((0 <=? fst x) && (fst x <? fr_w fr) && (0 <=? snd x) && (snd x <? fr_h fr))%Z%bool.
Proof. unfold in_img, zp. cbn [fst snd]. rewrite !to_int_IZR. auto. Qed.

Lemma thin_all o fr st pts : forall ids g, length ids = length pts ->
  (forall p, In p pts -> passes o fr p = true) ->
  (forall i, st i = true) \/ (NoDup (map (cell o) pts) /\ forall p, In p pts -> ~ In (cell o p) g) ->
  thin o fr st pts ids g = Ok (pts, ids, rev (map (cell o) pts) ++ g).
Proof.
  induction pts as [|p pts IH]; intros [|i ids] g L HP H; try discriminate; [reflexivity|]. cbn in L.
  cbn [thin]. pose proof (HP p (or_introl eq_refl)) as Pp. unfold passes in Pp. rewrite !andb_true_iff, negb_true_iff in Pp.
  destruct Pp as [[[P1 P2] P3] P4]. rewrite P1, P2, P3, P4. cbn [negb orb].
  assert (O : (occupied g (cell o p) && negb (st i))%bool = false).
  { destruct H as [H|[_ H]]; [rewrite H; apply andb_false_r|]. destruct (occupied g (cell o p)) eqn:E; [|auto].
    apply occupied_in in E. exfalso. apply (H p); [left; auto|auto]. }
  rewrite O. cbn [orb]. rewrite IH; [|lia|intros q Q; apply HP; right; auto|].
  - cbn [obind map rev]. rewrite <- app_assoc. reflexivity.
  - destruct H as [H|[N H]]; [left; auto|right]. cbn in N. inversion N; subst. split; [auto|].
    intros q Q [X|X]; [apply H2; rewrite X; apply in_map; auto|]. apply (H q); [right; auto|auto].
Qed.
Lemma pick_all o fr det : forall g, (forall p, In p det -> cell_in o fr (cell o p) = true /\ ~ In (cell o p) g) ->
  NoDup (map (cell o) det) -> pick_new o fr det g = det.
Proof.
  induction det as [|p det IH]; intros g H N; [reflexivity|]. cbn [pick_new]. destruct (H p (or_introl eq_refl)) as [A B]. rewrite A.
  destruct (occupied g (cell o p)) eqn:E; [apply occupied_in in E; contradiction|]. cbn. cbn in N. inversion N; subst. rewrite IH; auto.
  intros q Q. destruct (H q (or_intror Q)) as [A' B']. split; [auto|]. intros [X|X]; [|auto]. apply H2. rewrite X. apply in_map; auto.
Qed.

Lemma ex_dims : dims_ok ex_o ex_f = true.
Proof. reflexivity. Qed.
Lemma ex_passes y p : (10 <= y < 90)%Z -> In p (map zp (ex_row y)) -> passes ex_o ex_f p = true.
Proof.
  intros Y I. apply in_map_iff in I. destruct I as (x & <- & I). apply passes_stays; [exact ex_dims|].
  apply stays_zp; [exact ex_dims|]. apply in_map_iff in I. destruct I as (k & <- & I).
  assert (0 <= k <= 9)%Z by (cbn in I; intuition lia).
  unfold zstays. cbn [fst snd fr_w fr_h fr_mask ex_f ko_px ex_o]. change (300 / 10)%Z with 30%Z. change (100 / 10)%Z with 10%Z.
  rewrite !andb_true_iff, !Z.leb_le, !Z.ltb_lt. repeat split; lia.
Qed.
Lemma ex_cells y : (0 <= y)%Z -> map (cell ex_o) (map zp (ex_row y)) = map (fun k => (2 * k + 2, y / 10)%Z) [0; 1; 2; 3; 4; 5; 6; 7; 8; 9]%Z.
Proof.
  intros Y. unfold ex_row. rewrite !map_map. apply map_ext_in. intros k I.
  assert (0 <= k <= 9)%Z by (cbn in I; intuition lia). rewrite cell_zp; cbn [fst snd ko_px ex_o]; try lia.
  f_equal. replace (20 * k + 25)%Z with (5 + (2 * k + 2) * 10)%Z by lia. rewrite Z.div_add by lia. reflexivity.
Qed.
Lemma ex_nodup y : (0 <= y)%Z -> NoDup (map (cell ex_o) (map zp (ex_row y))).
Proof.
  intros Y. rewrite ex_cells by auto. apply Injective_map_NoDup.
  - intros a b E. apply (f_equal fst) in E. cbn [fst] in E. lia.
  - repeat (constructor; [cbn; intuition lia|]). constructor.
Qed.

Definition ex_ids : list nat := seq 10 10.
(** first frame: ten detections on the left, each found on the right *)
Definition ex_l1 : camimg := mkCI 0 ex_f (map zp (ex_row 50)) (fun _ => (zp (0, 0)%Z, false)) (fun k => (nth k (map zp (ex_row 50)) (0, 0), true)).
Definition ex_r1 : camimg := mkCI 1 ex_f [] (fun _ => (zp (0, 0)%Z, false)) (fun _ => (zp (0, 0)%Z, false)).
Definition ex_s1 : ktrk :=
  mkK 19 [(0%nat, map zp (ex_row 50)); (1%nat, map zp (ex_row 50))] [(0%nat, ex_ids); (1%nat, ex_ids)] [(0%nat, ex_f); (1%nat, ex_f)] [].

Lemma add_all fr0 fr1 lr new : forall k p0 p1 i0 i1 cur,
  (forall j p, nth_error new j = Some p -> in_img fr0 p = true /\ in_img fr1 (fst (lr (k + j)%nat)) = true /\ snd (lr (k + j)%nat) = true) ->
  add_stereo fr0 fr1 lr k new p0 p1 i0 i1 cur =
    (p0 ++ new, p1 ++ map (fun j => fst (lr j)) (seq k (length new)), i0 ++ seq (S cur) (length new), i1 ++ seq (S cur) (length new), (cur + length new)%nat).
Proof.
  induction new as [|p new IH]; intros k p0 p1 i0 i1 cur H; cbn [add_stereo length seq map].
  - rewrite !app_nil_r, Nat.add_0_r. auto.
  - destruct (H 0%nat p eq_refl) as (A & B & C). rewrite Nat.add_0_r in *. destruct (lr k) as [q ok] eqn:E. cbn [fst snd] in *.
    rewrite A, B, C. cbn [andb]. rewrite IH.
    + rewrite <- !app_assoc. cbn [app]. f_equal. lia.
    + intros j r J. replace (S k + j)%nat with (k + S j)%nat by lia. apply H. exact J.
Qed.

Lemma ex_run1 und : feed_new_camera ex_o und (track_new ex_o) 1 [ex_l1; ex_r1] = Ok ex_s1.
Proof.
  unfold feed_new_camera. cbn [ko_stereo ex_o length Nat.eqb andb]. fold ex_o. unfold feed_stereo.
  cbn [ex_l1 ex_r1 ci_cam ci_frame ci_det ci_klt ci_lr ko_cams ex_o track_new k_pts aget alook guard Nat.ltb Nat.leb Nat.eqb negb andb]. fold ex_o.
  unfold detect_stereo. rewrite ex_dims. cbn [andb guard thin obind length].
  change (few ex_o <? ko_feats ex_o - Z.of_nat 0)%Z with true. cbv iota.
  rewrite (pick_all ex_o ex_f _ []); [| |apply ex_nodup; lia].
  2:{ intros p I. split; [|intros []]. apply ex_passes in I; [|lia]. unfold passes in I. rewrite !andb_true_iff in I. tauto. }
  rewrite add_all.
  2:{ intros j p J. cbn [Nat.add fst snd]. replace (nth j (map zp (ex_row 50)) (0, 0)) with p by (symmetry; exact (nth_error_nth _ _ _ J)).
    assert (in_img ex_f p = true).
    { apply nth_error_In in J. apply in_map_iff in J. destruct J as (x & <- & I). rewrite in_img_zp.
      apply in_map_iff in I. destruct I as (k & <- & I). assert (0 <= k <= 9)%Z by (cbn in I; intuition lia).
      cbn [fst snd fr_w fr_h ex_f]. rewrite !andb_true_iff, !Z.leb_le, !Z.ltb_lt. repeat split; lia. }
    auto. }
  cbn [app]. change (length (map zp (ex_row 50))) with 10%nat. change (S (k_cur (track_new ex_o))) with 10%nat. change (k_cur (track_new ex_o) + 10)%nat with 19%nat.
  fold ex_ids. cbn [fst].
  assert (RR : forall f : nat -> pt, (forall k, f k = nth k (map zp (ex_row 50)) (0, 0)) -> map f (seq 0 10) = map zp (ex_row 50)).
  { intros f F. cbn [seq map ex_row]. rewrite !F. reflexivity. }
  rewrite RR by auto.
  rewrite thin_all; [| reflexivity | intros p I; eapply ex_passes; [|exact I]; lia |right; split; [apply ex_nodup; lia|intros p I []]].
  cbn [obind]. change (length (map zp (ex_row 50))) with 10%nat.
  change (few ex_o <? ko_feats ex_o - Z.of_nat 10)%Z with true. cbv iota. cbn [pick_new length seq]. rewrite !app_nil_r. reflexivity.
Qed.

(** second frame: all ten points found again; in the left image the first one comes to lie on the
    column just outside the image, the others in a masked part *)
Definition ex_f2 : frame := mkFrame 300 100 (fun _ _ => true).
Definition ex_q (k : nat) : Z * Z := (300 - 20 * Z.of_nat k, 60)%Z.
Definition ex_l2 : camimg := mkCI 0 ex_f2 [] (fun k => (zp (ex_q k), true)) (fun _ => (zp (0, 0)%Z, false)).
Definition ex_r2 : camimg := mkCI 1 ex_f2 [] (fun k => (zp (0, 0)%Z, true)) (fun _ => (zp (0, 0)%Z, false)).
Definition ex_s2 (und : nat -> pt -> pt) : ktrk :=
  let a := map (fun k => zp (ex_q k)) (seq 0 10) in
  let b := map (fun k => zp (0, 0)%Z) (seq 0 10) in
  mkK 19 [(0%nat, a); (1%nat, b)] [(0%nat, ex_ids); (1%nat, ex_ids)] [(0%nat, ex_f2); (1%nat, ex_f2)]
    (record_all und (record_all und [] 2 0 a ex_ids) 2 1 b ex_ids).


Lemma feed_stereo_next o und s t l r f0 f1 a b c d e :
  (ci_cam l <? ko_cams o)%nat = true -> (ci_cam r <? ko_cams o)%nat = true -> ci_cam l <> ci_cam r ->
  aget (k_pts s) (ci_cam l) <> [] -> alook (k_last s) (ci_cam l) = Some f0 -> alook (k_last s) (ci_cam r) = Some f1 ->
  detect_stereo o f0 f1 (ci_det l) (ci_det r) (ci_lr l) (aget (k_pts s) (ci_cam l)) (aget (k_pts s) (ci_cam r))
    (aget (k_ids s) (ci_cam l)) (aget (k_ids s) (ci_cam r)) (k_cur s) = Ok (a, b, c, d, e) -> a <> [] ->
  feed_stereo o und s t l r =
  (do kl <- keep_left (ci_frame l) (ci_frame r) (matching (ci_klt l) a) (matching (ci_klt r) b) c d;
   let '(a', b', c', d') := kl in
   do kr <- keep_right (ci_frame r) (matching (ci_klt r) b) d c' d';
   let db' := record_all und (record_all und (k_db s) t (ci_cam l) a' b') t (ci_cam r) (fst kr) (snd kr) in
   Ok (set_last (set_last s (ci_cam l) (ci_frame l) a' b' e db') (ci_cam r) (ci_frame r) (fst kr) (snd kr) e db')).
Proof.
  intros A B N P F0 F1 D NA. unfold feed_stereo. rewrite A, B. apply Nat.eqb_neq in N. rewrite N. cbn [andb negb guard].
  rewrite F0, F1. rewrite D. cbn [obind].
  assert (M : matching (ci_klt l) a <> []) by (intros X; apply NA; apply length_zero_iff_nil; rewrite <- (matching_length (ci_klt l)), X; auto).
  destruct (aget (k_pts s) (ci_cam l)); [congruence|]. destruct (matching (ci_klt l) a); [congruence|]. reflexivity.
Qed.

Lemma ex_run2 und : feed_new_camera ex_o und ex_s1 2 [ex_l2; ex_r2] = Ok (ex_s2 und).
Proof.
  unfold feed_new_camera. cbn [ko_stereo ex_o length Nat.eqb andb]. fold ex_o.
  rewrite (feed_stereo_next ex_o und ex_s1 2 ex_l2 ex_r2 ex_f ex_f (map zp (ex_row 50)) (map zp (ex_row 50)) ex_ids ex_ids 19);
    [|reflexivity|reflexivity|discriminate|discriminate|reflexivity|reflexivity| |discriminate].
  2:{ cbn [ex_l2 ex_r2 ci_cam ci_det ci_lr ex_s1 k_pts k_ids k_cur aget alook Nat.eqb].
    unfold detect_stereo. rewrite ex_dims. cbn [andb guard].
    rewrite thin_all; [| reflexivity | intros p I; eapply ex_passes; [|exact I]; lia |right; split; [apply ex_nodup; lia|intros p I []]].
    cbn [obind]. change (length (map zp (ex_row 50))) with 10%nat.
    change (few ex_o <? ko_feats ex_o - Z.of_nat 10)%Z with true. cbv iota. cbn [pick_new add_stereo].
    rewrite thin_all; [| reflexivity | intros p I; eapply ex_passes; [|exact I]; lia |right; split; [apply ex_nodup; lia|intros p I []]].
    cbn [obind]. change (length (map zp (ex_row 50))) with 10%nat.
    change (few ex_o <? ko_feats ex_o - Z.of_nat 10)%Z with true. cbv iota. cbn [pick_new length seq]. rewrite !app_nil_r. reflexivity. }
  assert (M : forall k, matching k (map zp (ex_row 50)) = map k (seq 0 10)) by reflexivity.
  rewrite !M. cbn [ex_l2 ex_r2 ci_klt ci_frame ci_cam]. cbn [seq map]. unfold ex_ids at 1 2 3. cbn [seq].
  assert (B0 : bad_pt false ex_f2 (zp (0, 0)%Z) = false) by (rewrite bad_zp; reflexivity).
  assert (B1 : forall k, (k < 10)%nat -> bad_pt true ex_f2 (zp (ex_q k)) = false).
  { intros k K. rewrite bad_zp. unfold ex_q. cbn [fst snd fr_w fr_h ex_f2].
    rewrite !orb_false_iff, !Z.ltb_ge. repeat split; lia. }
  cbn [keep_left obind find_ix Nat.eqb option_map nth_error].
  rewrite !B0. rewrite !B1 by lia. cbn [obind andb].
  cbn [keep_right mem existsb Nat.eqb orb negb]. rewrite !B0. cbn [orb obind fst snd]. reflexivity.
Qed.

Lemma ex_reach2 und (P : nat -> nat -> Prop) : P 0%nat 1%nat -> P 1%nat 0%nat -> treach ex_o P (ex_s2 und).
Proof.
  intros P1 P2. eapply tss_step; [eapply tss_step; [apply tss_refl|]|].
  - eapply (ts_feed _ _ _ und 1 [ex_l1; ex_r1]); [|apply ex_run1]. intros _ l r E. injection E as <- <-. auto.
  - eapply (ts_feed _ _ _ und 2 [ex_l2; ex_r2]); [|apply ex_run2]. intros _ l r E. injection E as <- <-. auto.
Qed.
Lemma ex_reach1 (P : nat -> nat -> Prop) : P 0%nat 1%nat -> P 1%nat 0%nat -> treach ex_o P ex_s1.
Proof.
  intros P1 P2. eapply tss_step; [apply tss_refl|].
  eapply (ts_feed _ _ _ (fun _ p => p) 1 [ex_l1; ex_r1]); [|apply ex_run1]. intros _ l r E. injection E as <- <-. auto.
Qed.
