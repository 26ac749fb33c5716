(** Concrete runs of the descriptor based tracker. *)
From Coq Require Import Reals List Arith ZArith Bool Lia Lra.
From Verif Require Import RBool Outcome DbModel DbSpec DbProofs DbThms TrackModel TrackSpec TrackProofs TrackProofs2 TrackThms TrackEx FeatModel DescModel DescSpec DescProofs DescThms.
Import ListNotations.
Open Scope R_scope.

(** the nearest descriptor is the one with the same number, ten times nearer than the next *)
Definition ev_knn (a b : list nat) : list (list dmatch) :=
  map (fun i => if ((i <? length b) && (2 <=? length b))%nat%bool
                then [mkDM i i 1; mkDM i (if (i =? 0)%nat then 1%nat else 0%nat) 10] else []) (seq 0 (length a)).
Definition ev : vision nat := mkV ev_knn (fun _ _ l => map (fun _ => true) l) (fun _ p => p).
Definition ev_row (x0 dx y : Z) (n : nat) : list (pt * nat) :=
  map (fun k => (zp (x0 + dx * Z.of_nat k, y)%Z, k)) (seq 0 n).
Definition ev_img (cam : nat) (fr : frame) (x0 dx y : Z) (n : nat) : dimg nat := mkDI cam fr (ev_row x0 dx y n).

Lemma ev_knn_ok : knn_ok ev.
Proof.
  intros a b. cbn [v_knn ev]. unfold ev_knn. rewrite map_length, seq_length. split; [auto|]. intros i m x E H.
  rewrite nth_error_map in E. destruct (nth_error (seq 0 (length a)) i) as [k|] eqn:N; [|discriminate]. cbn [option_map] in E.
  apply nth_seq in N. destruct N as [_ ->]. cbn [Nat.add] in E.
  destruct ((i <? length b) && (2 <=? length b))%nat%bool eqn:C; injection E as <-; [|contradiction].
  apply andb_true_iff in C. rewrite Nat.ltb_lt, Nat.leb_le in C. destruct H as [<-|[<-|[]]]; cbn [dm_q dm_t dm_d].
  - split; [auto|]. split; [lia|lra].
  - split; [auto|]. split; [|lra]. destruct (i =? 0)%nat; lia.
Qed.
Lemma ev_rsc_ok : rsc_ok ev.
Proof. intros c0 c1 l. cbn. apply map_length. Qed.

Lemma ev_ratio ms : (forall m x y l, In m ms -> m = x :: y :: l -> dm_d x = 1 /\ dm_d y = 10) -> (forall m x, In m ms -> m <> [x]) ->
  ratio_test 0.7 ms = ms.
Proof.
  intros H H'. unfold ratio_test. rewrite <- (map_id ms) at 2. apply map_ext_in. intros m I'. destruct m as [|x [|y l]]; [auto|exfalso; eapply H'; eauto|].
  destruct (H _ x y l I' eq_refl) as [A B]. unfold ratio_over. rewrite A, B.
  destruct (Reqb_spec 10 0); [lra|]. rewrite (proj2 (Rltb_false 0.7 (1 / 10))) by lra. auto.
Qed.
Lemma ev_knn_ratio a b : ratio_test 0.7 (ev_knn a b) = ev_knn a b.
Proof.
  apply ev_ratio; unfold ev_knn; intros m.
  - intros x y l I' ->. apply in_map_iff in I'. destruct I' as (i & E & _). destruct (_ && _)%bool in E; [|discriminate]. injection E as <- <- _. auto.
  - intros x I' ->. apply in_map_iff in I'. destruct I' as (i & E & _). destruct (_ && _)%bool in E; discriminate.
Qed.
Lemma ev_match p0 p1 c0 c1 : robust_match 0.7 ev p0 p1 c0 c1 =
  (do pr <- match_pts p0 p1 (symmetry_test (ev_knn (map snd p0) (map snd p1)) (ev_knn (map snd p1) (map snd p0)));
   if (length pr <? 10)%nat then Ok [] else mask_keep (symmetry_test (ev_knn (map snd p0) (map snd p1)) (ev_knn (map snd p1) (map snd p0))) (map (fun _ => true) pr)).
Proof. unfold robust_match. cbn [v_knn v_rsc ev]. rewrite !ev_knn_ratio. reflexivity. Qed.

(** the tests on points with integer coordinates *)
Definition zin (px w h : Z) (x : Z * Z) : bool :=
  ((0 <=? fst x) && (0 <=? snd x) && (fst x / px <? w / px) && (snd x / px <? h / px))%Z%bool.
Lemma zin_ok o fr x : (0 < ko_px o)%Z -> (0 < fr_w fr)%Z -> (0 < fr_h fr)%Z -> (0 <= fst x)%Z -> (0 <= snd x)%Z ->
  cell_in o fr (cell o (zp x)) = ((fst x / ko_px o <? fr_w fr / ko_px o) && (snd x / ko_px o <? fr_h fr / ko_px o))%Z%bool.
Proof.
  intros P W H X Y. rewrite cell_zp by auto. unfold cell_in. cbn [fst snd]. rewrite !size_close_eq, !Int_part_div by auto.
  assert (A : (0 <= fst x / ko_px o)%Z) by (apply Z.div_pos; lia). assert (B : (0 <= snd x / ko_px o)%Z) by (apply Z.div_pos; lia).
  apply Z.leb_le in A, B. rewrite A, B. cbn. rewrite andb_true_r. auto.
Qed.
Fixpoint pairs_of {D} (p0 p1 : list (pt * D)) (ms : list dmatch) : outcome (list ((pt * D) * (pt * D))) :=
  match ms with
  | [] => Ok []
  | m :: ms' => do a <- look (nth_error p0 (dm_q m)); do b <- look (nth_error p1 (dm_t m)); do r <- pairs_of p0 p1 ms'; Ok ((a, b) :: r)
  end.
Lemma pick_all_pairs {D} o fr0 fr1 (p0 p1 : list (pt * D)) ms :
  (forall a, In a p0 -> cell_in o fr0 (cell o (fst a)) = true /\ in_img fr0 (fst a) = true) ->
  (forall b, In b p1 -> cell_in o fr1 (cell o (fst b)) = true /\ in_img fr0 (fst b) = true) ->
  pick_pairs o fr0 fr1 p0 p1 ms = pairs_of p0 p1 ms.
Proof.
  intros A B. induction ms as [|m ms IH]; cbn; [auto|]. destruct (nth_error p0 (dm_q m)) as [a|] eqn:EA; [|auto]. cbn.
  destruct (nth_error p1 (dm_t m)) as [b|] eqn:EB; [|auto]. cbn. rewrite IH. destruct (pairs_of p0 p1 ms); cbn; [|auto|auto].
  destruct (A a) as [A1 A2]; [eapply nth_error_In; eauto|]. destruct (B b) as [B1 B2]; [eapply nth_error_In; eauto|]. rewrite A1, A2, B1, B2. auto.
Qed.
Lemma pick_desc_all {D} o fr (ext : list (pt * D)) : forall g,
  (forall e, In e ext -> cell_in o fr (cell o (fst e)) = true /\ in_img fr (fst e) = true /\ ~ In (cell o (fst e)) g) ->
  NoDup (map (fun e => cell o (fst e)) ext) -> pick_desc o fr ext g = ext.
Proof.
  induction ext as [|e ext IH]; intros g H N; [reflexivity|]. cbn [pick_desc]. destruct (H e (or_introl eq_refl)) as (A & B & C). rewrite A, B.
  destruct (occupied g (cell o (fst e))) eqn:E; [apply occupied_in in E; contradiction|]. cbn. cbn in N. inversion N; subst. rewrite IH; auto.
  intros q Q. destruct (H q (or_intror Q)) as (A' & B' & C'). split; [auto|]. split; [auto|]. intros [X|X]; [|auto]. apply H2. rewrite X. apply (in_map (fun e => cell o (fst e))); auto.
Qed.

(** two cameras, 300 x 100 pixels, cells of ten pixels *)
Definition dx_l : dimg nat := ev_img 0 ex_f 5 20 55 12.
Definition dx_r : dimg nat := ev_img 1 ex_f 15 20 55 12.
Lemma row_inside x0 dx y n fr : (forall k, (k < n)%nat -> (0 <= x0 + dx * Z.of_nat k)%Z) -> (0 <= y)%Z -> (0 < fr_w fr)%Z -> (0 < fr_h fr)%Z ->
  forallb (fun k => (((x0 + dx * Z.of_nat k) / 10 <? fr_w fr / 10) && (y / 10 <? fr_h fr / 10) && (x0 + dx * Z.of_nat k <? fr_w fr) && (y <? fr_h fr))%Z%bool) (seq 0 n) = true ->
  forall a, In a (ev_row x0 dx y n) -> cell_in ex_o fr (cell ex_o (fst a)) = true /\ in_img fr (fst a) = true.
Proof.
  intros X Y W H F a I'. unfold ev_row in I'. apply in_map_iff in I'. destruct I' as (k & <- & K). pose proof K as K'. apply in_seq in K'.
  rewrite forallb_forall in F. specialize (F k K). rewrite !andb_true_iff in F. destruct F as [[[F1 F2] F3] F4].
  specialize (X k ltac:(lia)). cbn [fst]. split.
  - rewrite zin_ok by (cbn [fst snd]; auto; reflexivity). cbn [fst snd ko_px ex_o] in *. rewrite F1, F2. auto.
  - rewrite in_img_zp. cbn [fst snd]. rewrite F3, F4. apply Z.leb_le in X, Y. rewrite X, Y. auto.
Qed.
Ltac mm r := match goal with |- context [obind (obind ?a ?b) _] => let E := fresh in assert (E : obind a b = r) by reflexivity; rewrite E; clear E end.
Ltac inside := apply row_inside; [intros k K; lia|lia|reflexivity|reflexivity|reflexivity].

Definition dx_ids : list nat := seq 10 12.
Definition dx_s1 : dtrk nat :=
  mkDT 21 [(0%nat, ev_row 5 20 55 12); (1%nat, ev_row 15 20 55 12)] [(0%nat, dx_ids); (1%nat, dx_ids)] [].
Lemma dx_stereo s t :
  desc_stereo ex_o 0.7 ev dx_l dx_r s = Ok (ev_row 5 20 55 12, ev_row 15 20 55 12, seq (S s) 12, (s + 12)%nat) /\
  desc_feed_stereo ex_o 0.7 ev (desc_new nat ex_o) t dx_l dx_r = Ok dx_s1.
Proof.
  assert (A : forall s, desc_stereo ex_o 0.7 ev dx_l dx_r s = Ok (ev_row 5 20 55 12, ev_row 15 20 55 12, seq (S s) 12, (s + 12)%nat)).
  { intros s0. unfold desc_stereo, dx_l, dx_r. cbn [di_ext di_frame di_cam ev_img]. rewrite ev_match.
    change (px_ok ex_o ex_f && px_ok ex_o ex_f)%bool with true. cbn [guard].
    mm (Ok (map (fun i => mkDM i i 1) (seq 0 12))). cbn [obind].
    rewrite pick_all_pairs by inside. reflexivity. }
  split; [apply A|]. unfold desc_feed_stereo. rewrite A. reflexivity.
Qed.

Lemma dx_reach1 : dreach ex_o 0.7 (fun _ _ => True) dx_s1.
Proof.
  eapply dr_step; [apply dr_new|]. apply (ds_feed ex_o 0.7 _ (desc_new nat ex_o) ev 0 [dx_l; dx_r] dx_s1); [apply ev_knn_ok|auto|].
  exact (proj2 (dx_stereo 0 0)).
Qed.

(** the second pair of images: every point keeps its id and both pixels are recorded *)
Definition dx_db2 (t : R) : db :=
  match record_pairs (v_und ev) [] t 0 1 (map fst (ev_row 5 20 55 12)) (map fst (ev_row 15 20 55 12)) dx_ids dx_ids with Ok d => d | _ => [] end.
Lemma dx_second t : desc_feed_stereo ex_o 0.7 ev dx_s1 t dx_l dx_r =
  Ok (mkDT 33 [(0%nat, ev_row 5 20 55 12); (1%nat, ev_row 15 20 55 12)] [(0%nat, dx_ids); (1%nat, dx_ids)] (dx_db2 t)).
Proof.
  unfold desc_feed_stereo. rewrite (proj1 (dx_stereo (d_cur dx_s1) t)).
  change (aget (d_pts dx_s1) (di_cam dx_l)) with (ev_row 5 20 55 12). change (aget (d_pts dx_s1) (di_cam dx_r)) with (ev_row 15 20 55 12).
  change (aget (d_ids dx_s1) (di_cam dx_l)) with dx_ids. change (aget (d_ids dx_s1) (di_cam dx_r)) with dx_ids.
  cbn [obind]. rewrite !ev_match. 
  match goal with |- context [obind (obind ?a ?b) _] => assert (E1 : obind a b = Ok (map (fun i => mkDM i i 1) (seq 0 12))) by reflexivity end.
  rewrite E1.
  match goal with |- context [obind (obind ?a ?b) _] => assert (E2 : obind a b = Ok (map (fun i => mkDM i i 1) (seq 0 12))) by reflexivity end.
  rewrite E2. cbn [obind].
  assert (E3 : merge_stereo (map (fun i => mkDM i i 1) (seq 0 12)) (map (fun i => mkDM i i 1) (seq 0 12)) dx_ids dx_ids 0 (seq (S (d_cur dx_s1)) 12) = Ok (dx_ids, dx_ids)) by reflexivity.
  rewrite E3. unfold dx_db2.
  destruct (record_pairs_spec (v_und ev) t 0 1 dx_ids ltac:(discriminate) (map fst (ev_row 5 20 55 12)) (map fst (ev_row 15 20 55 12)) []) as (d' & E & _);
    [split; [constructor|intros ? ? []]|reflexivity|reflexivity|apply seq_NoDup|].
  change (d_db dx_s1) with (@nil (nat * feature)). cbn [obind fst snd di_cam dx_l dx_r ev_img]. rewrite E. reflexivity.
Qed.

(** one image of the left camera alone *)
Definition dx_m : dimg nat := ev_img 0 ex_f 5 20 55 3.
Lemma dx_mono t : exists s, desc_feed_mono ex_o 0.7 ev dx_s1 t dx_m = Ok s /\
  aget (d_pts s) 0 = ev_row 5 20 55 3 /\ aget (d_ids s) 0 = [22; 23; 24]%nat /\ aget (d_pts s) 1 = ev_row 15 20 55 12.
Proof.
  unfold desc_feed_mono, desc_mono. change (di_cam dx_m <? ko_cams ex_o)%nat with true. change (px_ok ex_o (di_frame dx_m)) with true. cbn [guard].
  assert (P : pick_desc ex_o (di_frame dx_m) (di_ext dx_m) [] = ev_row 5 20 55 3).
  { unfold dx_m. cbn [di_frame di_ext ev_img]. apply pick_desc_all.
    - intros e H. assert (Q : cell_in ex_o ex_f (cell ex_o (fst e)) = true /\ in_img ex_f (fst e) = true).
      { revert e H. inside. } destruct Q. auto.
    - unfold ev_row. rewrite map_map. cbn [seq map fst]. rewrite !cell_zp by (cbn; lia || reflexivity).
      cbn. repeat (constructor; [cbn; intuition discriminate|]). constructor. }
  rewrite P. cbn [obind].
  change (aget (d_pts dx_s1) (di_cam dx_m)) with (ev_row 5 20 55 12). change (aget (d_ids dx_s1) (di_cam dx_m)) with dx_ids.
  cbv beta iota zeta. rewrite ev_match.
  match goal with |- context [obind (obind ?a ?b) _] => assert (E1 : obind a b = Ok []) by reflexivity end.
  rewrite E1. eexists. split; [reflexivity|]. split; [reflexivity|]. split; reflexivity.
Qed.

(** a single image in between makes the next pair fail the assertion *)
Lemma dx_mixed : exists s, dreach ex_o 0.7 (fun _ _ => True) s /\ desc_feed ex_o 0.7 ev s 2 [dx_l; dx_r] = UB.
Proof.
  destruct (dx_mono 1) as (s & E & P0 & _ & P1). exists s. split.
  - eapply dr_step; [exact dx_reach1|]. apply (ds_feed ex_o 0.7 _ dx_s1 ev 1 [dx_m] s); [apply ev_knn_ok|auto|exact E].
  - change (desc_feed ex_o 0.7 ev s 2 [dx_l; dx_r]) with (desc_feed_stereo ex_o 0.7 ev s 2 dx_l dx_r).
    apply stereo_assert; [apply ev_knn_ok|apply ev_rsc_ok|cbn; lia|cbn; lia|discriminate|reflexivity|reflexivity| | |];
      cbn [di_cam dx_l dx_r ev_img]; rewrite ?P0, ?P1; cbn; discriminate.
Qed.

(** stereo detection with points one pixel apart *)
Definition dx_l2 : dimg nat := ev_img 0 ex_f 20 1 55 12.
Definition dx_r2 : dimg nat := ev_img 1 ex_f 20 1 55 12.
Lemma dx_crowded t : exists s, desc_feed ex_o 0.7 ev (desc_new nat ex_o) t [dx_l2; dx_r2] = Ok s /\
  aget (d_pts s) 0 = ev_row 20 1 55 12 /\ ~ one_per_cell ex_o (map fst (aget (d_pts s) 0)).
Proof.
  change (desc_feed ex_o 0.7 ev (desc_new nat ex_o) t [dx_l2; dx_r2]) with (desc_feed_stereo ex_o 0.7 ev (desc_new nat ex_o) t dx_l2 dx_r2).
  assert (A : desc_stereo ex_o 0.7 ev dx_l2 dx_r2 9 = Ok (ev_row 20 1 55 12, ev_row 20 1 55 12, seq 10 12, 21%nat)).
  { unfold desc_stereo, dx_l2, dx_r2. cbn [di_ext di_frame di_cam ev_img]. rewrite ev_match.
    change (px_ok ex_o ex_f && px_ok ex_o ex_f)%bool with true. cbn [guard].
    mm (Ok (map (fun i => mkDM i i 1) (seq 0 12))). cbn [obind].
    rewrite pick_all_pairs by inside. reflexivity. }
  unfold desc_feed_stereo. change (d_cur (desc_new nat ex_o)) with 9%nat. rewrite A. eexists. split; [reflexivity|]. split; [reflexivity|].
  change (aget (d_pts _) 0) with (ev_row 20 1 55 12). intros H.
  specialize (H 0%nat 1%nat (zp (20, 55)%Z) (zp (21, 55)%Z) eq_refl eq_refl).
  enough (0%nat = 1%nat) by discriminate. apply H. exists 2%Z, 5%Z. unfold zp. cbn [fst snd ko_px ex_o]. repeat split; lra.
Qed.

(** a right image larger than the left one: its lower part is not used *)
Definition dx_f2 : frame := mkFrame 300 200 (fun _ _ => false).
Definition dx_r3 : dimg nat := ev_img 1 dx_f2 15 20 155 12.
Lemma dx_larger t : exists s ms, robust_match 0.7 ev (di_ext dx_l) (di_ext dx_r3) 0 1 = Ok ms /\ (length ms = 12)%nat /\
  (forall e, In e (di_ext dx_r3) -> cell_in ex_o dx_f2 (cell ex_o (fst e)) = true /\ in_frame dx_f2 (fst e)) /\
  desc_feed ex_o 0.7 ev (desc_new nat ex_o) t [dx_l; dx_r3] = Ok s /\ aget (d_pts s) 0 = [] /\ aget (d_pts s) 1 = [].
Proof.
  change (desc_feed ex_o 0.7 ev (desc_new nat ex_o) t [dx_l; dx_r3]) with (desc_feed_stereo ex_o 0.7 ev (desc_new nat ex_o) t dx_l dx_r3).
  assert (M : robust_match 0.7 ev (di_ext dx_l) (di_ext dx_r3) 0 1 = Ok (map (fun i => mkDM i i 1) (seq 0 12))) by (rewrite ev_match; reflexivity).
  assert (A : desc_stereo ex_o 0.7 ev dx_l dx_r3 9 = Ok ([], [], [], 9%nat)).
  { unfold desc_stereo. change (px_ok ex_o (di_frame dx_l) && px_ok ex_o (di_frame dx_r3))%bool with true. cbn [guard].
    change (di_cam dx_l) with 0%nat. change (di_cam dx_r3) with 1%nat. rewrite M. cbn [obind].
    assert (NO : forall ms, (forall m, In m ms -> (dm_q m < 12)%nat /\ (dm_t m < 12)%nat) ->
      pick_pairs ex_o (di_frame dx_l) (di_frame dx_r3) (di_ext dx_l) (di_ext dx_r3) ms = Ok []).
    { induction ms as [|m ms IH]; intros H; [reflexivity|]. cbn [pick_pairs]. destruct (H m (or_introl eq_refl)) as [H1 H2].
      rewrite IH by (intros; apply H; right; auto).
      destruct (nth_error (di_ext dx_l) (dm_q m)) as [a|] eqn:EA; [|apply nth_error_None in EA; cbn in EA; lia].
      destruct (nth_error (di_ext dx_r3) (dm_t m)) as [b|] eqn:EB; [|apply nth_error_None in EB; cbn in EB; lia].
      cbn [look obind]. apply nth_error_In in EB. unfold dx_r3 in EB. cbn [di_ext ev_img] in EB. unfold ev_row in EB. apply in_map_iff in EB. destruct EB as (k & <- & K).
      cbn [fst]. rewrite (in_img_zp (di_frame dx_l)). cbn [fst snd]. change (155 <? fr_h (di_frame dx_l))%Z with false. rewrite !andb_false_r. auto. }
    rewrite NO; [reflexivity|]. intros m I'. apply in_map_iff in I'. destruct I' as (k & <- & K). apply in_seq in K. cbn. lia. }
  eexists. eexists. split; [exact M|]. split; [reflexivity|]. split.
  - assert (Q : forall e, In e (di_ext dx_r3) -> cell_in ex_o dx_f2 (cell ex_o (fst e)) = true /\ in_img dx_f2 (fst e) = true).
    { unfold dx_r3. cbn [di_ext ev_img]. inside. }
    intros e H. destruct (Q e H). split; [auto|]. apply in_img_frame; auto.
  - unfold desc_feed_stereo. change (d_cur (desc_new nat ex_o)) with 9%nat. rewrite A. split; [reflexivity|]. split; reflexivity.
Qed.
