(** The descriptor based tracker: one message, and all runs. *)
From Coq Require Import Reals List Arith ZArith Bool Lia Lra.
From Verif Require Import RBool Outcome DbModel DbSpec DbProofs DbThms TrackModel TrackSpec TrackProofs TrackProofs2 FeatModel DescModel DescSpec DescProofs.
Import ListNotations.
Open Scope R_scope.

(** ** Matching *)
Theorem match_spec {D} ratio (v : vision D) p0 p1 c0 c1 ms : knn_ok v ->
  robust_match ratio v p0 p1 c0 c1 = Ok ms ->
  NoDup (map dm_q ms) /\ NoDup (map dm_t ms) /\
  exists good pr,
    (forall i j, matched good i j <-> agree ratio v p0 p1 i j) /\ NoDup (map dm_q good) /\ length pr = length good /\
    (forall k m, nth_error good k = Some m -> exists a b, nth_error p0 (dm_q m) = Some a /\ nth_error p1 (dm_t m) = Some b /\
       nth_error pr k = Some (fst a, fst b)) /\
    ((length good < 10)%nat -> ms = []) /\
    ((10 <= length good)%nat -> forall i j, matched ms i j <->
       exists k m, nth_error good k = Some m /\ dm_q m = i /\ dm_t m = j /\ nth_error (v_rsc v c0 c1 pr) k = Some true).
Proof.
  intros K E. destruct (robust_facts _ _ _ _ _ _ _ K E) as (N1 & N2 & _). split; [auto|]. split; [auto|].
  destruct (robust_res ratio v p0 p1 c0 c1 K) as (pr & _ & L & E' & PR). rewrite E' in E. exists (goods ratio v p0 p1), pr.
  split; [intros; apply goods_in; auto|]. split; [apply goods_nodup_q; auto|]. split; [auto|]. split; [|split].
  - intros k m X. assert (A : agree ratio v p0 p1 (dm_q m) (dm_t m)).
    { apply goods_in; auto. exists m. split; [eapply nth_error_In; eauto|auto]. }
    destruct (agree_range _ _ _ _ _ _ K A) as [R0 R1]. apply nth_error_Some in R0, R1.
    destruct (nth_error p0 (dm_q m)) as [a|] eqn:EA; [|congruence]. destruct (nth_error p1 (dm_t m)) as [b|] eqn:EB; [|congruence].
    exists a, b. split; [auto|]. split; [auto|]. eapply PR; eauto.
  - intros H. apply Nat.ltb_lt in H. rewrite H in E. injection E as <-. auto.
  - intros H. apply Nat.ltb_ge in H. rewrite H in E. pose proof (mask_keep_short _ _ _ E) as SH. rewrite mask_keep_spec in E by auto.
    injection E as <-. clear - SH. intros i j. unfold matched.
    generalize dependent (v_rsc v c0 c1 pr). induction (goods ratio v p0 p1) as [|m l IH]; intros mask SH.
    + cbn. split; [intros (x & [] & _)|]. intros ([|k] & x & X & _); discriminate.
    + destruct mask as [|b mask]; [cbn in SH; lia|]. cbn in SH. specialize (IH mask ltac:(lia)). cbn [combine filter snd]. split.
      * intros (x & X & A & B). destruct b; cbn [map fst] in X.
        -- destruct X as [->|X]; [exists 0%nat, x; cbn; auto|]. destruct (proj1 IH) as (k & y & Y); [eauto|]. exists (S k), y. exact Y.
        -- destruct (proj1 IH) as (k & y & Y); [eauto|]. exists (S k), y. exact Y.
      * intros ([|k] & x & X & A & B & C); cbn in X, C.
        -- injection X as ->. injection C as ->. exists x. cbn. auto.
        -- destruct (proj2 IH) as (y & Y & A' & B'); [exists k, x; auto|]. exists y. destruct b; cbn; auto.
Qed.

(** ** Detection *)
Lemma pick_desc_spec {D} o fr (ext : list (pt * D)) : forall g,
  subseq (pick_desc o fr ext g) ext /\ NoDup (map (fun e => cell o (fst e)) (pick_desc o fr ext g)) /\
  (forall e, In e (pick_desc o fr ext g) -> cell_in o fr (cell o (fst e)) = true /\ in_img fr (fst e) = true /\ ~ In (cell o (fst e)) g) /\
  (forall e, In e ext -> cell_in o fr (cell o (fst e)) = true -> in_img fr (fst e) = true ->
     In (cell o (fst e)) g \/ exists e', In e' (pick_desc o fr ext g) /\ cell o (fst e') = cell o (fst e)).
Proof.
  induction ext as [|e ext IH]; intros g; cbn [pick_desc].
  - split; [constructor|]. split; [constructor|]. split; [intros ? []|intros ? []].
  - destruct (cell_in o fr (cell o (fst e)) && in_img fr (fst e) && negb (occupied g (cell o (fst e))))%bool eqn:C.
    + rewrite !andb_true_iff, negb_true_iff in C. destruct C as [[C1 C2] C3].
      destruct (IH (cell o (fst e) :: g)) as (A & B & F & G).
      assert (C4 : ~ In (cell o (fst e)) g). { intros X. apply occupied_in in X. congruence. }
      split; [constructor; auto|]. split.
      { cbn. constructor; [|auto]. intros X. apply in_map_iff in X. destruct X as (e' & X1 & X2). apply F in X2. destruct X2 as (_ & _ & X2).
        apply X2. left. auto. }
      split.
      { intros x [<-|X]; [auto|]. destruct (F x X) as (X1 & X2 & X3). split; [auto|]. split; [auto|]. intros Y; apply X3; right; auto. }
      intros x [<-|X] Y Z; [right; exists e; split; [left|]; auto|]. destruct (G x X Y Z) as [[W|W]|(e' & W & W')].
      * right. exists e. split; [left|]; auto.
      * left; auto.
      * right. exists e'. split; [right|]; auto.
    + destruct (IH g) as (A & B & F & G). split; [constructor; auto|]. split; [auto|]. split; [auto|].
      intros x [<-|X] Y Z; [|auto]. left. apply occupied_in. rewrite Y, Z in C. cbn in C. apply negb_false_iff in C. auto.
Qed.

Lemma axis_same px a x y : (0 < px)%Z -> -1 < x -> -1 < y ->
  IZR a * IZR px <= x < (IZR a + 1) * IZR px -> IZR a * IZR px <= y < (IZR a + 1) * IZR px ->
  to_int (x / IZR px) = to_int (y / IZR px).
Proof.
  intros P X Y HX HY. assert (P1 : 1 <= IZR px) by (apply (IZR_le 1); lia). pose proof (IZR_lt _ _ P) as P'.
  assert (Q : forall z, -1 < z -> IZR a * IZR px <= z < (IZR a + 1) * IZR px -> to_int (z / IZR px) = Z.max 0 a).
  { intros z Z HZ. destruct (Z.lt_ge_cases a 0) as [A|A].
    - assert (z < 0). { assert (IZR a + 1 <= 0) by (rewrite <- plus_IZR; apply (IZR_le _ 0); lia). nra. }
      assert (z / IZR px < 0) by (apply div_lt_iff; lra). assert (T := to_int_neg _ H0).
      assert (0 <= to_int (z / IZR px))%Z. { apply to_int_gt. apply (Rmult_lt_reg_r (IZR px)); [lra|]. unfold Rdiv. rewrite Rmult_assoc, Rinv_l by lra. nra. }
      lia.
    - assert (0 <= IZR a) by (apply (IZR_le 0); lia). rewrite to_int_nonneg by (apply div_le_iff; nra).
      rewrite (Int_part_unique _ a); [lia|]. split; [apply div_le_iff; lra|apply div_lt_iff; lra]. }
  rewrite !Q; auto.
Qed.
Lemma same_cell_cell o fr p q : (0 < ko_px o)%Z -> in_frame fr p -> in_frame fr q -> same_cell o p q -> cell o p = cell o q.
Proof.
  intros P [[A _] [B _]] [[C _] [E _]] (a & b & H1 & H2 & H3 & H4). unfold cell. f_equal.
  - apply (axis_same (ko_px o) a); auto.
  - apply (axis_same (ko_px o) b); auto.
Qed.

Theorem detect_spec {D} o (im : dimg D) cur r : desc_mono o im cur = Ok r ->
  let new := fst (fst r) in
  subseq new (di_ext im) /\ one_per_cell o (map fst new) /\ (forall e, In e new -> in_frame (di_frame im) (fst e)) /\
  snd (fst r) = seq (S cur) (length new) /\ snd r = (cur + length new)%nat.
Proof.
  intros E new. unfold desc_mono in E. apply guard_ok in E; [|discriminate]. destruct E as [PX E]. injection E as <-.
  unfold px_ok in PX. rewrite !andb_true_iff, Z.ltb_lt in PX. destruct PX as [[PX _] _].
  cbn [fst snd] in *. destruct (pick_desc_spec o (di_frame im) (di_ext im) []) as (A & B & F & _).
  split; [exact A|]. split; [|split; [intros e I'; apply in_img_frame; apply F; auto|auto]].
  intros i j p q Ei Ej S. rewrite nth_error_map in Ei, Ej. fold new in B, F.
  destruct (nth_error new i) as [ei|] eqn:Ni; [|discriminate]. destruct (nth_error new j) as [ej|] eqn:Nj; [|discriminate].
  injection Ei as <-. injection Ej as <-.
  apply (proj1 (NoDup_nth_error _) B); [rewrite map_length; apply nth_error_Some; congruence|].
  rewrite !nth_error_map, Ni, Nj. cbn. f_equal.
  apply (same_cell_cell o (di_frame im)); auto; apply in_img_frame; apply F; eapply nth_error_In; eauto.
Qed.

(** ** Invariant *)
Definition dwf {D} (o : kopts) (s : dtrk D) : Prop :=
  db_ok (d_db s) /\
  (forall cam, length (aget (d_ids s) cam) = length (aget (d_pts s) cam) /\ NoDup (aget (d_ids s) cam)) /\
  (forall id cam, dsees s id cam -> (4 * ko_aruco o + 1 < id <= d_cur s)%nat).

Lemma dlast_get {D} (s : dtrk D) cam ps is_ cur d c :
  aget (d_pts (desc_last s cam ps is_ cur d)) c = (if Nat.eqb c cam then ps else aget (d_pts s) c) /\
  aget (d_ids (desc_last s cam ps is_ cur d)) c = (if Nat.eqb c cam then is_ else aget (d_ids s) c).
Proof. unfold desc_last. cbn. rewrite !aget_aset. auto. Qed.

Lemma feed_mono_res {D} o ratio (v : vision D) s t im s' : dwf o s -> knn_ok v -> desc_feed_mono o ratio v s t im = Ok s' ->
  mono_res o ratio v s s' t im.
Proof.
  intros (OK & LN & SB) K E. unfold desc_feed_mono in E. apply guard_ok in E; [|discriminate]. destruct E as [_ E].
  apply obind_ok in E. destruct E as ([[ps new] cur] & Ed & E). apply detect_spec in Ed. cbn [fst snd] in Ed. destruct Ed as (SS & CE & FR & -> & ->).
  set (cam := di_cam im) in *. destruct (LN cam) as [L N].
  assert (B : forall i, In i (aget (d_ids s) cam) -> (i <= d_cur s)%nat) by (intros i I'; apply (SB i cam); left; auto).
  destruct (aget (d_pts s) cam) as [|e0 es] eqn:P0.
  - injection E as <-. constructor; fold cam; try (intros c X; pose proof (dlast_get s cam ps (seq (S (d_cur s)) (length ps)) (d_cur s + length ps) (d_db s) c) as [G1 G2]; rewrite G1, G2; destruct (Nat.eqb_spec c cam); [congruence|]; split; [auto|]; split; auto);
    destruct (dlast_get s cam ps (seq (S (d_cur s)) (length ps)) (d_cur s + length ps) (d_db s) cam) as [G1 G2]; rewrite ?G1, ?G2, ?Nat.eqb_refl; auto.
    + apply seq_length.
    + apply seq_NoDup.
    + intros _. split; [auto|]. intros k id X. apply nth_seq in X. lia.
    + congruence.
  - rewrite <- P0 in E, L. assert (NE : aget (d_pts s) cam <> []) by congruence.
    apply obind_ok in E. destruct E as (ms & Em & E). apply obind_ok in E. destruct E as (is_ & Ei & E). injection E as <-.
    destruct (robust_facts _ _ _ _ _ _ _ K Em) as (N1 & N2 & AG). apply merge_ids_spec in Ei. destruct Ei as [Li Hi]. rewrite seq_length in Li.
    assert (SRC : forall k x, nth_error is_ k = Some x -> match idx_match ms k with Some j => nth_error (aget (d_ids s) cam) j = Some x | None => x = (S (d_cur s) + k)%nat end).
    { intros k x X. specialize (Hi k x X). cbn [Nat.add] in Hi. destruct (idx_match ms k); [auto|]. apply nth_seq in Hi. lia. }
    assert (ND : NoDup is_).
    { apply (merged_nodup (idx_match ms) (aget (d_ids s) cam) (d_cur s) (length ps)); auto.
      intros k k' j A A'. apply idx_match_some in A, A'. eapply matched_inj; eauto. }
    destruct (record_all_spec (v_und v) t cam (map fst ps) is_ (d_db s) OK) as (R1 & R2 & R3); [rewrite map_length; auto|auto|].
    set (d' := record_all (v_und v) (d_db s) t cam (map fst ps) is_) in *.
    constructor; fold cam; try (intros c X; pose proof (dlast_get s cam ps is_ (d_cur s + length ps) d' c) as [G1 G2]; rewrite G1, G2; destruct (Nat.eqb_spec c cam); [congruence|]; split; [auto|]; split; [auto|]; intros id; apply R3; auto);
    destruct (dlast_get s cam ps is_ (d_cur s + length ps) d' cam) as [G1 G2]; rewrite ?G1, ?G2, ?Nat.eqb_refl; auto.
    + intros; congruence.
    + intros _. split.
      * unfold observed. rewrite ?G1, ?G2, ?Nat.eqb_refl. cbn [d_db desc_last]. split.
        -- intros k id e X Y. apply R2. clear - X Y. revert k ps X Y. induction is_ as [|i l IH]; intros [|k] [|q ps] X Y; cbn in *; try discriminate.
           ++ injection X as ->. injection Y as ->. left; auto.
           ++ right. eauto.
        -- intros id X. apply R3. auto.
      * exists ms. split; [exact Em|]. intros k id X. specialize (SRC k id X). destruct (idx_match ms k) as [j|] eqn:M.
        -- left. exists j. split; [apply idx_match_some|]; auto.
        -- right. split; [apply idx_match_none; auto|lia].
Qed.

(** what a step may do with ids *)
Definition did_step {D} (P : nat -> nat -> Prop) (s s' : dtrk D) : Prop :=
  (d_cur s <= d_cur s')%nat /\
  (forall id c, dsees s' id c -> dsees s id c \/ (d_cur s < id <= d_cur s')%nat) /\
  (forall id c c', (d_cur s < id)%nat -> dsees s' id c -> dsees s' id c' -> c <> c' -> P c c').
Definition dlinked {D} (P : nat -> nat -> Prop) (s : dtrk D) : Prop :=
  forall id c c', dsees s id c -> dsees s id c' -> c <> c' -> P c c'.

Lemma dwf_step {D} o (s s' : dtrk D) : dwf o s -> (d_cur s <= d_cur s')%nat -> (4 * ko_aruco o + 1 <= d_cur s)%nat ->
  (forall id c, dsees s' id c -> dsees s id c \/ (d_cur s < id <= d_cur s')%nat) -> db_ok (d_db s') ->
  (forall cam, length (aget (d_ids s') cam) = length (aget (d_pts s') cam) /\ NoDup (aget (d_ids s') cam)) -> dwf o s'.
Proof.
  intros (OK & LN & SB) C C0 H OK' LN'. split; [auto|]. split; [auto|]. intros id cam X. destruct (H id cam X) as [Y|Y]; [apply SB in Y; lia|lia].
Qed.

Lemma mono_sees {D} o ratio (v : vision D) s t im s' : dwf o s -> mono_res o ratio v s s' t im ->
  (d_cur s <= d_cur s')%nat /\
  forall id c, dsees s' id c -> dsees s id c \/ (c = di_cam im /\ (d_cur s < id <= d_cur s')%nat).
Proof.
  intros W M. pose proof (mr_cur _ _ _ _ _ _ _ M) as C. split; [lia|]. intros id c X. destruct (Nat.eq_dec c (di_cam im)) as [->|Nc].
  - assert (IDS : In id (aget (d_ids s') (di_cam im)) -> dsees s id (di_cam im) \/ (di_cam im = di_cam im /\ (d_cur s < id <= d_cur s')%nat)).
    { intros I'. apply In_nth_error in I'. destruct I' as [k Ek].
      assert (k < length (aget (d_pts s') (di_cam im)))%nat. { rewrite <- (mr_len _ _ _ _ _ _ _ M). apply nth_error_Some. congruence. }
      destruct (aget (d_pts s) (di_cam im)) as [|e0 es] eqn:P0.
      - apply (mr_first _ _ _ _ _ _ _ M P0) in Ek. right. split; [auto|lia].
      - destruct (mr_next _ _ _ _ _ _ _ M ltac:(congruence)) as (_ & ms & _ & H'). destruct (H' k id Ek) as [(j & _ & J)|[_ J]].
        + left. left. eapply nth_error_In; eauto.
        + right. split; [auto|lia]. }
    destruct X as [X|X]; [auto|]. destruct (in_dec Nat.eq_dec id (aget (d_ids s') (di_cam im))) as [I'|I']; [auto|]. left. right.
    destruct (aget (d_pts s) (di_cam im)) as [|e0 es] eqn:P0.
    + destruct (mr_first _ _ _ _ _ _ _ M P0) as [F _]. rewrite F in X. auto.
    + destruct (mr_next _ _ _ _ _ _ _ M ltac:(congruence)) as ((_ & O) & _). rewrite <- O; auto.
  - left. destruct (mr_other _ _ _ _ _ _ _ M c Nc) as (A & B & F). destruct X as [X|X]; [left; rewrite <- B; auto|right; rewrite <- F; auto].
Qed.
Lemma mono_wf {D} o ratio (v : vision D) s t im s' : dwf o s -> (4 * ko_aruco o + 1 <= d_cur s)%nat -> mono_res o ratio v s s' t im -> dwf o s'.
Proof.
  intros W C0 M. destruct (mono_sees _ _ _ _ _ _ _ W M) as [C H]. apply (dwf_step o s s'); auto.
  - intros id c X. destruct (H id c X) as [|[]]; auto.
  - apply M.
  - intros c. destruct (Nat.eq_dec c (di_cam im)) as [->|Nc]; [split; apply M|]. destruct (mr_other _ _ _ _ _ _ _ M c Nc) as (A & B & _).
    rewrite A, B. apply W.
Qed.
Lemma mono_did {D} o ratio P (v : vision D) s t im s' : dwf o s -> mono_res o ratio v s s' t im -> did_step P s s'.
Proof.
  intros W M. destruct (mono_sees _ _ _ _ _ _ _ W M) as [C H]. split; [auto|]. split; [intros id c X; destruct (H id c X) as [|[]]; auto|].
  intros id c c' Q X Y N. exfalso. pose proof W as (_ & _ & SB).
  destruct (H _ _ X) as [X'|[-> _]]; [apply SB in X'; lia|]. destruct (H _ _ Y) as [Y'|[-> _]]; [apply SB in Y'; lia|]. congruence.
Qed.

(** ** Stereo *)
Lemma pick_pairs_spec {D} o fr0 fr1 (p0 p1 : list (pt * D)) ms : forall ps, pick_pairs o fr0 fr1 p0 p1 ms = Ok ps ->
  forall a b, In (a, b) ps <-> exists m, In m ms /\ nth_error p0 (dm_q m) = Some a /\ nth_error p1 (dm_t m) = Some b /\
    cell_in o fr0 (cell o (fst a)) = true /\ in_img fr0 (fst a) = true /\ cell_in o fr1 (cell o (fst b)) = true /\ in_img fr0 (fst b) = true.
Proof.
  induction ms as [|m ms IH]; intros ps E a b; cbn in E.
  - injection E as <-. split; [intros []|intros (m & [] & _)].
  - apply obind_ok in E. destruct E as (x & Ex & E). apply obind_ok in E. destruct E as (y & Ey & E). apply obind_ok in E. destruct E as (r & Er & E).
    apply look_ok in Ex, Ey. injection E as <-. specialize (IH r Er a b).
    destruct (cell_in o fr0 (cell o (fst x)) && in_img fr0 (fst x) && cell_in o fr1 (cell o (fst y)) && in_img fr0 (fst y))%bool eqn:C.
    + rewrite !andb_true_iff in C. split.
      * intros [X|X]; [injection X as <- <-; exists m; split; [left; auto|]; tauto|]. apply IH in X. destruct X as (m' & X & Y). exists m'. split; [right|]; auto.
      * intros (m' & [<-|X] & A & B & C'); [left; congruence|]. right. apply IH. exists m'. auto.
    + split.
      * intros X. apply IH in X. destruct X as (m' & X & Y). exists m'. split; [right|]; auto.
      * intros (m' & [<-|X] & A & B & C1 & C2 & C3 & C4); [|apply IH; exists m'; tauto].
        assert (a = x) by congruence. assert (b = y) by congruence. subst. rewrite C1, C2, C3, C4 in C. discriminate.
Qed.
Lemma pick_pairs_def {D} o fr0 fr1 (p0 p1 : list (pt * D)) ms :
  (forall m, In m ms -> (dm_q m < length p0)%nat /\ (dm_t m < length p1)%nat) -> exists ps, pick_pairs o fr0 fr1 p0 p1 ms = Ok ps.
Proof.
  induction ms as [|m ms IH]; intros H; [eexists; reflexivity|]. destruct IH as [r E]; [intros; apply H; right; auto|].
  destruct (H m (or_introl eq_refl)) as [A B]. apply nth_error_Some in A, B. cbn.
  destruct (nth_error p0 (dm_q m)); [|congruence]. destruct (nth_error p1 (dm_t m)); [|congruence]. cbn. rewrite E. cbn. eexists; reflexivity.
Qed.

Lemma desc_stereo_res {D} o ratio (v : vision D) l r cur x : desc_stereo o ratio v l r cur = Ok x ->
  exists ms ps, robust_match ratio v (di_ext l) (di_ext r) (di_cam l) (di_cam r) = Ok ms /\
    x = (map fst ps, map snd ps, seq (S cur) (length ps), (cur + length ps)%nat) /\
    (forall a b, In (a, b) ps -> (exists i j, matched ms i j /\ nth_error (di_ext l) i = Some a /\ nth_error (di_ext r) j = Some b) /\
       in_frame (di_frame l) (fst a) /\ in_frame (di_frame r) (fst b)).
Proof.
  unfold desc_stereo. intros E. apply guard_ok in E; [|discriminate]. destruct E as [PX E]. apply andb_true_iff in PX. destruct PX as [PX _].
  unfold px_ok in PX. rewrite !andb_true_iff, Z.ltb_lt in PX. destruct PX as [[PX _] _].
  apply obind_ok in E. destruct E as (ms & Em & E). apply obind_ok in E. destruct E as (ps & Ep & E). injection E as <-.
  exists ms, ps. split; [auto|]. split; [auto|]. intros a b I'. apply (pick_pairs_spec _ _ _ _ _ _ _ Ep) in I'.
  destruct I' as (m & M & A & B & C1 & C2 & C3 & C4). split; [exists (dm_q m), (dm_t m); split; [exists m; auto|auto]|].
  split; [apply in_img_frame; auto|]. apply in_img_frame in C4. destruct C4 as [[F1 _] [F2 _]]. destruct (cell_frame _ _ _ PX C3). repeat split; auto.
Qed.

Lemma dlast2_get {D} (s : dtrk D) c0 c1 p0 p1 i0 i1 cur d : c0 <> c1 ->
  let s' := desc_last (desc_last s c0 p0 i0 cur d) c1 p1 i1 cur d in
  aget (d_pts s') c0 = p0 /\ aget (d_ids s') c0 = i0 /\ aget (d_pts s') c1 = p1 /\ aget (d_ids s') c1 = i1 /\
  forall c, c <> c0 -> c <> c1 -> aget (d_pts s') c = aget (d_pts s) c /\ aget (d_ids s') c = aget (d_ids s) c.
Proof.
  intros N s'. unfold s', desc_last. cbn [d_pts d_ids]. rewrite !aget_aset, !Nat.eqb_refl.
  destruct (Nat.eqb_spec c0 c1); [contradiction|]. split; [auto|]. split; [auto|]. split; [auto|]. split; [auto|].
  intros c A B. rewrite !aget_aset. destruct (Nat.eqb_spec c c1); [contradiction|]. destruct (Nat.eqb_spec c c0); [contradiction|]. auto.
Qed.

Lemma feed_stereo_res {D} o ratio (v : vision D) s t l r s' : dwf o s -> knn_ok v -> desc_feed_stereo o ratio v s t l r = Ok s' ->
  stereo_res o ratio v s s' t l r.
Proof.
  intros (OK & LN & SB) K E. unfold desc_feed_stereo in E. apply guard_ok in E; [|discriminate]. destruct E as [G E].
  rewrite !andb_true_iff, negb_true_iff, Nat.eqb_neq in G. destruct G as [_ NC].
  apply obind_ok in E. destruct E as (x & Ed & E). apply desc_stereo_res in Ed. destruct Ed as (ms & ps & Em & -> & PAIR).
  set (c0 := di_cam l) in *. set (c1 := di_cam r) in *.
  assert (PR : forall k a b, nth_error (map fst ps) k = Some a -> nth_error (map snd ps) k = Some b ->
      (exists i j, matched ms i j /\ nth_error (di_ext l) i = Some a /\ nth_error (di_ext r) j = Some b) /\
      in_frame (di_frame l) (fst a) /\ in_frame (di_frame r) (fst b)).
  { intros k a b A B. rewrite nth_error_map in A, B. destruct (nth_error ps k) as [[a' b']|] eqn:Ek; [|discriminate]. cbn in A, B.
    injection A as ->. injection B as ->. apply PAIR. eapply nth_error_In; eauto. }
  assert (L0 : length (map fst ps) = length ps) by apply map_length. assert (L1 : length (map snd ps) = length ps) by apply map_length.
  destruct (LN c0) as [LA NA]. destruct (LN c1) as [LB NB].
  assert (B0 : forall i, In i (aget (d_ids s) c0) -> (i <= d_cur s)%nat) by (intros i I'; apply (SB i c0); left; auto).
  assert (FIRST : (aget (d_pts s) c0 = [] \/ aget (d_pts s) c1 = []) ->
    Ok (desc_last (desc_last s c0 (map fst ps) (seq (S (d_cur s)) (length ps)) (d_cur s + length ps) (d_db s)) c1 (map snd ps) (seq (S (d_cur s)) (length ps)) (d_cur s + length ps) (d_db s)) = Ok s' ->
    stereo_res o ratio v s s' t l r).
  { intros FI EE. injection EE as <-.
    destruct (dlast2_get s c0 c1 (map fst ps) (map snd ps) (seq (S (d_cur s)) (length ps)) (seq (S (d_cur s)) (length ps)) (d_cur s + length ps) (d_db s) NC) as (G1 & G2 & G3 & G4 & G5).
    constructor; fold c0 c1; rewrite ?G1, ?G2, ?G3, ?G4, ?seq_length; auto.
    - intros c X Y. destruct (G5 c X Y). auto.
    - exists ms. auto.
    - cbn. rewrite L0. auto.
    - apply seq_NoDup.
    - intros _. split; [auto|]. intros k id X. apply nth_seq in X. lia.
    - intros X Y. exfalso. destruct FI; contradiction. }
  destruct (aget (d_pts s) c0) as [|e0 es0] eqn:P0; [auto|]. destruct (aget (d_pts s) c1) as [|e1 es1] eqn:P1; [auto|]. clear FIRST.
  rewrite <- P0, <- P1 in *.
  apply obind_ok in E. destruct E as (ml & El & E). apply obind_ok in E. destruct E as (mr & Er & E).
  apply guard_ok in E; [|discriminate]. destruct E as [SZ E]. apply Nat.eqb_eq in SZ.
  apply guard_ok in E; [|discriminate]. destruct E as [_ E].
  apply obind_ok in E. destruct E as ([i0 i1] & Ei & E). apply obind_ok in E. destruct E as (d & Edb & E). cbn [fst snd] in *. injection E as <-.
  destruct (robust_facts _ _ _ _ _ _ _ K El) as (NL1 & NL2 & _). destruct (robust_facts _ _ _ _ _ _ _ K Er) as (NR1 & NR2 & _).
  apply merge_stereo_spec in Ei. cbn [fst snd Nat.add] in Ei. destruct Ei as (Li & <- & Hi). rewrite seq_length in Li.
  assert (ND : NoDup i0).
  { apply NoDup_nth_error. intros i j H EQ. destruct (nth_error i0 i) as [x|] eqn:Xi; [|apply nth_error_None in Xi; lia].
    destruct (Hi i x Xi) as [(a & b & A1 & _ & A3 & _)|[A1 _]], (Hi j x (eq_sym EQ)) as [(a' & b' & B1 & _ & B3 & _)|[B1 _]].
    - assert (a = a'). { apply (proj1 (NoDup_nth_error _) NA); [apply nth_error_Some; congruence|congruence]. } subst.
      apply idx_match_some in A1, B1. eapply (matched_inj ml); eauto.
    - apply nth_error_In, B0 in A3. apply nth_seq in B1. lia.
    - apply nth_error_In, B0 in B3. apply nth_seq in A1. lia.
    - apply nth_seq in A1, B1. lia. }
  destruct (record_pairs_spec (v_und v) t c0 c1 i0 NC (map fst (map fst ps)) (map fst (map snd ps)) (d_db s) OK) as (d' & E1 & OK' & T0 & T1 & T2);
    [rewrite !map_length; auto|rewrite !map_length; auto|auto|]. rewrite E1 in Edb. injection Edb as ->.
  destruct (dlast2_get s c0 c1 (map fst ps) (map snd ps) i0 i0 (d_cur s + length ps) d NC) as (G1 & G2 & G3 & G4 & G5).
  constructor; fold c0 c1; rewrite ?G1, ?G2, ?G3, ?G4; auto.
  - intros c X Y. destruct (G5 c X Y). split; [auto|]. split; [auto|]. intros id. cbn [d_db desc_last]. apply T2. auto.
  - exists ms. auto.
  - cbn. rewrite L0. auto.
  - congruence.
  - congruence.
  - intros [X|X]; congruence.
  - intros _ _. unfold observed. rewrite ?G1, ?G2, ?G3, ?G4. cbn [d_db desc_last]. split; [|split; [|split; [auto|]]].
    + split; [intros k id e X Y; apply (T0 k); auto; rewrite nth_error_map, Y; auto|intros id X; apply T2; auto].
    + split; [intros k id e X Y; apply (T1 k); auto; rewrite nth_error_map, Y; auto|intros id X; apply T2; auto].
    + exists ml, mr. split; [auto|]. split; [auto|]. intros k id X. destruct (Hi k id X) as [(a & b & A1 & A2 & A3 & A4)|[A1 A2]].
      * left. exists a, b. apply idx_match_some in A1, A2. auto.
      * right. apply nth_seq in A1. split; [|lia]. intros (a & b & x & Q1 & Q2 & Q3 & Q4). apply A2.
        destruct (idx_match ml k) as [a'|] eqn:Ma; [|exfalso; apply (idx_match_none _ _ Ma a); auto].
        destruct (idx_match mr k) as [b'|] eqn:Mb; [|exfalso; apply (idx_match_none _ _ Mb b); auto].
        apply idx_match_some in Ma, Mb. rewrite (matched_fun ml a' a k) by auto. rewrite (matched_fun mr b' b k) by auto. exists a, b, x. auto.
Qed.

Lemma stereo_sees {D} o ratio (v : vision D) s t l r s' : dwf o s -> stereo_res o ratio v s s' t l r ->
  (d_cur s <= d_cur s')%nat /\
  forall id c, dsees s' id c -> dsees s id c \/ ((c = di_cam l \/ c = di_cam r) /\ (d_cur s < id <= d_cur s')%nat).
Proof.
  intros W M. pose proof (sr_cur _ _ _ _ _ _ _ _ M) as C. split; [lia|].
  pose proof (sr_ids _ _ _ _ _ _ _ _ M) as EI. pose proof (sr_len0 _ _ _ _ _ _ _ _ M) as LE.
  assert (FST : (aget (d_pts s) (di_cam l) = [] \/ aget (d_pts s) (di_cam r) = []) \/ (aget (d_pts s) (di_cam l) <> [] /\ aget (d_pts s) (di_cam r) <> [])).
  { destruct (aget (d_pts s) (di_cam l)); [auto|]. destruct (aget (d_pts s) (di_cam r)); [auto|]. right; split; discriminate. }
  assert (IDS : forall id c, (c = di_cam l \/ c = di_cam r) -> In id (aget (d_ids s') (di_cam l)) -> dsees s id c \/ ((c = di_cam l \/ c = di_cam r) /\ (d_cur s < id <= d_cur s')%nat)).
  { intros id c HC I'. apply In_nth_error in I'. destruct I' as [k Ek].
    assert (k < length (aget (d_pts s') (di_cam l)))%nat. { rewrite <- LE. apply nth_error_Some. congruence. }
    destruct FST as [F|[F1 F2]].
    - apply (sr_first _ _ _ _ _ _ _ _ M F) in Ek. right. split; [auto|lia].
    - destruct (sr_next _ _ _ _ _ _ _ _ M F1 F2) as (_ & _ & _ & ml & mr & _ & _ & H'). destruct (H' k id Ek) as [(i & j & _ & _ & I' & J)|[_ J]].
      + left. left. destruct HC as [-> | ->]; eapply nth_error_In; eauto.
      + right. split; [auto|lia]. }
  intros id c X.
  destruct (Nat.eq_dec c (di_cam l)) as [E0|N0]; [|destruct (Nat.eq_dec c (di_cam r)) as [E1|N1]].
  - subst c. destruct X as [X|X]; [apply IDS; auto|]. destruct (in_dec Nat.eq_dec id (aget (d_ids s') (di_cam l))) as [I'|I']; [apply IDS; auto|]. left. right.
    destruct FST as [F|[F1 F2]]; [destruct (sr_first _ _ _ _ _ _ _ _ M F) as [G _]; rewrite G in X; auto|].
    destruct (sr_next _ _ _ _ _ _ _ _ M F1 F2) as ((_ & G) & _). rewrite <- G; auto.
  - subst c. rewrite EI in IDS. destruct X as [X|X]; [apply IDS; auto|]. destruct (in_dec Nat.eq_dec id (aget (d_ids s') (di_cam r))) as [I'|I']; [apply IDS; auto|]. left. right.
    destruct FST as [F|[F1 F2]]; [destruct (sr_first _ _ _ _ _ _ _ _ M F) as [G _]; rewrite G in X; auto|].
    destruct (sr_next _ _ _ _ _ _ _ _ M F1 F2) as (_ & (_ & G) & _). rewrite <- G; auto.
  - left. destruct (sr_other _ _ _ _ _ _ _ _ M c N0 N1) as (A & B & F). destruct X as [X|X]; [left; rewrite <- B; auto|right; rewrite <- F; auto].
Qed.
Lemma stereo_wf {D} o ratio (v : vision D) s t l r s' : dwf o s -> (4 * ko_aruco o + 1 <= d_cur s)%nat -> stereo_res o ratio v s s' t l r -> dwf o s'.
Proof.
  intros W C0 M. destruct (stereo_sees _ _ _ _ _ _ _ _ W M) as [C H]. apply (dwf_step o s s'); auto.
  - intros id c X. destruct (H id c X) as [|[]]; auto.
  - apply M.
  - pose proof (sr_ids _ _ _ _ _ _ _ _ M) as EI. intros c. destruct (Nat.eq_dec c (di_cam l)) as [->|N0]; [split; apply M|].
    destruct (Nat.eq_dec c (di_cam r)) as [->|N1]; [rewrite <- EI; split; apply M|]. destruct (sr_other _ _ _ _ _ _ _ _ M c N0 N1) as (A & B & _).
    rewrite A, B. apply W.
Qed.
Lemma stereo_did {D} o ratio (P : nat -> nat -> Prop) (v : vision D) s t l r s' : dwf o s -> P (di_cam l) (di_cam r) -> P (di_cam r) (di_cam l) ->
  stereo_res o ratio v s s' t l r -> did_step P s s'.
Proof.
  intros W P1 P2 M. destruct (stereo_sees _ _ _ _ _ _ _ _ W M) as [C H]. split; [auto|]. split; [intros id c X; destruct (H id c X) as [|[]]; auto|].
  intros id c c' Q X Y N. pose proof W as (_ & _ & SB).
  destruct (H _ _ X) as [X'|[X' _]]; [apply SB in X'; lia|]. destruct (H _ _ Y) as [Y'|[Y' _]]; [apply SB in Y'; lia|].
  destruct X' as [-> | ->], Y' as [-> | ->]; auto; congruence.
Qed.
Lemma did_trans {D} P (s1 s2 s3 : dtrk D) : did_step P s1 s2 -> did_step P s2 s3 -> did_step P s1 s3.
Proof.
  intros (A1 & B1 & C1) (A2 & B2 & C2). split; [lia|]. split.
  - intros id c X. destruct (B2 _ _ X) as [X'|X']; [|right; lia]. destruct (B1 _ _ X') as [|]; [auto|right; lia].
  - intros id c c' H X Y N. destruct (le_lt_dec id (d_cur s2)) as [Q|Q]; [|eauto].
    destruct (B2 _ _ X) as [X'|X']; [|lia]. destruct (B2 _ _ Y) as [Y'|Y']; [|lia]. eauto.
Qed.

Lemma dfeed_step {D} o ratio P (v : vision D) s t imgs s' : dwf o s -> (4 * ko_aruco o + 1 <= d_cur s)%nat -> knn_ok v ->
  (ko_stereo o = true -> forall l r, imgs = [l; r] -> P (di_cam l) (di_cam r) /\ P (di_cam r) (di_cam l)) ->
  desc_feed o ratio v s t imgs = Ok s' -> dwf o s' /\ did_step P s s'.
Proof.
  intros W C0 K HP E.
  assert (MONO : forall im s s', dwf o s -> (4 * ko_aruco o + 1 <= d_cur s)%nat -> desc_feed_mono o ratio v s t im = Ok s' -> dwf o s' /\ did_step P s s').
  { clear - K. intros im s s' W C0 E. apply feed_mono_res in E; auto. split; [eapply mono_wf; eauto|eapply mono_did; eauto]. }
  unfold desc_feed in E. destruct imgs as [|l [|r rest]]; [discriminate|eauto|].
  destruct ((length (l :: r :: rest) =? 2)%nat && ko_stereo o)%bool eqn:B.
  - apply andb_true_iff in B. destruct B as [B2 B1]. apply Nat.eqb_eq in B2. destruct rest; [|discriminate].
    destruct (HP B1 l r eq_refl) as [P1 P2]. apply feed_stereo_res in E; auto. split; [apply (stereo_wf o ratio v s t l r); auto|apply (stereo_did o ratio P v s t l r); auto].
  - destruct (ko_stereo o); cbn [negb] in E; [discriminate|]. clear B HP.
    assert (G : forall l0 s s', dwf o s -> (4 * ko_aruco o + 1 <= d_cur s)%nat -> ofold (fun s im => desc_feed_mono o ratio v s t im) l0 s = Ok s' -> l0 <> [] -> dwf o s' /\ did_step P s s').
    { clear - MONO. induction l0 as [|im l0 IH]; intros s s' W C0 E N; [congruence|].
      cbn [ofold] in E. apply obind_ok in E. destruct E as (s1 & E1 & E). destruct (MONO _ _ _ W C0 E1) as [W1 I1].
      destruct l0 as [|c2 l0]; [injection E as <-; auto|]. destruct (IH _ _ W1 ltac:(destruct I1; lia) E ltac:(discriminate)) as [W2 I2].
      split; [auto|]. eapply did_trans; eauto. }
    eapply G; eauto. discriminate.
Qed.

Lemma dreach_inv {D} o ratio P (s : dtrk D) : dreach o ratio P s -> dwf o s /\ (4 * ko_aruco o + 1 <= d_cur s)%nat /\ dlinked P s.
Proof.
  induction 1 as [|s s' R (W & C & L) S].
  - split; [|split].
    + split; [split; [constructor|intros ? ? []]|]. split; [intros cam; cbn; split; [auto|constructor]|]. intros id cam [[]|X]; cbn in X; congruence.
    + cbn. lia.
    + intros id c c' [[]|X]; cbn in X; congruence.
  - destruct S as [s v t imgs s' K HP E|s d OK SH].
    + destruct (dfeed_step _ _ _ _ _ _ _ _ W C K HP E) as [W' (A & B & F)]. split; [auto|]. split; [lia|].
      intros id c c' X Y N. pose proof W as (_ & _ & SB). destruct (le_lt_dec id (d_cur s)) as [Q|Q]; [|eauto].
      destruct (B _ _ X) as [X'|X']; [|lia]. destruct (B _ _ Y) as [Y'|Y']; [|lia]. eauto.
    + assert (Q : forall id c, dsees (mkDT (d_cur s) (d_pts s) (d_ids s) d) id c -> dsees s id c).
      { intros id c [X|X]; [left; auto|right; auto]. }
      destruct W as (W1 & W2 & W3). split; [|split; [auto|]].
      * split; [auto|]. split; [auto|]. intros id cam X. apply Q in X. apply W3 in X. auto.
      * intros id c c' X Y N. eauto.
Qed.

(** ** Definedness *)
Theorem mono_defined {D} o ratio (v : vision D) s t im : dwf o s -> knn_ok v -> rsc_ok v ->
  (di_cam im < ko_cams o)%nat -> px_ok o (di_frame im) = true -> exists s', desc_feed_mono o ratio v s t im = Ok s'.
Proof.
  intros W K RS C PX. unfold desc_feed_mono. apply Nat.ltb_lt in C. rewrite C. cbn [guard]. unfold desc_mono. rewrite PX. cbn [guard obind].
  destruct (aget (d_pts s) (di_cam im)) as [|e0 es] eqn:P0; [eexists; reflexivity|]. rewrite <- P0.
  destruct (robust_defined ratio v (aget (d_pts s) (di_cam im)) (pick_desc o (di_frame im) (di_ext im) []) (di_cam im) (di_cam im) K RS) as [ms E]. rewrite E. cbn [obind].
  destruct (merge_ids_def ms (aget (d_ids s) (di_cam im)) (seq (S (d_cur s)) (length (pick_desc o (di_frame im) (di_ext im) []))) 0) as [r Er].
  { intros j k M. apply (robust_facts _ _ _ _ _ _ _ K E) in M. apply agree_range in M; auto. destruct W as (_ & LN & _). destruct (LN (di_cam im)) as [L _]. lia. }
  rewrite Er. cbn. eexists; reflexivity.
Qed.

Theorem stereo_defined {D} o ratio (v : vision D) s t l r : dwf o s -> knn_ok v -> rsc_ok v ->
  (di_cam l < ko_cams o)%nat -> (di_cam r < ko_cams o)%nat -> di_cam l <> di_cam r ->
  px_ok o (di_frame l) = true -> px_ok o (di_frame r) = true ->
  ((exists s', desc_feed_stereo o ratio v s t l r = Ok s') <->
   (aget (d_pts s) (di_cam l) = [] \/ aget (d_pts s) (di_cam r) = [] \/
    length (aget (d_pts s) (di_cam l)) = length (aget (d_pts s) (di_cam r)))).
Proof.
  intros W K RS C0 C1 NC PX0 PX1. split.
  - intros [s' E]. apply feed_stereo_res in E; auto. destruct (aget (d_pts s) (di_cam l)) eqn:P0; [auto|]. destruct (aget (d_pts s) (di_cam r)) eqn:P1; [auto|].
    right. right. rewrite <- P0, <- P1. destruct (sr_next _ _ _ _ _ _ _ _ E) as (_ & _ & Q & _); [congruence|congruence|exact Q].
  - intros H. unfold desc_feed_stereo. apply Nat.ltb_lt in C0, C1. rewrite C0, C1. apply Nat.eqb_neq in NC. rewrite NC. cbn [andb negb guard].
    unfold desc_stereo. rewrite PX0, PX1. cbn [andb guard].
    destruct (robust_defined ratio v (di_ext l) (di_ext r) (di_cam l) (di_cam r) K RS) as [ms Em]. rewrite Em. cbn [obind].
    destruct (pick_pairs_def o (di_frame l) (di_frame r) (di_ext l) (di_ext r) ms) as [ps Ep].
    { intros m M. assert (A : matched ms (dm_q m) (dm_t m)) by (exists m; auto). apply (robust_facts _ _ _ _ _ _ _ K Em) in A. apply agree_range in A; auto. }
    rewrite Ep. cbn [obind].
    destruct (aget (d_pts s) (di_cam l)) as [|e0 es0] eqn:P0; [eexists; reflexivity|]. destruct (aget (d_pts s) (di_cam r)) as [|e1 es1] eqn:P1; [eexists; reflexivity|].
    destruct H as [H|[H|H]]; [discriminate|discriminate|]. rewrite <- P0, <- P1 in *.
    destruct (robust_defined ratio v (aget (d_pts s) (di_cam l)) (map fst ps) (di_cam l) (di_cam l) K RS) as [ml El]. rewrite El. cbn [obind].
    destruct (robust_defined ratio v (aget (d_pts s) (di_cam r)) (map snd ps) (di_cam r) (di_cam r) K RS) as [mr Er]. rewrite Er. cbn [obind].
    rewrite H, Nat.eqb_refl. cbn [guard]. rewrite !map_length, Nat.eqb_refl. cbn [guard].
    pose proof W as (OK & LN & SB). destruct (LN (di_cam l)) as [LA NA]. destruct (LN (di_cam r)) as [LB NB].
    destruct (merge_stereo_def ml mr (aget (d_ids s) (di_cam l)) (aget (d_ids s) (di_cam r)) (seq (S (d_cur s)) (length ps)) 0) as [[i0 i1] Ei].
    { intros j k M. apply (robust_facts _ _ _ _ _ _ _ K El) in M. apply agree_range in M; auto. lia. }
    { intros j k M. apply (robust_facts _ _ _ _ _ _ _ K Er) in M. apply agree_range in M; auto. lia. }
    rewrite Ei. cbn [obind fst snd].
    assert (RD : forall p0 p1 ids d, length ids = length p0 -> length ids = length p1 -> exists d', record_pairs (v_und v) d t (di_cam l) (di_cam r) p0 p1 ids ids = Ok d').
    { clear. intros p0 p1 ids. revert p0 p1. induction ids as [|i ids IH]; intros [|a p0] [|b p1] d A B; try discriminate; [eexists; reflexivity|].
      cbn [record_pairs]. rewrite Nat.eqb_refl. cbn [guard]. cbn in A, B. apply IH; lia. }
    apply merge_stereo_spec in Ei. cbn [fst snd] in Ei. destruct Ei as (Li & <- & _). rewrite seq_length in Li.
    destruct (RD (map fst (map fst ps)) (map fst (map snd ps)) i0 (d_db s)) as [d' Ed]; [rewrite !map_length; auto|rewrite !map_length; auto|].
    rewrite Ed. cbn. eexists; reflexivity.
Qed.

(** the assertion on the numbers of points *)
Theorem stereo_assert {D} o ratio (v : vision D) s t l r : knn_ok v -> rsc_ok v ->
  (di_cam l < ko_cams o)%nat -> (di_cam r < ko_cams o)%nat -> di_cam l <> di_cam r ->
  px_ok o (di_frame l) = true -> px_ok o (di_frame r) = true ->
  aget (d_pts s) (di_cam l) <> [] -> aget (d_pts s) (di_cam r) <> [] ->
  length (aget (d_pts s) (di_cam l)) <> length (aget (d_pts s) (di_cam r)) ->
  desc_feed_stereo o ratio v s t l r = UB.
Proof.
  intros K RS C0 C1 NC PX0 PX1 N0 N1 NE. unfold desc_feed_stereo. apply Nat.ltb_lt in C0, C1. rewrite C0, C1. apply Nat.eqb_neq in NC. rewrite NC. cbn [andb negb guard].
  unfold desc_stereo. rewrite PX0, PX1. cbn [andb guard].
  destruct (robust_defined ratio v (di_ext l) (di_ext r) (di_cam l) (di_cam r) K RS) as [ms Em]. rewrite Em. cbn [obind].
  destruct (pick_pairs_def o (di_frame l) (di_frame r) (di_ext l) (di_ext r) ms) as [ps Ep].
  { intros m M. assert (A : matched ms (dm_q m) (dm_t m)) by (exists m; auto). apply (robust_facts _ _ _ _ _ _ _ K Em) in A. apply agree_range in A; auto. }
  rewrite Ep. cbn [obind].
  destruct (aget (d_pts s) (di_cam l)) as [|e0 es0] eqn:P0; [congruence|]. destruct (aget (d_pts s) (di_cam r)) as [|e1 es1] eqn:P1; [congruence|].
  rewrite <- P0, <- P1 in *.
  destruct (robust_defined ratio v (aget (d_pts s) (di_cam l)) (map fst ps) (di_cam l) (di_cam l) K RS) as [ml El]. rewrite El. cbn [obind].
  destruct (robust_defined ratio v (aget (d_pts s) (di_cam r)) (map snd ps) (di_cam r) (di_cam r) K RS) as [mr Er]. rewrite Er. cbn [obind].
  apply Nat.eqb_neq in NE. rewrite NE. reflexivity.
Qed.
