(** Proofs about the descriptor based tracker: matching, merging, detection. *)
From Coq Require Import Reals List Arith ZArith Bool Lia Lra.
From Verif Require Import RBool Outcome DbModel DbSpec DbProofs DbThms TrackModel TrackSpec TrackProofs TrackProofs2 FeatModel DescModel DescSpec.
Import ListNotations.
Open Scope R_scope.

Lemma look_ok {A} (o : option A) a : look o = Ok a <-> o = Some a.
Proof. destruct o; cbn; split; congruence. Qed.

Lemma nodup_other {A} (f g : A -> nat) l : NoDup (map f l) ->
  (forall a b, In a l -> In b l -> g a = g b -> f a = f b) -> NoDup (map g l).
Proof.
  induction l as [|a l IH]; cbn; intros N H; [constructor|]. inversion N as [|? ? N1 N2]; subst. constructor.
  - intros X. apply in_map_iff in X. destruct X as (b & E & X). apply N1. apply in_map_iff. exists b. split; [|auto]. apply H; auto.
  - apply IH; auto.
Qed.

(** ** Matching *)
Lemma ratio_over_false ratio a b : 0 <= dm_d a -> 0 <= dm_d b -> (ratio_over ratio a b = false <-> dm_d a <= ratio * dm_d b).
Proof.
  intros A B. unfold ratio_over. destruct (Reqb_spec (dm_d b) 0) as [E|E].
  - rewrite negb_false_iff, Reqb_true, E. split; intros; lra.
  - rewrite Rltb_false. assert (0 < dm_d b) by lra. split; intros H'.
    + apply (Rmult_le_compat_r (dm_d b)) in H'; [|lra]. unfold Rdiv in H'. rewrite Rmult_assoc, Rinv_l in H' by lra. lra.
    + apply (Rmult_le_reg_r (dm_d b)); [auto|]. unfold Rdiv. rewrite Rmult_assoc, Rinv_l by lra. lra.
Qed.

Lemma nth_ratio ratio ms i m : nth_error (ratio_test ratio ms) i = Some m <->
  exists m0, nth_error ms i = Some m0 /\
    m = match m0 with a :: b :: _ => if ratio_over ratio a b then [] else m0 | _ => [] end.
Proof.
  unfold ratio_test. rewrite nth_error_map. destruct (nth_error ms i) as [m0|]; cbn; split.
  - intros H. injection H as <-. eauto.
  - intros (m1 & E & ->). injection E as ->. auto.
  - discriminate.
  - intros (m1 & E & _). discriminate.
Qed.
Lemma ratio_length ratio ms : length (ratio_test ratio ms) = length ms.
Proof. apply map_length. Qed.

Lemma nth_ratio_two {D} ratio (v : vision D) a b i x y l : knn_ok v ->
  (nth_error (ratio_test ratio (v_knn v a b)) i = Some (x :: y :: l) <->
   nth_error (v_knn v a b) i = Some (x :: y :: l) /\ dm_d x <= ratio * dm_d y).
Proof.
  intros K. destruct (K a b) as [_ K2].
  assert (S : forall z w r, nth_error (v_knn v a b) i = Some (z :: w :: r) -> 0 <= dm_d z /\ 0 <= dm_d w).
  { intros z w r E. split; [apply (K2 i _ z E); left; auto|apply (K2 i _ w E); right; left; auto]. }
  rewrite nth_ratio. split.
  - intros (m0 & E & H). destruct m0 as [|z [|w r]]; try discriminate. destruct (S _ _ _ E) as [S1 S2].
    destruct (ratio_over ratio z w) eqn:O; [discriminate|]. injection H as -> -> ->. split; [auto|]. apply ratio_over_false; auto.
  - intros [E H]. destruct (S _ _ _ E) as [S1 S2]. exists (x :: y :: l). split; [auto|].
    rewrite (proj2 (ratio_over_false ratio x y S1 S2) H). auto.
Qed.

Lemma symm_sub k10 l : forall k, (forall i m x, nth_error l i = Some m -> In x m -> dm_q x = (k + i)%nat) ->
  subseq (map dm_q (symmetry_test l k10)) (seq k (length l)).
Proof.
  induction l as [|m l IH]; intros k H; [constructor|]. cbn [length seq].
  assert (IH' : subseq (map dm_q (symmetry_test l k10)) (seq (S k) (length l))).
  { apply IH. intros i m' x E I'. rewrite (H (S i) m' x E I'). lia. }
  change (symmetry_test (m :: l) k10) with
    ((match m with a :: _ :: _ => if existsb (symmetric a) k10 then [mkDM (dm_q a) (dm_t a) (dm_d a)] else [] | _ => [] end) ++ symmetry_test l k10).
  destruct m as [|a [|b r]]; try (cbn [app]; constructor; exact IH').
  destruct (existsb (symmetric a) k10); cbn [app map dm_q]; [|constructor; exact IH'].
  rewrite (H 0%nat (a :: b :: r) a eq_refl (or_introl eq_refl)), Nat.add_0_r. constructor. exact IH'.
Qed.

Lemma knn_two {D} (v : vision D) a b i x y l : knn_ok v -> nth_error (v_knn v a b) i = Some (x :: y :: l) ->
  dm_q x = i /\ (dm_t x < length b)%nat /\ (i < length a)%nat.
Proof.
  intros K E. destruct (K a b) as [K1 K2]. destruct (K2 i _ x E (or_introl eq_refl)) as (A & B & _). split; [auto|]. split; [auto|].
  rewrite <- K1. apply nth_error_Some. congruence.
Qed.

Definition goods {D} (ratio : R) (v : vision D) (p0 p1 : list (pt * D)) : list dmatch :=
  symmetry_test (ratio_test ratio (v_knn v (map snd p0) (map snd p1))) (ratio_test ratio (v_knn v (map snd p1) (map snd p0))).

Lemma goods_in {D} ratio (v : vision D) p0 p1 i j : knn_ok v ->
  (matched (goods ratio v p0 p1) i j <-> agree ratio v p0 p1 i j).
Proof.
  intros K. unfold matched, agree, goods, symmetry_test. split.
  - intros (m & I' & <- & <-). apply in_flat_map in I'. destruct I' as (m0 & I0 & I').
    destruct m0 as [|a [|b r]]; try contradiction. destruct (existsb _ _) eqn:X; [|contradiction]. destruct I' as [<-|[]]. cbn [dm_q dm_t].
    apply In_nth_error in I0. destruct I0 as [i0 E0]. apply nth_ratio_two in E0; auto. destruct E0 as [E0 R0].
    apply existsb_exists in X. destruct X as (m2 & I2 & X). destruct m2 as [|c [|d r2]]; try discriminate. cbn in X.
    apply andb_true_iff in X. rewrite !Nat.eqb_eq in X. destruct X as [X1 X2].
    apply In_nth_error in I2. destruct I2 as [i2 E2]. apply nth_ratio_two in E2; auto. destruct E2 as [E2 R2].
    destruct (knn_two _ _ _ _ _ _ _ K E0) as (Q0 & T0 & _). destruct (knn_two _ _ _ _ _ _ _ K E2) as (Q2 & T2 & _).
    split; [exists a, b, r|exists c, d, r2].
    + rewrite Q0. auto.
    + rewrite <- X2, Q2. auto.
  - intros [(a & b & r & E0 & T0 & R0) (c & d & r2 & E2 & T2 & R2)].
    destruct (knn_two _ _ _ _ _ _ _ K E0) as (Q0 & L0 & _). destruct (knn_two _ _ _ _ _ _ _ K E2) as (Q2 & L2 & _).
    exists (mkDM (dm_q a) (dm_t a) (dm_d a)). split; [|cbn; auto]. apply in_flat_map. exists (a :: b :: r). split.
    + eapply nth_error_In. apply nth_ratio_two; eauto.
    + assert (X : existsb (symmetric a) (ratio_test ratio (v_knn v (map snd p1) (map snd p0))) = true).
      { apply existsb_exists. exists (c :: d :: r2). split; [eapply nth_error_In; apply nth_ratio_two; eauto|].
        cbn. rewrite andb_true_iff, !Nat.eqb_eq. split; congruence. }
      rewrite X. left; auto.
Qed.

Lemma agree_range {D} ratio (v : vision D) p0 p1 i j : knn_ok v -> agree ratio v p0 p1 i j -> (i < length p0)%nat /\ (j < length p1)%nat.
Proof.
  intros K [(a & b & r & E0 & T0 & R0) (c & d & r2 & E2 & T2 & R2)].
  destruct (knn_two _ _ _ _ _ _ _ K E0) as (_ & _ & L0). destruct (knn_two _ _ _ _ _ _ _ K E2) as (_ & _ & L2).
  rewrite map_length in L0, L2. auto.
Qed.

Lemma goods_nodup_q {D} ratio (v : vision D) p0 p1 : knn_ok v -> NoDup (map dm_q (goods ratio v p0 p1)).
Proof.
  intros K. eapply subseq_nodup; [apply (symm_sub _ _ 0)|apply seq_NoDup].
  intros i m x E I'. apply nth_ratio in E. destruct E as (m0 & E & ->). destruct (K (map snd p0) (map snd p1)) as [_ K2].
  destruct m0 as [|a [|b r]]; try contradiction. destruct (ratio_over ratio a b); [contradiction|]. apply (K2 i _ x E I').
Qed.

Lemma agree_inj {D} ratio (v : vision D) p0 p1 i i' j : knn_ok v -> agree ratio v p0 p1 i j -> agree ratio v p0 p1 i' j -> i = i'.
Proof. intros K [_ (c & d & r & E & T & _)] [_ (c' & d' & r' & E' & T' & _)]. congruence. Qed.

Lemma goods_nodup_t {D} ratio (v : vision D) p0 p1 : knn_ok v -> NoDup (map dm_t (goods ratio v p0 p1)).
Proof.
  intros K. apply (nodup_other dm_q); [apply goods_nodup_q; auto|]. intros a b A B E.
  apply (agree_inj ratio v p0 p1 (dm_q a) (dm_q b) (dm_t a) K); apply goods_in; auto; [exists a|exists b]; auto.
Qed.

Lemma match_pts_spec {D} (p0 p1 : list (pt * D)) ms :
  (forall m, In m ms -> (dm_q m < length p0)%nat /\ (dm_t m < length p1)%nat) ->
  exists pr, match_pts p0 p1 ms = Ok pr /\ length pr = length ms /\
    forall k m a b, nth_error ms k = Some m -> nth_error p0 (dm_q m) = Some a -> nth_error p1 (dm_t m) = Some b ->
      nth_error pr k = Some (fst a, fst b).
Proof.
  induction ms as [|m ms IH]; intros H; [exists []; cbn; repeat split; intros [|k] ? ? ? X; discriminate|].
  destruct IH as (pr & E & L & N); [intros; apply H; right; auto|]. destruct (H m (or_introl eq_refl)) as [A B].
  apply nth_error_Some in A, B. destruct (nth_error p0 (dm_q m)) as [a|] eqn:EA; [|congruence]. destruct (nth_error p1 (dm_t m)) as [b|] eqn:EB; [|congruence].
  exists ((fst a, fst b) :: pr). cbn [match_pts]. rewrite EA, EB, E. cbn. split; [auto|]. split; [auto|].
  intros [|k] m' a' b' X Y Z; cbn in *; [|eauto]. injection X as ->. congruence.
Qed.

Lemma mask_keep_spec ms : forall mask, (length ms <= length mask)%nat ->
  mask_keep ms mask = Ok (map fst (filter snd (combine ms mask))).
Proof.
  induction ms as [|m ms IH]; intros [|b mask] L; cbn in *; try reflexivity; [lia|]. rewrite IH by lia. cbn. destruct b; reflexivity.
Qed.
Lemma mask_keep_short ms : forall mask r, mask_keep ms mask = Ok r -> (length ms <= length mask)%nat.
Proof.
  induction ms as [|m ms IH]; intros [|b mask] r E; cbn in *; try lia; try discriminate.
  apply obind_ok in E. destruct E as (x & E & _). apply IH in E. lia.
Qed.
Lemma kept_sub (ms : list dmatch) : forall mask : list bool, subseq (map fst (filter snd (combine ms mask))) ms.
Proof.
  induction ms as [|m ms IH]; intros [|b mask]; cbn [combine filter map snd fst]; [apply ss_nil|apply ss_nil|apply ss_nil|].
  destruct b; cbn [map fst]; [apply ss_keep|apply ss_skip]; apply IH.
Qed.

Lemma robust_res {D} ratio (v : vision D) p0 p1 c0 c1 : knn_ok v ->
  exists pr, match_pts p0 p1 (goods ratio v p0 p1) = Ok pr /\ length pr = length (goods ratio v p0 p1) /\
   robust_match ratio v p0 p1 c0 c1 =
     (if (length (goods ratio v p0 p1) <? 10)%nat then Ok [] else mask_keep (goods ratio v p0 p1) (v_rsc v c0 c1 pr)) /\
    forall k m a b, nth_error (goods ratio v p0 p1) k = Some m -> nth_error p0 (dm_q m) = Some a -> nth_error p1 (dm_t m) = Some b ->
      nth_error pr k = Some (fst a, fst b).
Proof.
  intros K. destruct (match_pts_spec p0 p1 (goods ratio v p0 p1)) as (pr & E & L & N).
  { intros m I'. apply (agree_range ratio v); auto. apply goods_in; auto. exists m; auto. }
  exists pr. split; [auto|]. split; [auto|]. split; [|auto]. unfold robust_match. fold (goods ratio v p0 p1). rewrite E. cbn [obind]. rewrite L. auto.
Qed.

Lemma robust_sub {D} ratio (v : vision D) p0 p1 c0 c1 ms : knn_ok v -> robust_match ratio v p0 p1 c0 c1 = Ok ms ->
  subseq ms (goods ratio v p0 p1).
Proof.
  intros K E. destruct (robust_res ratio v p0 p1 c0 c1 K) as (pr & _ & L & E' & _). rewrite E' in E.
  destruct (_ <? 10)%nat; [injection E as <-; constructor|]. pose proof (mask_keep_short _ _ _ E) as S. rewrite mask_keep_spec in E by auto.
  injection E as <-. apply kept_sub.
Qed.

Lemma robust_facts {D} ratio (v : vision D) p0 p1 c0 c1 ms : knn_ok v -> robust_match ratio v p0 p1 c0 c1 = Ok ms ->
  NoDup (map dm_q ms) /\ NoDup (map dm_t ms) /\ forall i j, matched ms i j -> agree ratio v p0 p1 i j.
Proof.
  intros K E. apply robust_sub in E; auto. split; [|split].
  - eapply subseq_nodup; [apply subseq_map; eauto|apply goods_nodup_q; auto].
  - eapply subseq_nodup; [apply subseq_map; eauto|apply goods_nodup_t; auto].
  - intros i j (m & I' & A & B). apply goods_in; auto. exists m. split; [eapply subseq_in; eauto|auto].
Qed.

Lemma robust_defined {D} ratio (v : vision D) p0 p1 c0 c1 : knn_ok v -> rsc_ok v -> exists ms, robust_match ratio v p0 p1 c0 c1 = Ok ms.
Proof.
  intros K RS. destruct (robust_res ratio v p0 p1 c0 c1 K) as (pr & _ & L & E' & _). rewrite E'.
  destruct (_ <? 10)%nat; [eauto|]. rewrite mask_keep_spec; [eauto|]. rewrite RS, L. auto.
Qed.

(** ** Merging *)
Lemma idx_match_app ms m i : idx_match (ms ++ [m]) i = if Nat.eqb (dm_t m) i then Some (dm_q m) else idx_match ms i.
Proof. unfold idx_match. rewrite fold_left_app. reflexivity. Qed.
Lemma idx_match_some ms i k : idx_match ms i = Some k -> matched ms k i.
Proof.
  induction ms as [|m ms IH] using rev_ind; [discriminate|]. rewrite idx_match_app. destruct (Nat.eqb_spec (dm_t m) i) as [E|E].
  - intros H. injection H as <-. exists m. rewrite in_app_iff. cbn. auto.
  - intros H. destruct (IH H) as (x & A & B). exists x. rewrite in_app_iff. auto.
Qed.
Lemma idx_match_none ms i : idx_match ms i = None -> forall k, ~ matched ms k i.
Proof.
  induction ms as [|m ms IH] using rev_ind; [intros _ k (m & [] & _)|]. rewrite idx_match_app. destruct (Nat.eqb_spec (dm_t m) i) as [E|E]; [discriminate|].
  intros H k (x & A & B & C). apply in_app_iff in A. destruct A as [A|[<-|[]]]; [|auto]. apply (IH H k). exists x; auto.
Qed.

Lemma merge_ids_spec ms old : forall new i r, merge_ids ms old i new = Ok r ->
  length r = length new /\
  forall k x, nth_error r k = Some x ->
    match idx_match ms (i + k) with Some j => nth_error old j = Some x | None => nth_error new k = Some x end.
Proof.
  induction new as [|n new IH]; intros i r E; cbn in E.
  - injection E as <-. split; [auto|]. intros [|k] x X; discriminate.
  - apply obind_ok in E. destruct E as (x & Ex & E). apply obind_ok in E. destruct E as (r' & Er & E). injection E as <-.
    destruct (IH _ _ Er) as [L H]. split; [cbn; lia|]. intros [|k] y X; cbn in X.
    + injection X as <-. rewrite Nat.add_0_r. destruct (idx_match ms i); [apply look_ok; auto|]. injection Ex as ->. auto.
    + specialize (H k y X). replace (i + S k)%nat with (S i + k)%nat by lia. auto.
Qed.
Lemma merge_ids_def ms old : forall new i, (forall j k, matched ms j k -> (j < length old)%nat) -> exists r, merge_ids ms old i new = Ok r.
Proof.
  induction new as [|n new IH]; intros i H; [eexists; reflexivity|]. destruct (IH (S i) H) as [r E]. cbn. rewrite E.
  destruct (idx_match ms i) as [j|] eqn:M; [|eexists; reflexivity]. apply idx_match_some, H, nth_error_Some in M.
  destruct (nth_error old j); [eexists; reflexivity|congruence].
Qed.

Lemma merge_stereo_spec ml mr o0 o1 : forall new i r, merge_stereo ml mr o0 o1 i new = Ok r ->
  length (fst r) = length new /\ fst r = snd r /\
  forall k x, nth_error (fst r) k = Some x ->
    (exists a b, idx_match ml (i + k) = Some a /\ idx_match mr (i + k) = Some b /\ nth_error o0 a = Some x /\ nth_error o1 b = Some x) \/
    (nth_error new k = Some x /\
     ~ exists a b y, idx_match ml (i + k) = Some a /\ idx_match mr (i + k) = Some b /\ nth_error o0 a = Some y /\ nth_error o1 b = Some y).
Proof.
  induction new as [|n new IH]; intros i r E; cbn in E.
  - injection E as <-. cbn. split; [auto|]. split; [auto|]. intros [|k] x X; discriminate.
  - apply obind_ok in E. destruct E as (x & Ex & E). apply obind_ok in E. destruct E as (r' & Er & E). injection E as <-.
    destruct (IH _ _ Er) as (L & EQ & H). cbn [fst snd length].
    assert (X : fst x = snd x /\
      ((exists a b, idx_match ml i = Some a /\ idx_match mr i = Some b /\ nth_error o0 a = Some (fst x) /\ nth_error o1 b = Some (fst x)) \/
       (fst x = n /\ ~ exists a b y, idx_match ml i = Some a /\ idx_match mr i = Some b /\ nth_error o0 a = Some y /\ nth_error o1 b = Some y))).
    { destruct (idx_match ml i) as [k0|]; [destruct (idx_match mr i) as [k1|]|].
      - apply obind_ok in Ex. destruct Ex as (a & Ea & Ex). apply obind_ok in Ex. destruct Ex as (b & Eb & Ex). apply look_ok in Ea, Eb.
        destruct (Nat.eqb_spec a b) as [->|Nab]; injection Ex as <-; cbn [fst snd]; (split; [auto|]).
        + left. exists k0, k1. auto.
        + right. split; [auto|]. intros (u & w & y & A & B & C & E). congruence.
      - injection Ex as <-. split; [auto|]. right. split; [auto|]. intros (u & w & y & A & B & _). congruence.
      - injection Ex as <-. split; [auto|]. right. split; [auto|]. intros (u & w & y & A & B & _). congruence. }
    destruct X as [X0 X]. split; [cbn; lia|]. split; [congruence|]. intros [|k] y Y; cbn in Y.
    + injection Y as <-. rewrite Nat.add_0_r. destruct X as [X|[X1 X2]]; [left; auto|right]. split; [cbn; congruence|auto].
    + replace (i + S k)%nat with (S i + k)%nat by lia. cbn [nth_error]. apply H. auto.
Qed.
Lemma merge_stereo_def ml mr o0 o1 : forall new i, (forall j k, matched ml j k -> (j < length o0)%nat) ->
  (forall j k, matched mr j k -> (j < length o1)%nat) -> exists r, merge_stereo ml mr o0 o1 i new = Ok r.
Proof.
  induction new as [|n new IH]; intros i H0 H1; [eexists; reflexivity|]. destruct (IH (S i) H0 H1) as [r E]. cbn. rewrite E.
  destruct (idx_match ml i) as [a|] eqn:A; [destruct (idx_match mr i) as [b|] eqn:B|]; try (eexists; reflexivity).
  apply idx_match_some, H0, nth_error_Some in A. apply idx_match_some, H1, nth_error_Some in B.
  destruct (nth_error o0 a); [|congruence]. destruct (nth_error o1 b); [|congruence]. eexists; reflexivity.
Qed.

(** positions decide: distinct ids *)
Lemma matched_fun ms i i' j : NoDup (map dm_t ms) -> matched ms i j -> matched ms i' j -> i = i'.
Proof.
  intros N (m & A & B & C) (m' & A' & B' & C'). subst.
  enough (m = m') by congruence. clear - N A A' C'. induction ms as [|x ms IH]; [contradiction|]. cbn in N. inversion N as [|? ? N1 N2]; subst.
  destruct A as [->|A], A' as [->|A']; auto.
  - exfalso. apply N1. rewrite <- C'. apply in_map; auto.
  - exfalso. apply N1. rewrite C'. apply in_map; auto.
Qed.
Lemma matched_inj ms i j j' : NoDup (map dm_q ms) -> matched ms i j -> matched ms i j' -> j = j'.
Proof.
  intros N (m & A & B & C) (m' & A' & B' & C'). subst.
  enough (m = m') by congruence. clear - N A A' B'. induction ms as [|x ms IH]; [contradiction|]. cbn in N. inversion N as [|? ? N1 N2]; subst.
  destruct A as [->|A], A' as [->|A']; auto.
  - exfalso. apply N1. rewrite <- B'. apply in_map; auto.
  - exfalso. apply N1. rewrite B'. apply in_map; auto.
Qed.

Lemma nth_seq a n k x : nth_error (seq a n) k = Some x <-> (k < n)%nat /\ x = (a + k)%nat.
Proof.
  revert a k. induction n as [|n IH]; intros a k; cbn [seq].
  - destruct k; cbn; (split; [discriminate|intros [H _]; lia]).
  - destruct k as [|k]; cbn [nth_error].
    + split; [intros H; injection H as <-; lia|]. intros [_ ->]. f_equal; lia.
    + rewrite IH. split; intros [A B]; split; lia.
Qed.

Lemma merged_nodup (src : nat -> option nat) old cur n r : NoDup old -> (forall x, In x old -> (x <= cur)%nat) ->
  (forall k k' j, src k = Some j -> src k' = Some j -> k = k') -> length r = n ->
  (forall k x, nth_error r k = Some x -> match src k with Some j => nth_error old j = Some x | None => x = (S cur + k)%nat end) ->
  NoDup r.
Proof.
  intros N B INJ L H. apply NoDup_nth_error. intros i j Hi E. destruct (nth_error r i) as [x|] eqn:Ei; [|apply nth_error_None in Ei; lia].
  pose proof (H i x Ei) as A. pose proof (H j x (eq_sym E)) as A'. destruct (src i) as [a|] eqn:Si, (src j) as [b|] eqn:Sj.
  - assert (a = b). { apply (proj1 (NoDup_nth_error old) N); [apply nth_error_Some; congruence|congruence]. } subst. eauto.
  - apply nth_error_In in A. apply B in A. lia.
  - apply nth_error_In in A'. apply B in A'. lia.
  - lia.
Qed.

(** ** Recording pairs *)
Lemma record_pairs_spec und t c0 c1 ids : c0 <> c1 -> forall p0 p1 d, db_ok d -> length ids = length p0 -> length ids = length p1 -> NoDup ids ->
  exists d', record_pairs und d t c0 c1 p0 p1 ids ids = Ok d' /\ db_ok d' /\
  (forall k i a, nth_error ids k = Some i -> nth_error p0 k = Some a -> track d' i c0 = track d i c0 ++ [(t, a, und c0 a)]) /\
  (forall k i b, nth_error ids k = Some i -> nth_error p1 k = Some b -> track d' i c1 = track d i c1 ++ [(t, b, und c1 b)]) /\
  (forall i c, (c <> c0 /\ c <> c1) \/ ~ In i ids -> track d' i c = track d i c).
Proof.
  intros NC. induction ids as [|i ids IH]; intros [|a p0] [|b p1] d OK L0 L1 N; try discriminate.
  - exists d. cbn. split; [auto|]. split; [auto|]. split; [|split]; auto; intros [|k] ? ? X; discriminate.
  - cbn in L0, L1. inversion N as [|? ? N1 N2]; subst. cbn [record_pairs]. rewrite Nat.eqb_refl. cbn [guard].
    destruct (update_feature_spec d i t c0 a (und c0 a) OK) as (U1 & U2 & U3 & U4 & _).
    set (d1 := update_feature d i t c0 a (und c0 a)) in *.
    destruct (update_feature_spec d1 i t c1 b (und c1 b) U1) as (V1 & V2 & V3 & V4 & _).
    set (d2 := update_feature d1 i t c1 b (und c1 b)) in *.
    assert (OT : forall j c, j <> i -> track d2 j c = track d j c). { intros j c H. unfold track. rewrite V4, U4; auto. }
    destruct (IH p0 p1 d2 V1 ltac:(lia) ltac:(lia) N2) as (d' & E & A & B & C & F).
    exists d'. split; [auto|]. split; [auto|]. split; [|split].
    + intros [|k] j x X Y; cbn in X, Y.
      * injection X as ->. injection Y as ->. rewrite F by auto. rewrite V3 by auto. exact U2.
      * rewrite (B k j x X Y). f_equal. apply OT. intros ->. apply N1. eapply nth_error_In; eauto.
    + intros [|k] j x X Y; cbn in X, Y.
      * injection X as ->. injection Y as ->. rewrite F by auto. rewrite V2, U3 by auto. auto.
      * rewrite (C k j x X Y). f_equal. apply OT. intros ->. apply N1. eapply nth_error_In; eauto.
    + intros j c H. destruct (Nat.eq_dec j i) as [->|Nj].
      * destruct H as [[H H']|H]; [|exfalso; apply H; left; auto]. rewrite F by auto. rewrite V3, U3 by auto. auto.
      * rewrite F; [apply OT; auto|]. destruct H as [H|H]; [auto|]. right. intros X; apply H; right; auto.
Qed.

(** ** Detection *)
Lemma to_int_gt x : (0 <= to_int x)%Z <-> -1 < x.
Proof.
  unfold to_int. destruct (Rleb_spec 0 x) as [H|H].
  - split; [lra|]. intros _. apply Int_part_le. lra.
  - split.
    + intros Z. assert (Int_part (- x) < 1)%Z by lia. apply Int_part_lt in H0. lra.
    + intros Z. assert (Int_part (- x) < 1)%Z by (apply Int_part_lt; lra). lia.
Qed.
Lemma to_int_lt x n : (0 < n)%Z -> ((to_int x < n)%Z <-> x < IZR n).
Proof.
  intros N. pose proof (to_int_pos_le x n N). rewrite <- Z.nle_gt. rewrite H. split; intros; lra.
Qed.
Lemma in_img_frame fr p : in_img fr p = true -> in_frame fr p.
Proof.
  unfold in_img, in_frame. rewrite !andb_true_iff, !Z.leb_le, !Z.ltb_lt.
  intros [[[A B] C] E]. rewrite to_int_lt in B by lia. rewrite to_int_lt in E by lia. rewrite to_int_gt in A, C. auto.
Qed.
Lemma frame_in_img fr p : (0 < fr_w fr)%Z -> (0 < fr_h fr)%Z -> in_frame fr p -> in_img fr p = true.
Proof.
  intros W H. unfold in_img, in_frame. rewrite !andb_true_iff, !Z.leb_le, !Z.ltb_lt, !to_int_gt, !to_int_lt by auto. tauto.
Qed.
(** a cell of the raster lies inside the image *)
Lemma cell_frame o fr p : (0 < ko_px o)%Z -> cell_in o fr (cell o p) = true ->
  fst p < IZR (fr_w fr) /\ snd p < IZR (fr_h fr).
Proof.
  intros P. unfold cell_in, cell. cbn [fst snd]. rewrite !andb_true_iff, !Z.leb_le, !Z.ltb_lt. intros [[[A B] C] E].
  assert (AX : forall n x, (0 <= to_int (x / IZR (ko_px o)))%Z -> (to_int (x / IZR (ko_px o)) < size_close o n)%Z -> x < IZR n).
  { intros n x U V. pose proof (IZR_lt _ _ P) as P'.
    assert (N0 : (0 < n)%Z).
    { destruct (Z.lt_ge_cases 0 n) as [|N]; [auto|]. exfalso. enough (size_close o n <= 0)%Z by lia. unfold size_close.
      destruct (Z.eq_dec n 0) as [->|Nz].
      - unfold Rdiv. rewrite Rmult_0_l. rewrite to_int_nonneg by lra. rewrite (Int_part_unique 0 0) by lra. lia.
      - apply to_int_neg. apply div_lt_iff; [auto|]. rewrite Rmult_0_r. apply IZR_lt. lia. }
    rewrite to_int_lt in V by lia.
    rewrite size_close_eq in V by auto. destruct (Int_part_bounds (IZR n / IZR (ko_px o))) as [I1 _].
    assert (Q : x / IZR (ko_px o) < IZR n / IZR (ko_px o)) by lra. unfold Rdiv in Q.
    apply Rmult_lt_reg_r in Q; [auto|]. apply Rinv_0_lt_compat; auto. }
  split; eapply AX; eauto.
Qed.
