(** Kalman propagation / update algebra for the StateHelper model. *)
From Coq Require Import Reals List Arith Lia Lra Bool ZArith.
From Verif Require Import RBool Outcome Lin GivensModel TypesModel StateModel StateSpec PdInv StateLin.
Import ListNotations.
Open Scope R_scope.

(** ** Gain matrix *)
Lemma gain_M_eq C H l m vars off n acc :
  consecutive off vars n ->
  exists M, gain_M C H l m vars acc = Ok M /\
    (forall i r, (off <= i < n)%nat -> (r < m)%nat -> M i r = cov_HT C H l 0 mzero i r) /\
    (forall i r, (i < off)%nat -> M i r = acc i r).
Proof.
  revert off acc. induction vars as [|t vars IH]; intros off acc; simpl.
  - intros ->. exists acc. repeat split; auto. intros; lia.
  - intros [Hid Hc]. rewrite Hid.
    destruct (IH _ (set_block acc off 0 (ty_size t) m
                     (fun i r => cov_HT C H l 0 mzero (off + i)%nat r)) Hc) as (M & -> & HM & HM').
    exists M. split; [reflexivity|split].
    + intros i r Hi Hr. destruct (Nat.lt_ge_cases i (off + ty_size t)).
      * rewrite HM' by lia. rewrite set_block_in by lia. f_equal; lia.
      * apply HM; lia.
    + intros i r Hi. rewrite HM' by lia. apply set_block_out; lia.
Qed.

Lemma consecutive_le off vars n : consecutive off vars n -> (off <= n)%nat.
Proof.
  revert off; induction vars as [|t vars IH]; simpl; intros off.
  - lia.
  - intros [_ H]. apply IH in H. lia.
Qed.

(** ** Negative diagonal check *)
Lemma has_neg_diag_psd n C : psd n C -> has_neg_diag n C = false.
Proof.
  intros H. unfold has_neg_diag. apply not_true_iff_false. intros E.
  apply existsb_exists in E. destruct E as (i & Hi & Hlt). apply in_seq in Hi.
  apply Rltb_true in Hlt. pose proof (psd_diag n C i H ltac:(lia)). lra.
Qed.
Lemma has_neg_diag_ok n C : has_neg_diag n C = false -> forall i, (i < n)%nat -> 0 <= C i i.
Proof.
  intros E i Hi. destruct (Rle_dec 0 (C i i)); auto. exfalso.
  assert (has_neg_diag n C = true); [|congruence].
  apply existsb_exists. exists i. split; [apply in_seq; lia|]. apply Rltb_true. lra.
Qed.

(** ** Bilinear identities *)
Lemma dot_comm n x y : dot n x y = dot n y x.
Proof. unfold dot; apply sumn_ext; intros; lra. Qed.

Lemma dot_mvec_tr n m A x y : dot n x (mvec m A y) = dot m (mvec n (mtr A) x) y.
Proof.
  unfold dot, mvec, mtr.
  transitivity (sumn n (fun i => sumn m (fun l => x i * A i l * y l))).
  { apply sumn_ext; intros i _. rewrite <- sumn_scal. apply sumn_ext; intros; lra. }
  rewrite sumn_swap. apply sumn_ext; intros l _. rewrite <- sumn_scal_r.
  apply sumn_ext; intros; lra.
Qed.

Lemma mvec_ext n A B x y i : (forall l, (l < n)%nat -> A i l = B i l) -> veq n x y ->
  mvec n A x i = mvec n B y i.
Proof. intros HA Hx. apply sumn_ext; intros l Hl. rewrite HA, Hx; auto. Qed.
Lemma dot_ext n x x' y y' : veq n x x' -> veq n y y' -> dot n x y = dot n x' y'.
Proof. intros Hx Hy. apply sumn_ext; intros l Hl. rewrite Hx, Hy; auto. Qed.

Lemma quad_sub n P x w : sym n P ->
  quad n P (fun i => x i - w i) = quad n P x - 2 * dot n x (mvec n P w) + quad n P w.
Proof.
  intros HS.
  assert (E : dot n w (mvec n P x) = dot n x (mvec n P w)).
  { rewrite dot_mvec_tr. rewrite (dot_ext n _ (mvec n P w) x x).
    - apply dot_comm.
    - intros i Hi. apply mvec_ext; [intros l Hl; symmetry; apply HS; auto|intros k Hk; auto].
    - intros k Hk; auto. }
  rewrite !quad_dot.
  assert (E2 : forall u v : vec, dot n (fun i => u i - v i) (mvec n P (fun i => u i - v i)) =
     dot n u (mvec n P u) - dot n u (mvec n P v) - dot n v (mvec n P u) + dot n v (mvec n P v)).
  { intros u v. unfold dot. rewrite <- !sumn_minus, <- sumn_plus.
    apply sumn_ext; intros i _.
    assert (mvec n P (fun i => u i - v i) i = mvec n P u i - mvec n P v i).
    { unfold mvec. rewrite <- sumn_minus. apply sumn_ext; intros; lra. }
    rewrite H. lra. }
  rewrite E2. rewrite E. lra.
Qed.

Lemma mid_mvec n x i : (i < n)%nat -> mvec n mid x i = x i.
Proof.
  intros Hi. unfold mvec, mid. rewrite (sumn_delta n i); auto.
  - rewrite Nat.eqb_refl; lra.
  - intros j Hj Hne. nbs. lra.
Qed.

(** ** Innovation covariance *)
Lemma innov_spd n m H P R : spsd n P -> sym m R -> pd m R ->
  sym m (madd (congr n H P) R) /\ pd m (madd (congr n H P) R).
Proof.
  intros [HS HP] RS RP. split.
  - intros i j Hi Hj. unfold mtr, madd. f_equal; [|apply RS; auto].
    apply (sym_congr m n H P HS i j Hi Hj).
  - apply pd_add_psd; auto. apply psd_congr; auto.
Qed.

(** quadratic form of the Kalman downdate *)
Lemma quad_downdate n m (M W : mat) x :
  quad n (mmul m (mmul m M W) (mtr M)) x =
  quad m W (mvec n (mtr M) x).
Proof. apply quad_congr. Qed.

Lemma joseph_psd n m H P R M Si :
  spsd n P -> psd m R ->
  meq n m M (mmul n P (mtr H)) ->
  meq m m (mmul m (madd (congr n H P) R) Si) mid ->
  sym m Si ->
  psd n (msub P (mmul m (mmul m M Si) (mtr M))).
Proof.
  intros [HS HP] HR HM HSi HsymSi x.
  set (u := mvec n (mtr M) x). set (y := mvec m Si u). set (w := mvec m (mtr H) y).
  assert (Eq : quad n (msub P (mmul m (mmul m M Si) (mtr M))) x = quad n P x - quad m Si u).
  { unfold u. rewrite <- quad_congr. unfold quad, msub. rewrite <- sumn_minus.
    apply sumn_ext; intros i _. rewrite <- sumn_minus. apply sumn_ext; intros j _. lra. }
  rewrite Eq.
  assert (E1 : quad m Si u = dot m u y) by apply quad_dot.
  assert (ESy : veq m (mvec m (madd (congr n H P) R) y) u).
  { intros i Hi. unfold y. rewrite <- mvec_mmul.
    rewrite (mvec_ext m _ mid u u); [apply mid_mvec; auto| |intros k Hk; auto].
    intros l Hl. apply HSi; auto. }
  assert (E2 : quad m (madd (congr n H P) R) y = dot m y u).
  { rewrite quad_dot. apply dot_ext; [intros k Hk; auto|exact ESy]. }
  rewrite quad_add in E2.
  assert (E3 : quad m (congr n H P) y = quad n P w) by apply quad_congr.
  assert (E4 : dot n x (mvec n P w) = dot m u y).
  { unfold w, u. rewrite dot_mvec_tr.
    assert (V : veq n (mvec n (mtr P) x) (mvec n P x)).
    { intros i Hi. apply mvec_ext; [intros l Hl; symmetry; apply HS; auto|intros k Hk; auto]. }
    rewrite (dot_ext n _ (mvec n P x) _ (mvec m (mtr H) y) V) by (intros k Hk; auto).
    rewrite dot_mvec_tr. apply dot_ext; [|intros k Hk; auto].
    intros r Hr. change (mvec n H (mvec n P x) r = mvec n (mtr M) x r).
    rewrite <- mvec_mmul. apply mvec_ext; [|intros k Hk; auto].
    intros l Hl. unfold mtr. rewrite HM by auto. unfold mmul, mtr.
    apply sumn_ext; intros k Hk. rewrite (HS k l) by auto. unfold mtr. lra. }
  assert (E5 := quad_sub n P x w HS). rewrite E4 in E5.
  assert (D := dot_comm m y u).
  pose proof (HP (fun i => x i - w i)). pose proof (HR y). lra.
Qed.

(** ** EKFPropagation *)
Lemma mmul_full_F n s0 k idx Phi A i j :
  (i < n)%nat ->
  mmul n (full_F s0 k idx Phi) A i j =
  if ((s0 <=? i) && (i <? s0 + k))%nat%bool
  then mmul n (widen idx Phi) A (i - s0)%nat j else A i j.
Proof.
  intros Hi. unfold full_F, mmul.
  destruct ((s0 <=? i) && (i <? s0 + k))%nat%bool; [reflexivity|].
  apply (mmul_id_l n A i j Hi).
Qed.

Lemma mmul_full_FT n s0 k idx Phi A i j :
  (j < n)%nat ->
  mmul n A (mtr (full_F s0 k idx Phi)) i j =
  if ((s0 <=? j) && (j <? s0 + k))%nat%bool
  then mmul n A (mtr (widen idx Phi)) i (j - s0)%nat else A i j.
Proof.
  intros Hj. rewrite mmul_tr. change (mtr (mtr (full_F s0 k idx Phi))) with (full_F s0 k idx Phi).
  rewrite mmul_full_F by auto.
  destruct ((s0 <=? j) && (j <? s0 + k))%nat%bool; [|reflexivity].
  rewrite mmul_tr. reflexivity.
Qed.

Lemma prop_cov_eq n C Phi Q lold s0 k :
  sym n C -> in_cov n (pairs lold) -> (s0 + k <= n)%nat ->
  let CP := cov_HT C Phi lold 0 mzero in
  let PCP := phi_cov Phi CP lold 0 (upper_sym Q) in
  let C1 := set_block C s0 0 k n (mtr CP) in
  let C2 := set_block C1 0 s0 n k CP in
  let C3 := set_block C2 s0 s0 k k PCP in
  let F := full_F s0 k (indices (pairs lold)) Phi in
  meq n n C3 (madd (congr n F C) (full_Q s0 k (upper_sym Q))).
Proof.
  intros HS Hin Hs CP PCP C1 C2 C3 F i j Hi Hj.
  set (idx := indices (pairs lold)) in *. set (W := widen idx Phi) in *.
  unfold madd, congr. rewrite mmul_assoc. unfold F.
  rewrite mmul_full_F by auto.
  assert (ECP : forall a b, CP a b = mmul n C (mtr W) a b) by (intros; apply cov_HT_full; auto).
  assert (EPCP : forall a b, PCP a b = upper_sym Q a b + mmul n W CP a b).
  { intros; unfold PCP. rewrite (phi_cov_full n) by auto. reflexivity. }
  unfold full_Q. unfold C3, C2, C1.
  destruct (Nat.leb_spec s0 i), (Nat.ltb_spec i (s0 + k)); cbn [andb].
  - destruct (Nat.leb_spec s0 j), (Nat.ltb_spec j (s0 + k)); cbn [andb].
    + rewrite set_block_in by lia. rewrite EPCP, Rplus_comm. f_equal.
      refine (sumn_ext n _ _ _). intros l Hl. f_equal. rewrite mmul_full_FT by auto. nbs. apply ECP.
    + rewrite set_block_out, set_block_out, set_block_in by lia. rewrite Rplus_0_r.
      unfold mtr at 1. rewrite ECP, Nat.sub_0_r. rewrite mmul_tr. refine (sumn_ext n _ _ _).
      intros l Hl. f_equal. rewrite mmul_full_FT by auto. nbs. unfold mtr. apply HS; auto; lia.
    + rewrite set_block_out, set_block_out, set_block_in by lia. rewrite Rplus_0_r.
      unfold mtr at 1. rewrite ECP, Nat.sub_0_r. rewrite mmul_tr. refine (sumn_ext n _ _ _).
      intros l Hl. f_equal. rewrite mmul_full_FT by auto. nbs. unfold mtr. apply HS; auto; lia.
    + lia.
  - destruct (Nat.leb_spec s0 j), (Nat.ltb_spec j (s0 + k)); cbn [andb];
      rewrite ?Rplus_0_r; rewrite mmul_full_FT by auto; nbs.
    + rewrite set_block_out, set_block_in by lia. rewrite Nat.sub_0_r. apply ECP.
    + rewrite !set_block_out by lia. reflexivity.
    + rewrite !set_block_out by lia. reflexivity.
  - destruct (Nat.leb_spec s0 j), (Nat.ltb_spec j (s0 + k)); cbn [andb];
      rewrite ?Rplus_0_r; rewrite mmul_full_FT by auto; nbs.
    + rewrite set_block_out, set_block_in by lia. rewrite Nat.sub_0_r. apply ECP.
    + rewrite !set_block_out by lia. reflexivity.
    + rewrite !set_block_out by lia. reflexivity.
  - lia.
Qed.

Lemma psd_full_Q n s0 k Q : (s0 + k <= n)%nat -> psd k Q -> psd n (full_Q s0 k Q).
Proof.
  intros Hs HQ x.
  assert (E : quad n (full_Q s0 k Q) x = quad k Q (fun i => x (s0 + i)%nat)).
  { unfold quad.
    transitivity (sumn n (fun i => if ((s0 <=? i) && (i <? s0 + k))%nat%bool
        then sumn k (fun j => x i * Q (i - s0)%nat j * x (s0 + j)%nat) else 0)).
    - apply sumn_ext; intros i Hi. unfold full_Q.
      destruct (Nat.leb_spec s0 i), (Nat.ltb_spec i (s0 + k)); cbn [andb];
        try (apply sumn_zero; intros; lra).
      rewrite (sumn_ext n _ (fun j => if ((s0 <=? j) && (j <? s0 + k))%nat%bool
                 then x i * Q (i - s0)%nat (j - s0)%nat * x j else 0)).
      2:{ intros j Hj. destruct (Nat.leb_spec s0 j), (Nat.ltb_spec j (s0 + k)); cbn [andb]; lra. }
      rewrite (sumn_window n s0 k) by auto.
      apply sumn_ext; intros j Hj. replace (s0 + j - s0)%nat with j by lia. reflexivity.
    - rewrite (sumn_window n s0 k (fun i => sumn k (fun j => x i * Q (i - s0)%nat j * x (s0 + j)%nat)))
        by auto.
      apply sumn_ext; intros i Hi. replace (s0 + i - s0)%nat with i by lia. reflexivity. }
  rewrite E. apply HQ.
Qed.

Lemma sym_full_Q n s0 k Q : sym k Q -> sym n (full_Q s0 k Q).
Proof.
  intros HQ i j Hi Hj. unfold full_Q, mtr.
  destruct (Nat.leb_spec s0 i), (Nat.ltb_spec i (s0 + k)), (Nat.leb_spec s0 j),
    (Nat.ltb_spec j (s0 + k)); cbn [andb]; try reflexivity. apply HQ; lia.
Qed.

Lemma spsd_propagated n F C s0 k Q :
  (s0 + k <= n)%nat -> spsd n C -> psd k (upper_sym Q) ->
  spsd n (madd (congr n F C) (full_Q s0 k (upper_sym Q))).
Proof.
  intros Hs [CS CP] HQ. split.
  - intros i j Hi Hj. unfold madd, mtr. f_equal.
    + apply (sym_congr n n F C CS i j Hi Hj).
    + apply (sym_full_Q n s0 k (upper_sym Q) (upper_sym_sym k Q) i j Hi Hj).
  - apply psd_add; [apply psd_congr; auto|apply psd_full_Q; auto].
Qed.

Lemma spsd_ext n A B : meq n n A B -> spsd n A -> spsd n B.
Proof. intros H [S P]; split; [eapply sym_ext; eauto|eapply psd_ext; eauto]. Qed.
