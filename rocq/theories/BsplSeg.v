(** Derivatives of the interpolated pose on one spline segment (C39). *)
From Coq Require Import Reals Lra Psatz Bool.
From Coquelicot Require Import Coquelicot.
From Verif Require Import RBool Outcome GeoModel GeoSpec GeoProofs ExpProofs Se3Proofs JacSo3 Calc3 GeoMore.
From Verif Require Import BsplModel BsplDiff.
Open Scope R_scope.

(** the basis: successive time derivatives *)
Lemma basis_derive t1 DT t : DT <> 0 ->
  let u := fun s => (s - t1) / DT in
  (is_derive (fun s => cb0 (u s)) t (cb0dot DT (u t)) /\ is_derive (fun s => cb0dot DT (u s)) t (cb0dd DT (u t))) /\
  (is_derive (fun s => cb1 (u s)) t (cb1dot DT (u t)) /\ is_derive (fun s => cb1dot DT (u s)) t (cb1dd DT (u t))) /\
  (is_derive (fun s => cb2 (u s)) t (cb2dot DT (u t)) /\ is_derive (fun s => cb2dot DT (u s)) t (cb2dd DT (u t))).
Proof.
  intros H u. unfold u, cb0, cb1, cb2, cb0dot, cb1dot, cb2dot, cb0dd, cb1dd, cb2dd.
  split; [|split]; split; auto_derive; auto; field; auto.
Qed.

(** all three factors away from the small-angle switch *)
Definition reg3 (o0 o1 o2 : v3 * v3) (u : R) : Prop :=
  regular (cb0 u) (fst o0) /\ regular (cb1 u) (fst o1) /\ regular (cb2 u) (fst o2).

Lemma interp_pose_assoc p0 o0 o1 o2 u : interp_pose p0 o0 o1 o2 u =
  m4mul (m4of p0) (m4mul (m4mul (m4of (exp_at (cb0 u) o0)) (m4of (exp_at (cb1 u) o1))) (m4of (exp_at (cb2 u) o2))).
Proof. unfold interp_pose. rewrite !m4mul_assoc. reflexivity. Qed.

Lemma interp_pose_derive p0 o0 o1 o2 t1 DT t : DT <> 0 -> reg3 o0 o1 o2 ((t - t1) / DT) ->
  m4_derive (fun s => interp_pose p0 o0 o1 o2 ((s - t1) / DT)) t (interp_vel p0 o0 o1 o2 DT ((t - t1) / DT)).
Proof.
  intros HD (R0 & R1 & R2). destruct (basis_derive t1 DT t HD) as ((B0 & _) & (B1 & _) & (B2 & _)). cbv zeta in B0, B1, B2.
  pose proof (exp_at_derive _ _ _ o0 B0 R0) as D0. pose proof (exp_at_derive _ _ _ o1 B1 R1) as D1.
  pose proof (exp_at_derive _ _ _ o2 B2 R2) as D2. cbv beta in D0, D1, D2.
  eapply m4_derive_ext; [intros s; symmetry; apply interp_pose_assoc|].
  eapply m4_derive_eq; [apply m4d_left; apply m4d_mul; [apply m4d_mul; [exact D0|exact D1]|exact D2]|].
  unfold interp_vel. cbv zeta beta. f_equal. rewrite m4mul_add_l. reflexivity.
Qed.

Lemma interp_vel_derive p0 o0 o1 o2 t1 DT t : DT <> 0 -> reg3 o0 o1 o2 ((t - t1) / DT) ->
  m4_derive (fun s => interp_vel p0 o0 o1 o2 DT ((s - t1) / DT)) t (interp_acc p0 o0 o1 o2 DT ((t - t1) / DT)).
Proof.
  intros HD (R0 & R1 & R2). destruct (basis_derive t1 DT t HD) as ((B0 & C0) & (B1 & C1) & (B2 & C2)).
  cbv zeta in B0, B1, B2, C0, C1, C2.
  pose proof (exp_at_derive _ _ _ o0 B0 R0) as D0. pose proof (exp_at_derive _ _ _ o1 B1 R1) as D1.
  pose proof (exp_at_derive _ _ _ o2 B2 R2) as D2. cbv beta in D0, D1, D2.
  pose proof (m4d_mul _ _ _ _ _ (m4d_scalc _ _ (hat_se3 o0) _ C0) D0) as E0.
  pose proof (m4d_mul _ _ _ _ _ (m4d_scalc _ _ (hat_se3 o1) _ C1) D1) as E1.
  pose proof (m4d_mul _ _ _ _ _ (m4d_scalc _ _ (hat_se3 o2) _ C2) D2) as E2. cbv beta in E0, E1, E2.
  unfold interp_vel. cbv zeta.
  eapply m4_derive_eq.
  { apply m4d_left. apply m4d_add; [apply m4d_add|].
    - apply m4d_mul; [apply m4d_mul; [exact E0|exact D1]|exact D2].
    - apply m4d_mul; [apply m4d_mul; [exact D0|exact E1]|exact D2].
    - apply m4d_mul; [apply m4d_mul; [exact D0|exact D1]|exact E2]. }
  unfold interp_acc. cbv zeta beta. f_equal.
  set (u := (t - t1) / DT).
  set (A0 := m4of (exp_at (cb0 u) o0)). set (A1 := m4of (exp_at (cb1 u) o1)). set (A2 := m4of (exp_at (cb2 u) o2)).
  set (d0 := m4mul (m4scal (cb0dot DT u) (hat_se3 o0)) A0).
  set (d1 := m4mul (m4scal (cb1dot DT u) (hat_se3 o1)) A1).
  set (d2 := m4mul (m4scal (cb2dot DT u) (hat_se3 o2)) A2).
  set (x0 := m4mul (m4scal (cb0dot DT u) (hat_se3 o0)) d0). set (y0 := m4mul (m4scal (cb0dd DT u) (hat_se3 o0)) A0).
  set (x1 := m4mul (m4scal (cb1dot DT u) (hat_se3 o1)) d1). set (y1 := m4mul (m4scal (cb1dd DT u) (hat_se3 o1)) A1).
  set (x2 := m4mul (m4scal (cb2dot DT u) (hat_se3 o2)) d2). set (y2 := m4mul (m4scal (cb2dd DT u) (hat_se3 o2)) A2).
  clearbody x0 y0 x1 y1 x2 y2 d0 d1 d2 A0 A1 A2.
  rewrite !m4mul_scal_l, !m4mul_add_l, !m4mul_add_r, !m4mul_add_l.
  repeat match goal with |- context [m4mul (m4mul ?a ?b) ?c] => let x := fresh "T" in set (x := m4mul (m4mul a b) c); clearbody x end.
  m4ring.
Qed.

(** body rates: R^T V is antisymmetric, whatever happens around t *)
Lemma interp_vel_skew p0 o0 o1 o2 DT u : is_rot (seR p0) -> reg3 o0 o1 o2 u ->
  let P := interp_pose p0 o0 o1 o2 u in let V := interp_vel p0 o0 o1 o2 DT u in
  let M := m3mul (m3tr (m4R P)) (m4R V) in
  is_rot (m4R P) /\ m3tr M = m3scal (-1) M.
Proof.
  intros Hp (R0 & R1 & R2) P V M.
  pose proof (exp_at_rot _ _ R0) as Q0. pose proof (exp_at_rot _ _ R1) as Q1. pose proof (exp_at_rot _ _ R2) as Q2.
  assert (HP : is_rot (m4R P)) by (unfold P, interp_pose; cbn [m4mul m4of m4R]; repeat apply is_rot_mul; auto).
  split; [exact HP|].
  set (X0 := seR (exp_at (cb0 u) o0)) in *. set (X1 := seR (exp_at (cb1 u) o1)) in *. set (X2 := seR (exp_at (cb2 u) o2)) in *.
  set (K0 := m3scal (cb0dot DT u) (skew_x (fst o0))). set (K1 := m3scal (cb1dot DT u) (skew_x (fst o1))).
  set (K2 := m3scal (cb2dot DT u) (skew_x (fst o2))).
  assert (HK : forall k w, m3tr (m3scal k (skew_x w)) = m3scal (-1) (m3scal k (skew_x w))) by (intros; apply m3_ext; simpl; ring).
  assert (K0t : m3tr K0 = m3scal (-1) K0) by apply HK. assert (K1t : m3tr K1 = m3scal (-1) K1) by apply HK.
  assert (K2t : m3tr K2 = m3scal (-1) K2) by apply HK.
  assert (EM : M = m3add (m3add (m3mul (m3tr (m3mul (m3mul X0 X1) X2)) (m3mul K0 (m3mul (m3mul X0 X1) X2)))
                               (m3mul (m3tr (m3mul X1 X2)) (m3mul K1 (m3mul X1 X2))))
                        (m3mul (m3tr X2) (m3mul K2 X2))).
  { assert (E1 : m4R V = m3mul (seR p0) (m3add (m3add (m3mul (m3mul (m3mul K0 X0) X1) X2) (m3mul (m3mul X0 (m3mul K1 X1)) X2))
                                                (m3mul (m3mul X0 X1) (m3mul K2 X2)))) by reflexivity.
    assert (E2 : m4R P = m3mul (seR p0) (m3mul (m3mul X0 X1) X2)).
    { unfold P. rewrite interp_pose_assoc. reflexivity. }
    unfold M. rewrite E1, E2. rewrite !m3tr_mul.
    assert (D : forall a b c, m3mul a (m3add b c) = m3add (m3mul a b) (m3mul a c)) by (intros; apply m3_ext; simpl; ring).
    destruct Hp as (_ & Hp & _). destruct Q0 as (_ & Q0 & _). destruct Q1 as (_ & Q1 & _).
    assert (I : forall a b, m3mul (m3tr a) a = m3id -> m3mul (m3tr a) (m3mul a b) = b).
    { intros a b H. rewrite <- m3mul_assoc, H. apply m3_ext; simpl; ring. }
    rewrite !m3mul_assoc. rewrite I by exact Hp. rewrite !D. rewrite ?m3mul_assoc.
    rewrite !(I X0) by exact Q0. rewrite !(I X1) by exact Q1. reflexivity. }
  rewrite EM. clear EM M. clearbody K0 K1 K2 X0 X1 X2.
  assert (A : forall Y K, m3tr K = m3scal (-1) K -> m3tr (m3mul (m3tr Y) (m3mul K Y)) = m3scal (-1) (m3mul (m3tr Y) (m3mul K Y))).
  { intros Y K H. rewrite !m3tr_mul, m3tr_tr, H. apply m3_ext; simpl; ring. }
  assert (T : forall a b, m3tr (m3add a b) = m3add (m3tr a) (m3tr b)) by reflexivity.
  rewrite !T. rewrite !A by auto. apply m3_ext; simpl; ring.
Qed.

(** Rdot = R skew(w) *)
Lemma interp_rate p0 o0 o1 o2 DT u : is_rot (seR p0) -> reg3 o0 o1 o2 u ->
  let P := interp_pose p0 o0 o1 o2 u in let V := interp_vel p0 o0 o1 o2 DT u in
  m4R V = m3mul (m4R P) (skew_x (vee (m3mul (m3tr (m4R P)) (m4R V)))).
Proof.
  intros Hp Hr P V. destruct (interp_vel_skew p0 o0 o1 o2 DT u Hp Hr) as (HP & HS). fold P V in HP, HS.
  rewrite skew_vee by exact HS. destruct HP as (HP & _). clear HS. generalize dependent (m4R P). generalize (m4R V).
  intros M Q HP. rewrite <- m3mul_assoc. rewrite HP. apply m3_ext; simpl; ring.
Qed.

(** derivative of the body rate *)
Lemma interp_rate_derive p0 o0 o1 o2 t1 DT t : DT <> 0 -> is_rot (seR p0) -> reg3 o0 o1 o2 ((t - t1) / DT) ->
  let P := fun s => interp_pose p0 o0 o1 o2 ((s - t1) / DT) in
  let V := fun s => interp_vel p0 o0 o1 o2 DT ((s - t1) / DT) in
  let Ac := interp_acc p0 o0 o1 o2 DT ((t - t1) / DT) in
  v3_derive (fun s => vee (m3mul (m3tr (m4R (P s))) (m4R (V s)))) t
    (vee (m3mul (m3tr (m4R (P t))) (m3sub (m4R Ac) (m3mul (m4R (V t)) (m3mul (m3tr (m4R (P t))) (m4R (V t))))))).
Proof.
  intros HD Hp Hr P V Ac.
  destruct (interp_pose_derive p0 o0 o1 o2 t1 DT t HD Hr) as (D1 & _).
  destruct (interp_vel_derive p0 o0 o1 o2 t1 DT t HD Hr) as (D2 & _).
  pose proof (m3d_mul _ _ _ _ _ (m3d_tr _ _ _ D1) D2) as D. cbv beta in D.
  destruct (interp_vel_skew p0 o0 o1 o2 DT ((t - t1) / DT) Hp Hr) as (HP & HS).
  change (interp_pose p0 o0 o1 o2 ((t - t1) / DT)) with (P t) in *.
  change (interp_vel p0 o0 o1 o2 DT ((t - t1) / DT)) with (V t) in *. fold Ac in D2, D.
  assert (E : m3add (m3mul (m3tr (m4R (V t))) (m4R (V t))) (m3mul (m3tr (m4R (P t))) (m4R Ac)) =
    m3mul (m3tr (m4R (P t))) (m3sub (m4R Ac) (m3mul (m4R (V t)) (m3mul (m3tr (m4R (P t))) (m4R (V t)))))).
  { clear D D1 D2. generalize dependent (m4R (P t)). generalize dependent (m4R (V t)). generalize dependent (m4R Ac).
    intros Ra Rv Rp HP HS. clear P V Ac.
    transitivity (m3add (m3mul (m3scal (-1) (m3mul (m3tr Rp) Rv)) (m3mul (m3tr Rp) Rv)) (m3mul (m3tr Rp) Ra)).
    - rewrite <- HS. rewrite m3tr_mul, m3tr_tr. f_equal. rewrite m3mul_assoc, <- (m3mul_assoc Rp).
      destruct HP as (HP & _). rewrite HP. apply m3_ext; simpl; ring.
    - clear. apply m3_ext; simpl; ring. }
  pose proof (m3_derive_eq _ _ _ _ D E) as D'. revert D'. generalize (m3mul (m3tr (m4R (P t))) (m3sub (m4R Ac) (m3mul (m4R (V t)) (m3mul (m3tr (m4R (P t))) (m4R (V t)))))). intros M D'.
  destruct D' as (_ & _ & A2 & A3 & _ & _ & _ & A7 & _). split; [exact A7|split; [exact A2|exact A3]].
Qed.
