(** The Runge-Kutta step of the code, and the state after several readings (C71, C72). *)
From Coq Require Import Reals Lra List.
From Verif Require Import Outcome GeoModel GeoSpec GeoProofs Lin TypesModel ImuModel PropModel PropThms RkSpec.
Import ListNotations.
Open Scope R_scope.

Lemma v3add_eq a b c d e f a' b' c' d' e' f' : a = a' -> b = b' -> c = c' -> d = d' -> e = e' -> f = f' ->
  v3add (V3 a b c) (V3 d e f) = v3add (V3 a' b' c') (V3 d' e' f').
Proof. intros; subst; reflexivity. Qed.
Lemma rk4_thm g x dt w1 a1 w2 a2 : dt <> 0 ->
  let y := rk4_step unit_part (strapdown g (iv_q (ps_imu x)) dt w1 w2 a1 a2) dt (mkRy (Q4 0 0 0 1) (iv_v (ps_imu x)) (iv_p (ps_imu x))) in
  let n := predict_mean_rk4 g x dt w1 a1 w2 a2 in
  mn_q n = quat_multiply (ry_q y) (iv_q (ps_imu x)) /\ mn_v n = ry_v y /\ mn_p n = ry_p y.
Proof.
  intros Hd. cbv zeta. unfold predict_mean_rk4. cbv zeta.
  set (q0 := iv_q (ps_imu x)). set (v0 := iv_v (ps_imu x)). set (p0 := iv_p (ps_imu x)). clearbody q0 v0 p0. clear x.
  set (wm := v3add w1 (v3scal (/ 2 * dt) (v3div (v3sub w2 w1) dt))). set (am := v3add a1 (v3scal (/ 2 * dt) (v3div (v3sub a2 a1) dt))).
  set (we := v3add wm (v3scal (/ 2 * dt) (v3div (v3sub w2 w1) dt))). set (ae := v3add am (v3scal (/ 2 * dt) (v3div (v3sub a2 a1) dt))).
  assert (R0 : forall a b, ramp dt a b 0 = a) by (intros a b; apply v3_ext; simpl; field; exact Hd).
  assert (Wm : ramp dt w1 w2 (dt / 2) = wm) by (apply v3_ext; simpl; field; exact Hd).
  assert (Am : ramp dt a1 a2 (dt / 2) = am) by (apply v3_ext; simpl; field; exact Hd).
  assert (We : ramp dt w1 w2 dt = we) by (apply v3_ext; simpl; field; exact Hd).
  assert (Ae : ramp dt a1 a2 dt = ae) by (apply v3_ext; simpl; field; exact Hd).
  clearbody wm am we ae.
  set (V := fun dq a => v3sub (m3v (m3tr (quat_2_Rot (quat_multiply dq q0))) a) g).
  set (Om := fun w dq => q4scal (/ 2) (Omega_mul w dq)).
  assert (FE : forall t w a q v p, ramp dt w1 w2 t = w -> ramp dt a1 a2 t = a ->
    strapdown g q0 dt w1 w2 a1 a2 t (mkRy q v p) = mkRy (Om w q) (V q a) v).
  { intros t w a q v p <- <-. unfold strapdown, V, Om, q4scal. cbn [ry_q ry_v ry_p]. f_equal. f_equal; field. }
  assert (A : forall a b c a' b' c', a = a' -> b = b' -> c = c' -> mkRy a b c = mkRy a' b' c') by (intros; subst; reflexivity).
  set (f := strapdown g q0 dt w1 w2 a1 a2) in *. clearbody f.
  unfold rk4_step. rewrite (FE _ _ _ _ _ _ (R0 w1 w2) (R0 a1 a2)).
  set (k1 := mkRy (Om w1 (Q4 0 0 0 1)) (V (Q4 0 0 0 1) a1) v0).
  set (dq1 := quatnorm (q4add (Q4 0 0 0 1) (q4scal (/ 2) (q4scal dt (Om w1 (Q4 0 0 0 1)))))).
  set (v1 := v3add v0 (v3scal (/ 2) (v3scal dt (V (Q4 0 0 0 1) a1)))).
  assert (Y1 : unit_part (ry_add (mkRy (Q4 0 0 0 1) v0 p0) (ry_scal (dt / 2) k1)) = mkRy dq1 v1 (v3add p0 (v3scal (dt / 2) v0))).
  { unfold unit_part, ry_add, ry_scal, k1. cbn [ry_q ry_v ry_p]. apply A; [unfold dq1, q4add, q4scal; cbn [qx qy qz qw]; f_equal; f_equal; field|unfold v1; repeat match goal with |- context [V ?a ?b] => generalize (V a b); intro end; apply v3_ext; simpl; field|reflexivity]. }
  rewrite Y1. rewrite (FE _ _ _ _ _ _ Wm Am).
  set (k2 := mkRy (Om wm dq1) (V dq1 am) v1).
  set (dq2 := quatnorm (q4add (Q4 0 0 0 1) (q4scal (/ 2) (q4scal dt (Om wm dq1))))).
  set (v2 := v3add v0 (v3scal (/ 2) (v3scal dt (V dq1 am)))).
  assert (Y2 : unit_part (ry_add (mkRy (Q4 0 0 0 1) v0 p0) (ry_scal (dt / 2) k2)) = mkRy dq2 v2 (v3add p0 (v3scal (dt / 2) v1))).
  { unfold unit_part, ry_add, ry_scal, k2. cbn [ry_q ry_v ry_p]. apply A; [unfold dq2, q4add, q4scal; cbn [qx qy qz qw]; f_equal; f_equal; field|unfold v2; repeat match goal with |- context [V ?a ?b] => generalize (V a b); intro end; apply v3_ext; simpl; field|reflexivity]. }
  rewrite Y2. rewrite (FE _ _ _ _ _ _ Wm Am).
  set (k3 := mkRy (Om wm dq2) (V dq2 am) v2).
  set (dq3 := quatnorm (q4add (Q4 0 0 0 1) (q4scal dt (Om wm dq2)))).
  set (v3 := v3add v0 (v3scal dt (V dq2 am))).
  assert (Y3 : unit_part (ry_add (mkRy (Q4 0 0 0 1) v0 p0) (ry_scal dt k3)) = mkRy dq3 v3 (v3add p0 (v3scal dt v2))).
  { unfold unit_part, ry_add, ry_scal, k3. cbn [ry_q ry_v ry_p]. apply A; reflexivity. }
  rewrite Y3. rewrite (FE _ _ _ _ _ _ We Ae).
  change (fun (dq : q4) (a : GeoModel.v3) => v3sub (m3v (m3tr (quat_2_Rot (quat_multiply dq q0))) a) g) with V.
  unfold unit_part, ry_add, ry_scal, k1, k2, k3. cbn [ry_q ry_v ry_p mn_q mn_v mn_p]. 
  fold (Om w1 (Q4 0 0 0 1)). fold dq1. fold (Om wm dq1). fold dq2. fold (Om wm dq2). fold dq3. fold (Om we dq3).
  fold (V (Q4 0 0 0 1) a1). fold v1. fold (V dq1 am). fold v2. fold (V dq2 am). fold v3. fold (V dq3 ae).
  clearbody dq1 dq2 dq3 v1 v2 v3.
  split; [|split].
  - f_equal. f_equal. unfold q4add, q4scal. cbn [qx qy qz qw]. f_equal; field.
  - repeat match goal with |- context [V ?a ?b] => generalize (V a b); intro end; apply v3_ext; simpl; field.
  - apply v3_ext; simpl; field.
Qed.

Lemma carried_loop meth ns g N l : forall x Phi Q, let '(x', _, _) := prop_loop meth ns g N l x Phi Q in carried meth g l x x'.
Proof.
  induction l as [|m l IH]; intros x Phi Q; [constructor|]. destruct l as [|p l]; [constructor|].
  rewrite prop_loop_cons. cbv zeta.
  match goal with |- context [prop_loop meth ns g N (p :: l) ?a ?b ?c] => specialize (IH a b c); destruct (prop_loop meth ns g N (p :: l) a b c) as [[x' Phi'] Q'] end.
  eapply ca_next; [| | | | |exact IH]; try reflexivity. unfold same_params, predict_state; cbn; repeat split.
Qed.
Lemma carried_thm meth ns g x l : let '(x', _, _) := prop_sum meth ns g x l in
  carried meth g l x x' /\ same_params x x' /\ ((2 <= length l)%nat -> ps_fej x' = ps_imu x').
Proof.
  unfold prop_sum. pose proof (carried_loop meth ns g (15 + imu_intrinsic_size x) l x mid mzero) as C.
  destruct (prop_loop _ _ _ _ _ _ _ _) as [[x' Phi] Q]. split; [exact C|]. clear Phi Q ns. 
  assert (SP : forall a b c, same_params a b -> same_params b c -> same_params a c) by (unfold same_params; intuition congruence).
  induction C as [x|m x|m p l x y z S E1 E2 E3 F C IH].
  - split; [unfold same_params; repeat split|cbn; intros H; inversion H].
  - split; [unfold same_params; repeat split|cbn; intros H; inversion H; inversion H1].
  - destruct IH as [I1 I2]. split; [eapply SP; eauto|]. intros _. destruct l as [|r l]; [inversion C; subst; exact F|apply I2; cbn; repeat apply le_n_S; apply le_0_n].
Qed.
