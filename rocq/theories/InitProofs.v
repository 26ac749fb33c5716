From Coq Require Import Reals List Arith Bool Lia Lra.
From Verif Require Import RBool Outcome GeoModel GeoSpec GeoProofs Lin ImuModel ImuSpec DbModel DbSpec InitModel InitSpec.
Import ListNotations.
Open Scope R_scope.

Lemma norm_sq a : v3norm a * v3norm a = v3dot a a.
Proof. unfold v3norm. apply sqrt_sqrt. unfold v3dot. nra. Qed.
Lemma norm_nz a : v3norm a <> 0 <-> a <> v3zero.
Proof.
  split; intros H E; apply H.
  - rewrite E. unfold v3norm, v3dot. simpl. replace (0 * 0 + 0 * 0 + 0 * 0) with 0 by ring. apply sqrt_0.
  - pose proof (norm_sq a) as N. rewrite E in N. unfold v3dot in N. apply v3_ext; simpl; nra.
Qed.
Lemma unit_of_ok a : a <> v3zero -> unit_of a = Ok (v3div a (v3norm a)).
Proof. intros H. unfold unit_of. destruct (Reqb_spec (v3norm a) 0) as [E|E]; [apply norm_nz in H; congruence|reflexivity]. Qed.
Lemma unit_of_unit a : a <> v3zero -> v3dot (v3div a (v3norm a)) (v3div a (v3norm a)) = 1.
Proof.
  intros H. apply norm_nz in H. pose proof (norm_sq a) as N.
  replace (v3dot (v3div a (v3norm a)) (v3div a (v3norm a))) with (v3dot a a / (v3norm a * v3norm a)) by (unfold v3dot, v3div; simpl; field; auto).
  rewrite <- N. field. auto.
Qed.
Lemma unit_norm a : v3dot a a = 1 -> v3norm a = 1.
Proof. intros H. unfold v3norm. rewrite H. apply sqrt_1. Qed.
Lemma unit_nz a : v3dot a a = 1 -> a <> v3zero.
Proof. intros H ->. unfold v3dot in H. simpl in H. lra. Qed.
Lemma v3div_1 a : v3div a 1 = a.
Proof. destruct a. unfold v3div. simpl. f_equal; field. Qed.

Lemma mul_adj A : m3mul A (adj3 A) = m3scal (m3det A) m3id.
Proof. destruct A. unfold m3mul, adj3, m3scal, m3det, m3id. simpl. f_equal; ring. Qed.
Lemma left_inv_rot A : m3mul (m3tr A) A = m3id -> m3det A = 1 -> is_rot A.
Proof.
  intros L D. split; [|auto]. assert (E : m3tr A = adj3 A).
  { transitivity (m3mul (m3tr A) (m3mul A (adj3 A))).
    - rewrite mul_adj, D. destruct A. unfold m3mul, m3scal, m3id, m3tr. simpl. f_equal; ring.
    - rewrite <- m3mul_assoc, L, m3mul_id_l. reflexivity. }
  rewrite E, mul_adj, D. unfold m3scal, m3id. simpl. f_equal; ring.
Qed.
(** completing a unit vector by a unit vector orthogonal to it *)
Lemma cols_rot x z : v3dot x x = 1 -> v3dot z z = 1 -> v3dot x z = 0 -> is_rot (m3cols x (v3cross z x) z).
Proof.
  intros X Z O. assert (Y : v3dot (v3cross z x) (v3cross z x) = 1).
  { replace (v3dot (v3cross z x) (v3cross z x)) with (v3dot z z * v3dot x x - v3dot x z * v3dot x z) by (unfold v3dot, v3cross; simpl; ring). rewrite X, Z, O. ring. }
  assert (XY : v3dot x (v3cross z x) = 0) by (unfold v3dot, v3cross; simpl; ring).
  assert (ZY : v3dot z (v3cross z x) = 0) by (unfold v3dot, v3cross; simpl; ring).
  assert (TM : m3mul (m3tr (m3cols x (v3cross z x) z)) (m3cols x (v3cross z x) z) = m3id).
  { unfold v3dot in *. apply m3_ext; unfold m3mul, m3tr, m3cols, m3id; cbn [m00 m01 m02 m10 m11 m12 m20 m21 m22]; lra. }
  assert (DT : m3det (m3cols x (v3cross z x) z) = 1).
  { replace (m3det (m3cols x (v3cross z x) z)) with (v3dot (v3cross z x) (v3cross z x)) by (unfold m3det, m3cols, v3dot, v3cross; simpl; ring). exact Y. }
  apply left_inv_rot; auto.
Qed.

Lemma gs_branch z e : v3dot z z = 1 -> v3cross z e <> v3zero ->
  exists x, unit_of (v3cross z e) = Ok x /\ unit_of (v3cross z x) = Ok (v3cross z x) /\ is_rot (m3cols x (v3cross z x) z).
Proof.
  intros Z NE. exists (v3div (v3cross z e) (v3norm (v3cross z e))). split; [apply unit_of_ok; auto|].
  set (x := v3div (v3cross z e) (v3norm (v3cross z e))). assert (X : v3dot x x = 1) by (apply unit_of_unit; auto).
  assert (O : v3dot x z = 0).
  { unfold x. pose proof (proj2 (norm_nz _) NE) as N. unfold v3dot, v3div, v3cross in *. simpl. unfold v3cross in N. field_simplify; auto. unfold Rdiv. rewrite Rmult_0_l || idtac. field; auto. }
  assert (Y : v3dot (v3cross z x) (v3cross z x) = 1).
  { replace (v3dot (v3cross z x) (v3cross z x)) with (v3dot z z * v3dot x x - v3dot x z * v3dot x z) by (unfold v3dot, v3cross; simpl; ring). rewrite X, Z, O. ring. }
  split; [|apply cols_rot; auto]. rewrite unit_of_ok by (apply unit_nz; auto). rewrite (unit_norm _ Y), v3div_1. reflexivity.
Qed.

Lemma gram_schmidt_rot g : g <> v3zero ->
  exists Rm, gram_schmidt g = Ok Rm /\ is_rot Rm /\ m3v Rm (V3 0 0 1) = v3div g (v3norm g).
Proof.
  intros Hg. unfold gram_schmidt. rewrite unit_of_ok by auto. cbn [obind].
  set (z := v3div g (v3norm g)). assert (Z : v3dot z z = 1) by (apply unit_of_unit; auto).
  clearbody z. rewrite (unit_norm z Z). destruct (Reqb_spec 1 0); [lra|]. cbn [negb guard].
  assert (E1 : v3dot (V3 1 0 0) z / 1 = vx z) by (unfold v3dot; simpl; field).
  assert (E2 : v3dot (V3 0 1 0) z / 1 = vy z) by (unfold v3dot; simpl; field). rewrite E1, E2.
  assert (Fin : forall x, m3v (m3cols x (v3cross z x) z) (V3 0 0 1) = z).
  { intros x. destruct z. unfold m3v, m3cols. simpl. f_equal; ring. }
  destruct (Rltb_spec (Rabs (vx z)) (Rabs (vy z))) as [L|L].
  - destruct (gs_branch z (V3 1 0 0) Z) as (x & Ex & Ey & Rt).
    { intros C. injection C as C1 C2 C3. assert (Y0 : vy z = 0) by lra. rewrite Y0, Rabs_R0 in L. pose proof (Rabs_pos (vx z)). lra. }
    rewrite Ex. cbn [obind]. rewrite Ey. cbn [obind]. eexists. split; [reflexivity|]. auto.
  - destruct (gs_branch z (V3 0 1 0) Z) as (x & Ex & Ey & Rt).
    { intros C. injection C as C1 C2 C3. assert (X0 : vx z = 0) by lra. assert (Z0 : vz z = 0) by lra. rewrite X0, Rabs_R0 in L.
      assert (Y0 : vy z = 0) by (destruct (Req_dec (vy z) 0) as [|N]; auto; pose proof (Rabs_pos_lt _ N); lra).
      unfold v3dot in Z. rewrite X0, Z0, Y0 in Z. lra. }
    rewrite Ex. cbn [obind]. rewrite Ey. cbn [obind]. eexists. split; [reflexivity|]. auto.
Qed.
Lemma gram_schmidt_zero : gram_schmidt v3zero = UB.
Proof.
  unfold gram_schmidt, unit_of. assert (E : v3norm v3zero = 0) by (destruct (Req_dec (v3norm v3zero) 0) as [|N]; auto; apply norm_nz in N; congruence).
  rewrite E. destruct (Reqb_spec 0 0); [reflexivity|congruence].
Qed.
Lemma gram_schmidt_up Rm g : is_rot Rm -> v3norm g <> 0 -> m3v Rm (V3 0 0 1) = v3div g (v3norm g) -> m3v (m3tr Rm) g = V3 0 0 (v3norm g).
Proof.
  intros HR N E. assert (G : g = v3scal (v3norm g) (m3v Rm (V3 0 0 1))).
  { rewrite E. destruct g. unfold v3scal, v3div. simpl. f_equal; field; auto. }
  rewrite G at 1. rewrite <- m3v_scal, <- m3v_mul. destruct HR as (_ & HR & _). rewrite HR, m3v_id. unfold v3scal. simpl. f_equal; ring.
Qed.
