(** Lemmas about the quat_ops.h model. *)
From Coq Require Import Reals Lra Psatz Bool.
From Verif Require Import RBool GeoModel GeoSpec.
Open Scope R_scope.

Lemma v3_ext a b : vx a = vx b -> vy a = vy b -> vz a = vz b -> a = b.
Proof. destruct a, b; simpl; intros; subst; reflexivity. Qed.
Lemma q4_ext a b : qx a = qx b -> qy a = qy b -> qz a = qz b -> qw a = qw b -> a = b.
Proof. destruct a, b; simpl; intros; subst; reflexivity. Qed.
Lemma m3_ext A B :
  m00 A = m00 B -> m01 A = m01 B -> m02 A = m02 B ->
  m10 A = m10 B -> m11 A = m11 B -> m12 A = m12 B ->
  m20 A = m20 B -> m21 A = m21 B -> m22 A = m22 B -> A = B.
Proof. destruct A, B; simpl; intros; subst; reflexivity. Qed.

Lemma m3mul_assoc A B C : m3mul (m3mul A B) C = m3mul A (m3mul B C).
Proof. apply m3_ext; simpl; ring. Qed.
Lemma m3mul_id_l A : m3mul m3id A = A.
Proof. apply m3_ext; simpl; ring. Qed.
Lemma m3mul_id_r A : m3mul A m3id = A.
Proof. apply m3_ext; simpl; ring. Qed.
Lemma m3v_mul A B v : m3v (m3mul A B) v = m3v A (m3v B v).
Proof. apply v3_ext; simpl; ring. Qed.
Lemma m3v_id v : m3v m3id v = v.
Proof. apply v3_ext; simpl; ring. Qed.
Lemma m3tr_mul A B : m3tr (m3mul A B) = m3mul (m3tr B) (m3tr A).
Proof. apply m3_ext; simpl; ring. Qed.
Lemma m3tr_tr A : m3tr (m3tr A) = A.
Proof. destruct A; reflexivity. Qed.
Lemma m3v_add A u v : m3v A (v3add u v) = v3add (m3v A u) (m3v A v).
Proof. apply v3_ext; simpl; ring. Qed.
Lemma m3v_sub A u v : m3v A (v3sub u v) = v3sub (m3v A u) (m3v A v).
Proof. apply v3_ext; simpl; ring. Qed.
Lemma m3v_neg A u : m3v A (v3neg u) = v3neg (m3v A u).
Proof. apply v3_ext; simpl; ring. Qed.
Lemma m3v_scal A c u : m3v A (v3scal c u) = v3scal c (m3v A u).
Proof. apply v3_ext; simpl; ring. Qed.
Lemma m3det_mul A B : m3det (m3mul A B) = m3det A * m3det B.
Proof. unfold m3det; simpl; ring. Qed.
Lemma m3det_tr A : m3det (m3tr A) = m3det A.
Proof. unfold m3det; simpl; ring. Qed.

Lemma is_rot_id : is_rot m3id.
Proof. repeat split; try (apply m3_ext; simpl; ring). unfold m3det; simpl; ring. Qed.
Lemma is_rot_mul A B : is_rot A -> is_rot B -> is_rot (m3mul A B).
Proof.
  intros (A1 & A2 & A3) (B1 & B2 & B3). repeat split.
  - rewrite m3tr_mul, m3mul_assoc, <- (m3mul_assoc B), B1, m3mul_id_l. exact A1.
  - rewrite m3tr_mul, m3mul_assoc, <- (m3mul_assoc _ A B), A2, m3mul_id_l. exact B2.
  - rewrite m3det_mul, A3, B3; ring.
Qed.
Lemma is_rot_tr A : is_rot A -> is_rot (m3tr A).
Proof.
  intros (A1 & A2 & A3). repeat split; rewrite ?m3tr_tr; auto. rewrite m3det_tr; auto.
Qed.

(** All polynomial consequences of "proper rotation" in linear form. *)
Lemma is_rot_eqs r : is_rot r ->
  (m00 r * m00 r + m01 r * m01 r + m02 r * m02 r = 1 /\
   m10 r * m10 r + m11 r * m11 r + m12 r * m12 r = 1 /\
   m20 r * m20 r + m21 r * m21 r + m22 r * m22 r = 1 /\
   m00 r * m10 r + m01 r * m11 r + m02 r * m12 r = 0 /\
   m00 r * m20 r + m01 r * m21 r + m02 r * m22 r = 0 /\
   m10 r * m20 r + m11 r * m21 r + m12 r * m22 r = 0) /\
  (m00 r * m00 r + m10 r * m10 r + m20 r * m20 r = 1 /\
   m01 r * m01 r + m11 r * m11 r + m21 r * m21 r = 1 /\
   m02 r * m02 r + m12 r * m12 r + m22 r * m22 r = 1 /\
   m00 r * m01 r + m10 r * m11 r + m20 r * m21 r = 0 /\
   m00 r * m02 r + m10 r * m12 r + m20 r * m22 r = 0 /\
   m01 r * m02 r + m11 r * m12 r + m21 r * m22 r = 0) /\
  (m00 r = m11 r * m22 r - m12 r * m21 r /\
   m01 r = m12 r * m20 r - m10 r * m22 r /\
   m02 r = m10 r * m21 r - m11 r * m20 r /\
   m10 r = m02 r * m21 r - m01 r * m22 r /\
   m11 r = m00 r * m22 r - m02 r * m20 r /\
   m12 r = m01 r * m20 r - m00 r * m21 r /\
   m20 r = m01 r * m12 r - m02 r * m11 r /\
   m21 r = m02 r * m10 r - m00 r * m12 r /\
   m22 r = m00 r * m11 r - m01 r * m10 r).
Proof.
  destruct r as [a b c d e f g h i]. intros (H1 & H2 & H3).
  unfold m3mul, m3tr, m3id, m3det in *; cbn [m00 m01 m02 m10 m11 m12 m20 m21 m22] in *.
  injection H1 as R00 R01 R02 R10 R11 R12 R20 R21 R22.
  injection H2 as C00 C01 C02 C10 C11 C12 C20 C21 C22.
  split; [repeat split; lra|]. split; [repeat split; lra|].
  (* cofactors: each is  (R^-1)^T * det  with R^-1 = R^T *)
  set (k00 := e * i - f * h).
  set (k01 := f * g - d * i). set (k02 := d * h - e * g).
  set (k10 := c * h - b * i). set (k11 := a * i - c * g). set (k12 := b * g - a * h).
  set (k20 := b * f - c * e). set (k21 := c * d - a * f). set (k22 := a * e - b * d).
  (* row identities: sum_j r_ij k_lj = delta_il *)
  assert (D0 : a * k00 + b * k01 + c * k02 = 1) by (unfold k00, k01, k02; rewrite <- H3; ring).
  assert (D1 : d * k00 + e * k01 + f * k02 = 0) by (unfold k00, k01, k02; ring).
  assert (D2 : g * k00 + h * k01 + i * k02 = 0) by (unfold k00, k01, k02; ring).
  assert (E0 : a * k10 + b * k11 + c * k12 = 0) by (unfold k10, k11, k12; ring).
  assert (E1 : d * k10 + e * k11 + f * k12 = 1) by (unfold k10, k11, k12; rewrite <- H3; ring).
  assert (E2 : g * k10 + h * k11 + i * k12 = 0) by (unfold k10, k11, k12; ring).
  assert (F0 : a * k20 + b * k21 + c * k22 = 0) by (unfold k20, k21, k22; ring).
  assert (F1 : d * k20 + e * k21 + f * k22 = 0) by (unfold k20, k21, k22; ring).
  assert (F2 : g * k20 + h * k21 + i * k22 = 1) by (unfold k20, k21, k22; rewrite <- H3; ring).
  assert (S : forall x y z p q s,
     a * x + b * y + c * z = p -> d * x + e * y + f * z = q -> g * x + h * y + i * z = s ->
     x = a * p + d * q + g * s /\ y = b * p + e * q + h * s /\ z = c * p + f * q + i * s).
  { intros x y z p q s <- <- <-. repeat split.
    - transitivity ((a*a+d*d+g*g) * x + (a*b+d*e+g*h) * y + (a*c+d*f+g*i) * z); [|ring].
      rewrite C00, C01, C02; ring.
    - transitivity ((b*a+e*d+h*g) * x + (b*b+e*e+h*h) * y + (b*c+e*f+h*i) * z); [|ring].
      rewrite C10, C11, C12; ring.
    - transitivity ((c*a+f*d+i*g) * x + (c*b+f*e+i*h) * y + (c*c+f*f+i*i) * z); [|ring].
      rewrite C20, C21, C22; ring. }
  destruct (S _ _ _ _ _ _ D0 D1 D2) as (X0 & X1 & X2).
  destruct (S _ _ _ _ _ _ E0 E1 E2) as (Y0 & Y1 & Y2).
  destruct (S _ _ _ _ _ _ F0 F1 F2) as (Z0 & Z1 & Z2).
  repeat split; lra.
Qed.

(** ** quaternion <-> rotation *)

(** homogeneous form of the rotation matrix, valid for unit quaternions *)
Definition rot_hom (q : q4) : m3 :=
  let x := qx q in let y := qy q in let z := qz q in let w := qw q in
  M3 (w*w + x*x - y*y - z*z) (2*(x*y + w*z)) (2*(x*z - w*y))
     (2*(x*y - w*z)) (w*w - x*x + y*y - z*z) (2*(y*z + w*x))
     (2*(x*z + w*y)) (2*(y*z - w*x)) (w*w - x*x - y*y + z*z).

Lemma quat_2_Rot_hom q : unit_q q -> quat_2_Rot q = rot_hom q.
Proof.
  destruct q as [x y z w]; unfold unit_q, quat_2_Rot, rot_hom; simpl; intros H.
  apply m3_ext; simpl; lra.
Qed.

Lemma rot_hom_mul q p : rot_hom (quat_mul_raw q p) = m3mul (rot_hom q) (rot_hom p).
Proof. destruct q, p; unfold rot_hom, quat_mul_raw, v3dot; apply m3_ext; simpl; ring. Qed.

Lemma rot_hom_rot q : unit_q q -> is_rot (rot_hom q).
Proof.
  destruct q as [x y z w]; unfold unit_q; simpl; intros H.
  set (n := x*x+y*y+z*z+w*w) in H.
  assert (E : m3mul (rot_hom (Q4 x y z w)) (m3tr (rot_hom (Q4 x y z w))) = m3scal (n*n) m3id)
    by (apply m3_ext; unfold n; simpl; ring).
  assert (E' : m3mul (m3tr (rot_hom (Q4 x y z w))) (rot_hom (Q4 x y z w)) = m3scal (n*n) m3id)
    by (apply m3_ext; unfold n; simpl; ring).
  assert (D : m3det (rot_hom (Q4 x y z w)) = n * n * n)
    by (unfold m3det, n; simpl; ring).
  rewrite H in E, E', D.
  repeat split; [rewrite E|rewrite E'|rewrite D]; try ring; apply m3_ext; simpl; ring.
Qed.

Lemma quat_2_Rot_is_rot q : unit_q q -> is_rot (quat_2_Rot q).
Proof. intros H; rewrite quat_2_Rot_hom by exact H; apply rot_hom_rot; exact H. Qed.

Lemma quat_mul_raw_unit q p : unit_q q -> unit_q p -> unit_q (quat_mul_raw q p).
Proof.
  destruct q as [a b c d], p as [x y z w]; unfold unit_q, quat_mul_raw, v3dot; simpl; intros Hq Hp.
  transitivity ((a*a+b*b+c*c+d*d) * (x*x+y*y+z*z+w*w)); [ring|rewrite Hq, Hp; ring].
Qed.

Lemma q4norm_unit q : unit_q q -> q4norm q = 1.
Proof. unfold unit_q, q4norm; intros ->; apply sqrt_1. Qed.

Lemma unit_q_neg q : unit_q q -> unit_q (q4neg q).
Proof. unfold unit_q; destruct q; simpl; intros H; lra. Qed.

Lemma q4div_1 q : q4div q 1 = q.
Proof. destruct q; unfold q4div; simpl; f_equal; field. Qed.

(** quatnorm of a unit quaternion: the representative with non-negative scalar part *)
Lemma quatnorm_unit q : unit_q q -> quatnorm q = if Rltb (qw q) 0 then q4neg q else q.
Proof.
  intros H; unfold quatnorm. destruct (Rltb (qw q) 0).
  - rewrite q4norm_unit by (apply unit_q_neg; exact H). apply q4div_1.
  - rewrite q4norm_unit by exact H. apply q4div_1.
Qed.

Lemma q4norm_pos q : 0 < qx q * qx q + qy q * qy q + qz q * qz q + qw q * qw q -> 0 < q4norm q.
Proof. intros H; apply sqrt_lt_R0; exact H. Qed.

(** quatnorm yields a unit quaternion with non-negative scalar part for any nonzero input *)
Lemma quatnorm_is_unit q : 0 < qx q * qx q + qy q * qy q + qz q * qz q + qw q * qw q ->
  unit_q (quatnorm q) /\ 0 <= qw (quatnorm q).
Proof.
  intros H. unfold quatnorm.
  set (q' := if Rltb (qw q) 0 then q4neg q else q).
  assert (Hs : 0 < qx q' * qx q' + qy q' * qy q' + qz q' * qz q' + qw q' * qw q').
  { unfold q'; destruct (Rltb (qw q) 0); simpl; lra. }
  assert (Hw : 0 <= qw q').
  { unfold q'; destruct (Rltb_spec (qw q) 0); simpl; lra. }
  assert (Hn := q4norm_pos q' Hs).
  assert (Hsq : q4norm q' * q4norm q' = qx q' * qx q' + qy q' * qy q' + qz q' * qz q' + qw q' * qw q').
  { apply sqrt_def. lra. }
  split.
  - unfold unit_q, q4div; simpl. 
    transitivity ((qx q' * qx q' + qy q' * qy q' + qz q' * qz q' + qw q' * qw q') / (q4norm q' * q4norm q')).
    + field. lra.
    + rewrite Hsq. field. lra.
  - simpl. apply Rmult_le_pos; [exact Hw|]. left; apply Rinv_0_lt_compat; exact Hn.
Qed.

Lemma quat_2_Rot_neg q : quat_2_Rot (q4neg q) = quat_2_Rot q.
Proof. destruct q; unfold quat_2_Rot; apply m3_ext; simpl; ring. Qed.

Lemma quat_2_Rot_quatnorm q : unit_q q -> quat_2_Rot (quatnorm q) = quat_2_Rot q.
Proof.
  intros H; rewrite quatnorm_unit by exact H.
  destruct (Rltb (qw q) 0); [apply quat_2_Rot_neg|reflexivity].
Qed.

Lemma quat_multiply_rot q p : unit_q q -> unit_q p ->
  quat_2_Rot (quat_multiply q p) = m3mul (quat_2_Rot q) (quat_2_Rot p).
Proof.
  intros Hq Hp. unfold quat_multiply.
  assert (H := quat_mul_raw_unit q p Hq Hp).
  rewrite quat_2_Rot_quatnorm by exact H.
  rewrite !quat_2_Rot_hom by assumption. apply rot_hom_mul.
Qed.

Lemma quat_multiply_unit q p : unit_q q -> unit_q p ->
  unit_q (quat_multiply q p) /\ 0 <= qw (quat_multiply q p).
Proof.
  intros Hq Hp. apply quatnorm_is_unit.
  assert (H := quat_mul_raw_unit q p Hq Hp). unfold unit_q in H. lra.
Qed.

Lemma quat_inv_rot q : quat_2_Rot (quat_inv q) = m3tr (quat_2_Rot q).
Proof. destruct q; unfold quat_2_Rot, quat_inv; apply m3_ext; simpl; ring. Qed.

Lemma quat_inv_unit q : unit_q q -> unit_q (quat_inv q).
Proof. destruct q; unfold unit_q, quat_inv; simpl; intros; lra. Qed.

Lemma quat_inv_mul q : unit_q q -> quat_multiply q (quat_inv q) = Q4 0 0 0 1.
Proof.
  intros H. unfold quat_multiply.
  assert (E : quat_mul_raw q (quat_inv q) = Q4 0 0 0 1).
  { destruct q as [x y z w]; unfold unit_q in H; unfold quat_mul_raw, quat_inv, v3dot; simpl in *.
    apply q4_ext; simpl; lra. }
  rewrite E. rewrite quatnorm_unit by (unfold unit_q; simpl; ring). simpl.
  destruct (Rltb_spec 1 0); [lra|reflexivity].
Qed.

Lemma sq4_zero a b c d : a*a + b*b + c*c + d*d = 0 -> a = 0 /\ b = 0 /\ c = 0 /\ d = 0.
Proof.
  intros H.
  assert (Ha : 0 <= a*a) by apply Rle_0_sqr. assert (Hb : 0 <= b*b) by apply Rle_0_sqr.
  assert (Hc : 0 <= c*c) by apply Rle_0_sqr. assert (Hd : 0 <= d*d) by apply Rle_0_sqr.
  repeat split; apply Rsqr_0_uniq; unfold Rsqr; lra.
Qed.

(** two unit quaternions with the same rotation are equal up to sign *)
Lemma quat_2_Rot_inj q p : unit_q q -> unit_q p -> quat_2_Rot q = quat_2_Rot p ->
  q = p \/ q = q4neg p.
Proof.
  intros Hq Hp E. rewrite !quat_2_Rot_hom in E by assumption.
  destruct q as [a b c d], p as [x y z w]; unfold unit_q, rot_hom, q4neg in *; simpl in *.
  injection E as E00 E01 E02 E10 E11 E12 E20 E21 E22.
  assert (A1 : a*a = x*x) by lra. assert (A2 : b*b = y*y) by lra.
  assert (A3 : c*c = z*z) by lra. assert (A4 : d*d = w*w) by lra.
  assert (B1 : a*b = x*y) by lra. assert (B2 : a*c = x*z) by lra. assert (B3 : b*c = y*z) by lra.
  assert (B4 : d*a = w*x) by lra. assert (B5 : d*b = w*y) by lra. assert (B6 : d*c = w*z) by lra.
  (* s = <q,p> satisfies s^2 = 1 *)
  assert (S : (a*x+b*y+c*z+d*w)*(a*x+b*y+c*z+d*w) = 1).
  { transitivity ((x*x+y*y+z*z+w*w)*(x*x+y*y+z*z+w*w)); [|rewrite Hp; ring].
    transitivity ((a*a)*(x*x)+(b*b)*(y*y)+(c*c)*(z*z)+(d*d)*(w*w)+2*((a*b)*(x*y)+(a*c)*(x*z)+(b*c)*(y*z)+(d*a)*(w*x)+(d*b)*(w*y)+(d*c)*(w*z))); [ring|].
    rewrite A1,A2,A3,A4,B1,B2,B3,B4,B5,B6. ring. }
  set (s := a*x+b*y+c*z+d*w) in *.
  assert (S' : s = 1 \/ s = -1).
  { assert (F : (s-1)*(s+1) = 0) by lra.
    apply Rmult_integral in F. destruct F; [left|right]; lra. }
  destruct S' as [S'|S']; [left|right].
  - assert (N : (a-x)*(a-x)+(b-y)*(b-y)+(c-z)*(c-z)+(d-w)*(d-w) = 0).
    { transitivity ((a*a+b*b+c*c+d*d)+(x*x+y*y+z*z+w*w)-2*s); [unfold s; ring|lra]. }
    apply sq4_zero in N. destruct N as (N1 & N2 & N3 & N4). f_equal; lra.
  - assert (N : (a+x)*(a+x)+(b+y)*(b+y)+(c+z)*(c+z)+(d+w)*(d+w) = 0).
    { transitivity ((a*a+b*b+c*c+d*d)+(x*x+y*y+z*z+w*w)+2*s); [unfold s; ring|lra]. }
    apply sq4_zero in N. destruct N as (N1 & N2 & N3 & N4). f_equal; lra.
Qed.

(** ** rot_2_quat *)
Lemma quat_products r x y z w :
  x*x = (1 + m00 r - m11 r - m22 r)/4 -> y*y = (1 - m00 r + m11 r - m22 r)/4 ->
  z*z = (1 - m00 r - m11 r + m22 r)/4 -> w*w = (1 + m00 r + m11 r + m22 r)/4 ->
  x*y = (m01 r + m10 r)/4 -> x*z = (m02 r + m20 r)/4 -> y*z = (m12 r + m21 r)/4 ->
  w*x = (m12 r - m21 r)/4 -> w*y = (m20 r - m02 r)/4 -> w*z = (m01 r - m10 r)/4 ->
  unit_q (Q4 x y z w) /\ rot_hom (Q4 x y z w) = r.
Proof.
  intros. split; [unfold unit_q; simpl; lra|].
  apply m3_ext; unfold rot_hom; simpl; lra.
Qed.

Lemma prod_helper x b c e s : x <> 0 -> 4 * (x * x) = s -> b * c = s * e ->
  (1 / (4 * x) * b) * (1 / (4 * x) * c) = e / 4.
Proof.
  intros Hx <- H.
  replace (1 / (4 * x) * b * (1 / (4 * x) * c)) with ((b * c) / (16 * (x * x))) by (field; auto).
  rewrite H. field; auto.
Qed.
Lemma prod_helper1 x b : x <> 0 -> x * (1 / (4 * x) * b) = b / 4.
Proof. intros Hx; field; auto. Qed.
Lemma prod_helper2 x b : x <> 0 -> (1 / (4 * x) * b) * x = b / 4.
Proof. intros Hx; field; auto. Qed.

Ltac rot_eqs H :=
  let E := fresh "E" in
  pose proof (is_rot_eqs _ H) as E;
  destruct E as ((?R1 & ?R2 & ?R3 & ?R4 & ?R5 & ?R6) & (?C1 & ?C2 & ?C3 & ?C4 & ?C5 & ?C6)
     & (?K1 & ?K2 & ?K3 & ?K4 & ?K5 & ?K6 & ?K7 & ?K8 & ?K9)).

(** the ten product identities satisfied by the entries of a rotation matrix *)
Lemma rot_products r : is_rot r ->
  let a := m00 r in let e := m11 r in let i := m22 r in
  let s0 := 1 + a - e - i in let s1 := 1 - a + e - i in
  let s2 := 1 - a - e + i in let s3 := 1 + a + e + i in
  let p01 := m01 r + m10 r in let p02 := m02 r + m20 r in let p12 := m12 r + m21 r in
  let d0 := m12 r - m21 r in let d1 := m20 r - m02 r in let d2 := m01 r - m10 r in
  (p01 * p01 = s0 * s1 /\ p02 * p02 = s0 * s2 /\ p12 * p12 = s1 * s2) /\
  (d0 * d0 = s0 * s3 /\ d1 * d1 = s1 * s3 /\ d2 * d2 = s2 * s3) /\
  (p01 * p02 = s0 * p12 /\ p01 * p12 = s1 * p02 /\ p02 * p12 = s2 * p01) /\
  (p01 * d0 = s0 * d1 /\ p01 * d1 = s1 * d0 /\ p02 * d0 = s0 * d2 /\ p02 * d2 = s2 * d0 /\
   p12 * d1 = s1 * d2 /\ p12 * d2 = s2 * d1) /\
  (d0 * d1 = s3 * p01 /\ d0 * d2 = s3 * p02 /\ d1 * d2 = s3 * p12).
Proof.
  intros H. rot_eqs H. cbv zeta.
  repeat split; lra.
Qed.

Lemma Rle3_spec a b c d e f :
  BoolSpec (a <= b /\ c <= d /\ e <= f) (b < a \/ d < c \/ f < e)
           (Rleb a b && Rleb c d && Rleb e f)%bool.
Proof.
  destruct (Rleb_spec a b), (Rleb_spec c d), (Rleb_spec e f); simpl; constructor; auto.
Qed.

Lemma rot_2_quat_raw_spec r : is_rot r ->
  unit_q (rot_2_quat_raw r) /\ rot_hom (rot_2_quat_raw r) = r.
Proof.
  intros H. pose proof (rot_products r H) as P. cbv zeta in P.
  destruct P as ((P1 & P2 & P3) & (D1 & D2 & D3) & (T1 & T2 & T3) & (X1 & X2 & X3 & X4 & X5 & X6) & (Y1 & Y2 & Y3)).
  unfold rot_2_quat_raw, m3trace.
  assert (SQ : forall v, 0 < v -> sqrt (v/4) <> 0 /\ 4 * (sqrt (v/4) * sqrt (v/4)) = v).
  { intros v Hv. assert (0 < sqrt (v/4)) by (apply sqrt_lt_R0; lra). split; [lra|].
    rewrite sqrt_sqrt by lra. lra. }
  destruct (Rle3_spec (m00 r + m11 r + m22 r) (m00 r) (m11 r) (m00 r) (m22 r) (m00 r)) as [A|A];
  [|destruct (Rle3_spec (m00 r + m11 r + m22 r) (m11 r) (m00 r) (m11 r) (m22 r) (m11 r)) as [B|B];
  [|destruct (Rle3_spec (m00 r + m11 r + m22 r) (m22 r) (m00 r) (m22 r) (m11 r) (m22 r)) as [F|F]]].
  - destruct (SQ (1 + 2 * m00 r - (m00 r + m11 r + m22 r))) as (Q0 & Q1); [lra|].
    set (q0 := sqrt _) in *.
    apply quat_products; rewrite ?prod_helper1, ?prod_helper2 by auto; try lra.
    all: erewrite prod_helper; [reflexivity|auto|exact Q1|lra].
  - destruct (SQ (1 + 2 * m11 r - (m00 r + m11 r + m22 r))) as (Q0 & Q1); [lra|].
    set (q0 := sqrt _) in *.
    apply quat_products; rewrite ?prod_helper1, ?prod_helper2 by auto; try lra.
    all: erewrite prod_helper; [reflexivity|auto|exact Q1|lra].
  - destruct (SQ (1 + 2 * m22 r - (m00 r + m11 r + m22 r))) as (Q0 & Q1); [lra|].
    set (q0 := sqrt _) in *.
    apply quat_products; rewrite ?prod_helper1, ?prod_helper2 by auto; try lra.
    all: erewrite prod_helper; [reflexivity|auto|exact Q1|lra].
  - assert (HT : 0 < m00 r + m11 r + m22 r) by lra.
    destruct (SQ (1 + (m00 r + m11 r + m22 r))) as (Q0 & Q1); [lra|].
    set (q0 := sqrt _) in *.
    apply quat_products; rewrite ?prod_helper1, ?prod_helper2 by auto; try lra.
    all: erewrite prod_helper; [reflexivity|auto|exact Q1|lra].
Qed.

Lemma rot_2_quat_spec r : is_rot r ->
  unit_q (rot_2_quat r) /\ 0 <= qw (rot_2_quat r) /\ quat_2_Rot (rot_2_quat r) = r.
Proof.
  intros H. destruct (rot_2_quat_raw_spec r H) as (U & E). unfold rot_2_quat.
  destruct (quatnorm_is_unit (rot_2_quat_raw r)) as (U1 & U2).
  { unfold unit_q in U; lra. }
  repeat split; auto. rewrite quat_2_Rot_quatnorm by exact U.
  rewrite quat_2_Rot_hom by exact U. exact E.
Qed.

Lemma rot_2_quat_of_quat q : unit_q q ->
  rot_2_quat (quat_2_Rot q) = q \/ rot_2_quat (quat_2_Rot q) = q4neg q.
Proof.
  intros U. destruct (rot_2_quat_spec _ (quat_2_Rot_is_rot q U)) as (U1 & _ & E).
  apply quat_2_Rot_inj; auto.
Qed.
