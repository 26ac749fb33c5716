(** C90: the whole Jacobian, the zero set, and the cost of Factor_ImuCPIv1. *)
From Coq Require Import Reals List Bool Arith Lia Lra Psatz.
From Coquelicot Require Import Coquelicot.
From Verif Require Import RBool Outcome GeoModel GeoSpec GeoProofs ExpSeries JacSo3 Calc3 Lin TypesModel ManifoldSpec StateModel PropModel CamModel CamSpec HelpModel HelpSpec HelpAsm HelpRep HelpGeo CeresModel CeresSpec CeresQuat CeresImg CeresImu.
Import ListNotations.
Open Scope R_scope.

(** ** rows of the 15 x 30 matrix *)
Definition chain30 (A B C D E F G H I J K L M N O P Q S : m3) : mat :=
  let X := mzero in let X := put3 X 0 0 A in let X := put3 X 0 15 B in let X := put3 X 0 3 C in
  let X := put3 X 3 3 D in let X := put3 X 3 18 E in let X := put3 X 6 0 F in let X := put3 X 6 6 G in let X := put3 X 6 21 H in
  let X := put3 X 6 3 I in let X := put3 X 6 9 J in let X := put3 X 9 9 K in let X := put3 X 9 24 L in let X := put3 X 12 0 M in
  let X := put3 X 12 6 N in let X := put3 X 12 12 O in let X := put3 X 12 27 P in let X := put3 X 12 3 Q in put3 X 12 9 S.
Definition sum10 (X : mat) (a b c d e a' b' c' d' e' : v3) : vec := fun i =>
  mvec 3 (col_from X 0) (v3vec a) i + mvec 3 (col_from X 3) (v3vec b) i + mvec 3 (col_from X 6) (v3vec c) i
  + mvec 3 (col_from X 9) (v3vec d) i + mvec 3 (col_from X 12) (v3vec e) i + mvec 3 (col_from X 15) (v3vec a') i
  + mvec 3 (col_from X 18) (v3vec b') i + mvec 3 (col_from X 21) (v3vec c') i + mvec 3 (col_from X 24) (v3vec d') i + mvec 3 (col_from X 27) (v3vec e') i.
Lemma chain_rows A B C D E F G H I J K L M N O P Q S a b c d e a' b' c' d' e' i : (i < 15)%nat ->
  sum10 (chain30 A B C D E F G H I J K L M N O P Q S) a b c d e a' b' c' d' e' i =
  stack5 (v3add (v3add (m3v A a) (m3v C b)) (m3v B a'))
         (v3add (m3v D b) (m3v E b'))
         (v3add (v3add (v3add (v3add (m3v F a) (m3v I b)) (m3v G c)) (m3v J d)) (m3v H c'))
         (v3add (m3v K d) (m3v L d'))
         (v3add (v3add (v3add (v3add (v3add (m3v M a) (m3v Q b)) (m3v N c)) (m3v S d)) (m3v O e)) (m3v P e')) i.
Proof.
  intros Hi. do 15 (destruct i as [|i]; [destruct a, b, c, d, e, a', b', c', d', e'; cbv -[Rplus Rmult Ropp Rminus IZR m00 m01 m02 m10 m11 m12 m20 m21 m22]; ring|]). lia.
Qed.
Lemma stack5_derive (a b c d e : R -> v3) x a' b' c' d' e' : v3_derive a x a' -> v3_derive b x b' -> v3_derive c x c' -> v3_derive d x d' -> v3_derive e x e' ->
  vec_derive 15 (fun s => stack5 (a s) (b s) (c s) (d s) (e s)) x (stack5 a' b' c' d' e').
Proof.
  intros (A1 & A2 & A3) (B1 & B2 & B3) (C1 & C2 & C3) (D1 & D2 & D3) (E1 & E2 & E3) i Hi.
  do 15 (destruct i as [|i]; [assumption|]). lia.
Qed.
Lemma stack5_ext a b c d e a' b' c' d' e' i : a = a' -> b = b' -> c = c' -> d = d' -> e = e' -> stack5 a b c d e i = stack5 a' b' c' d' e' i.
Proof. intros -> -> -> -> ->. reflexivity. Qed.

Lemma cmove_q x d : unit_q (cl_q x) -> quat_2_Rot (cl_q (cmove x d 0)) = quat_2_Rot (cl_q x).
Proof. intros. cbn [cmove cl_q]. apply plus_0. auto. Qed.
Lemma add_s0 a b : v3add a (v3scal 0 b) = a.
Proof. apply v3_ext; cbn; ring. Qed.

Definition rows_dot (f : cfac) (x y : clone) (d e : cdir) : vec :=
  let R1 := quat_2_Rot (cl_q x) in
  stack5 (v3add (v3add (m3v (blk_th1 f x y) (cd_q d)) (m3v (blk_bg f x y) (cd_bg d))) (m3v (blk_th2 f x y) (cd_q e)))
    (v3sub (cd_bg e) (cd_bg d))
    (v3sub (v3sub (v3add (m3v (m3mul (m3scal (-1) (skew_x (cd_q d))) R1) (imu_dv f x y)) (m3v R1 (v3sub (cd_v e) (cd_v d)))) (m3v (cf_Jb f) (cd_bg d))) (m3v (cf_Hb f) (cd_ba d)))
    (v3sub (cd_ba e) (cd_ba d))
    (v3sub (v3sub (v3add (m3v (m3mul (m3scal (-1) (skew_x (cd_q d))) R1) (imu_dp f x y)) (m3v R1 (v3sub (v3sub (cd_p e) (cd_p d)) (v3scal (cf_dt f) (cd_v d))))) (m3v (cf_Ja f) (cd_bg d))) (m3v (cf_Ha f) (cd_ba d))).
Lemma raw_derive f x y d e : unit_q (cl_q x) -> unit_q (cl_q y) -> unit_q (cf_q f) -> cl_bg x = cf_bg f \/ cd_bg d = v3zero ->
  0 < cross_w f x y -> vec_derive 15 (fun s => imu_raw f (cmove x d s) (cmove y e s)) 0 (rows_dot f x y d e).
Proof.
  intros X Y B HB CW. unfold imu_raw, rows_dot. cbv zeta. apply stack5_derive.
  - apply qp_derive; auto.
  - cbn [cmove cl_bg]. apply v3d_sub; apply v3d_id.
  - assert (Z : forall u w, v3_derive (fun s => v3sub (v3add u (v3scal s w)) (cf_bg f)) 0 w).
    { intros. eapply v3_derive_eq; [apply v3d_sub; [apply v3d_id|apply v3d_const]|]. apply v3_ext; cbn; ring. }
    assert (Z' : forall u w, v3_derive (fun s => v3sub (v3add u (v3scal s w)) (cf_ba f)) 0 w).
    { intros. eapply v3_derive_eq; [apply v3d_sub; [apply v3d_id|apply v3d_const]|]. apply v3_ext; cbn; ring. }
    eapply v3_derive_eq.
    + apply v3d_sub; [|apply v3d_const]. apply v3d_sub; [apply v3d_sub|].
      * apply v3d_mv; [cbn [cmove cl_q]; apply plus_derive; auto|]. unfold imu_dv. cbn [cmove cl_v].
        apply v3d_add; [apply v3d_sub; apply v3d_id|apply v3d_const].
      * apply v3d_lin. cbn [cmove cl_bg]. apply Z.
      * apply v3d_lin. cbn [cmove cl_ba]. apply Z'.
    + cbv beta. rewrite cmove_q by auto. unfold imu_dv. cbn [cmove cl_v]. rewrite !add_s0.
      generalize (m3v (cf_Jb f) (cd_bg d)) (m3v (cf_Hb f) (cd_ba d)) (m3mul (m3scal (-1) (skew_x (cd_q d))) (quat_2_Rot (cl_q x))) (quat_2_Rot (cl_q x)). intros. apply v3_ext; cbn; ring.
  - cbn [cmove cl_ba]. apply v3d_sub; apply v3d_id.
  - assert (Z : forall u w, v3_derive (fun s => v3sub (v3add u (v3scal s w)) (cf_bg f)) 0 w).
    { intros. eapply v3_derive_eq; [apply v3d_sub; [apply v3d_id|apply v3d_const]|]. apply v3_ext; cbn; ring. }
    assert (Z' : forall u w, v3_derive (fun s => v3sub (v3add u (v3scal s w)) (cf_ba f)) 0 w).
    { intros. eapply v3_derive_eq; [apply v3d_sub; [apply v3d_id|apply v3d_const]|]. apply v3_ext; cbn; ring. }
    eapply v3_derive_eq.
    + apply v3d_sub; [|apply v3d_const]. apply v3d_sub; [apply v3d_sub|].
      * apply v3d_mv; [cbn [cmove cl_q]; apply plus_derive; auto|]. unfold imu_dp. cbn [cmove cl_v cl_p].
        apply v3d_add; [apply v3d_sub; [apply v3d_sub; apply v3d_id|apply v3d_scal; apply v3d_id]|apply v3d_const].
      * apply v3d_lin. cbn [cmove cl_bg]. apply Z.
      * apply v3d_lin. cbn [cmove cl_ba]. apply Z'.
    + cbv beta. rewrite cmove_q by auto. unfold imu_dp. cbn [cmove cl_v cl_p]. rewrite !add_s0.
      generalize (m3v (cf_Ja f) (cd_bg d)) (m3v (cf_Ha f) (cd_ba d)) (m3mul (m3scal (-1) (skew_x (cd_q d))) (quat_2_Rot (cl_q x))) (quat_2_Rot (cl_q x)). intros.
      unfold imu_dp. apply v3_ext; cbn; ring.
Qed.
(** what Ceres forms from the stored blocks *)
Lemma predict_rows f x y d e i : cpredict (imu_jac f x y) d e i =
  mvec 15 (cf_S f) (sum10 (imu_raw_jac f x y) (cd_q d) (cd_bg d) (cd_v d) (cd_ba d) (cd_p d) (cd_q e) (cd_bg e) (cd_v e) (cd_ba e) (cd_p e)) i.
Proof.
  unfold cpredict, imu_jac. cbv zeta. cbn [nth]. rewrite !local_pad. unfold imu_all_jac, sum10.
  assert (E : forall c v, mvec 3 (col_from (mmul 15 (cf_S f) (imu_raw_jac f x y)) c) v i = mvec 15 (cf_S f) (mvec 3 (col_from (imu_raw_jac f x y) c) v) i).
  { intros. rewrite <- mvec_mmul. reflexivity. }
  rewrite !E. rewrite <- !mvec_plus. reflexivity.
Qed.
Lemma jac_rows f x y d e i : (i < 15)%nat ->
  sum10 (imu_raw_jac f x y) (cd_q d) (cd_bg d) (cd_v d) (cd_ba d) (cd_p d) (cd_q e) (cd_bg e) (cd_v e) (cd_ba e) (cd_p e) i = rows_dot f x y d e i.
Proof.
  intros Hi.
  change (imu_raw_jac f x y) with (chain30 (blk_th1 f x y) (blk_th2 f x y) (blk_bg f x y) (m3scal (-1) m3id) m3id
    (skew_x (m3v (quat_2_Rot (cl_q x)) (imu_dv f x y))) (m3scal (-1) (quat_2_Rot (cl_q x))) (quat_2_Rot (cl_q x)) (m3scal (-1) (cf_Jb f)) (m3scal (-1) (cf_Hb f))
    (m3scal (-1) m3id) m3id (skew_x (m3v (quat_2_Rot (cl_q x)) (imu_dp f x y))) (m3scal (cf_dt f) (m3scal (-1) (quat_2_Rot (cl_q x)))) (m3scal (-1) (quat_2_Rot (cl_q x)))
    (quat_2_Rot (cl_q x)) (m3scal (-1) (cf_Ja f)) (m3scal (-1) (cf_Ha f))).
  rewrite chain_rows by auto. unfold rows_dot. apply stack5_ext; [reflexivity| | | |].
  - apply v3_ext; cbn; ring.
  - generalize (quat_2_Rot (cl_q x)) (imu_dv f x y) (cf_Jb f) (cf_Hb f). intros. apply v3_ext; cbn; ring.
  - apply v3_ext; cbn; ring.
  - generalize (quat_2_Rot (cl_q x)) (imu_dp f x y) (cf_Ja f) (cf_Ha f). intros. apply v3_ext; cbn; ring.
Qed.
Lemma imu_derive f x y d e : unit_q (cl_q x) -> unit_q (cl_q y) -> unit_q (cf_q f) -> cl_bg x = cf_bg f \/ cd_bg d = v3zero ->
  0 < cross_w f x y -> vec_derive 15 (fun s => imu_res f (cmove x d s) (cmove y e s)) 0 (cpredict (imu_jac f x y) d e).
Proof.
  intros X Y B HB CW i Hi. unfold imu_res.
  eapply is_derive_eq; [exact (mvec_derive 15 15 (cf_S f) (fun s => imu_raw f (cmove x d s) (cmove y e s)) 0 _ (raw_derive f x y d e X Y B HB CW) i Hi)|].
  rewrite predict_rows. apply mvec_ext_r. intros j Hj. symmetry. apply jac_rows. auto.
Qed.

(** small turns are on the right side *)
Lemma cross_small f x y : unit_q (cl_q x) -> unit_q (cl_q y) -> unit_q (cf_q f) ->
  small_turn (imu_q12 x y) -> small_turn (quat_multiply (quat_inv (cf_q f)) (imu_qb f x)) -> 0 < cross_w f x y.
Proof.
  intros X Y B (U1 & W1) (U2 & W2). unfold cross_w.
  pose proof (mult_pos _ _ Y (quat_inv_unit _ X)) as P1. fold (imu_q12 x y) in P1.
  assert (QB : unit_q (imu_qb f x)) by (rewrite qb_small; apply small_unit).
  pose proof (mult_pos _ _ (quat_inv_unit _ B) QB) as P2.
  set (a := imu_q12 x y) in *. set (b := quat_multiply _ _) in *. clearbody a b. unfold unit_q in *. unfold quat_mul_raw, v3dot. cbn [qw qvec vx vy vz].
  destruct a as [a1 a2 a3 a4], b as [b1 b2 b3 b4]. cbn [qx qy qz qw] in *.
  assert (V : (a1 * b1 + a2 * b2 + a3 * b3) * (a1 * b1 + a2 * b2 + a3 * b3) <= (a1 * a1 + a2 * a2 + a3 * a3) * (b1 * b1 + b2 * b2 + b3 * b3)).
  { pose proof (Rle_0_sqr (a1 * b2 - a2 * b1)). pose proof (Rle_0_sqr (a1 * b3 - a3 * b1)). pose proof (Rle_0_sqr (a2 * b3 - a3 * b2)). unfold Rsqr in *. nra. }
  assert (L : a1 * b1 + a2 * b2 + a3 * b3 < a4 * b4).
  { apply Rnot_le_lt. intros H. assert (P : 0 <= a4 * b4) by nra.
    assert (Q : (a4 * b4) * (a4 * b4) <= (a1 * b1 + a2 * b2 + a3 * b3) * (a1 * b1 + a2 * b2 + a3 * b3)) by nra.
    assert (S1 : 1 / 4 < (a4 * a4) * (b4 * b4)) by nra.
    assert (S2 : (a1 * a1 + a2 * a2 + a3 * a3) * (b1 * b1 + b2 * b2 + b3 * b3) <= 1 / 4).
    { replace (a1 * a1 + a2 * a2 + a3 * a3) with (1 - a4 * a4) by lra. replace (b1 * b1 + b2 * b2 + b3 * b3) with (1 - b4 * b4) by lra.
      pose proof (Rle_0_sqr a1). pose proof (Rle_0_sqr a2). pose proof (Rle_0_sqr a3). pose proof (Rle_0_sqr b1). pose proof (Rle_0_sqr b2). pose proof (Rle_0_sqr b3). unfold Rsqr in *.
      assert (0 <= 1 - a4 * a4 < 1 / 2) by lra. assert (0 <= 1 - b4 * b4 < 1 / 2) by lra. nra. }
    nra. }
  lra.
Qed.
