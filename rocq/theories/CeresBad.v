(** C90: where the stored Jacobians of the IMU term are not its derivatives. *)
From Coq Require Import Reals List Bool Arith Lia Lra Psatz.
From Coquelicot Require Import Coquelicot.
From Verif Require Import RBool Outcome GeoModel GeoSpec GeoProofs ExpSeries JacSo3 Calc3 Lin TypesModel ManifoldSpec StateModel StateEkf PropModel PropSpec CamModel CamSpec HelpModel HelpSpec HelpAsm HelpRep HelpGeo CpiModel CpiSpec CeresModel CeresSpec CeresQuat CeresImg CeresImu CeresRows CeresZero.
Import ListNotations.
Open Scope R_scope.

Definition bad_f (q : q4) (Jq : m3) : cfac := mkCF 1 v3zero v3zero v3zero q v3zero v3zero Jq m3id m3id m3id m3id mid.
Definition bad_cl (q : q4) (bg : v3) : clone := mkCl q bg v3zero v3zero v3zero.
Definition cd0 : cdir := mkCD v3zero v3zero v3zero v3zero v3zero.
Definition cdq (u : v3) : cdir := mkCD u v3zero v3zero v3zero v3zero.
Definition cdb (u : v3) : cdir := mkCD v3zero u v3zero v3zero v3zero.
Lemma multiply_pos a b : unit_q a -> unit_q b -> 0 <= qw (quat_mul_raw a b) -> quat_multiply a b = quat_mul_raw a b.
Proof.
  intros A B P. change (quat_multiply a b) with (quatnorm (quat_mul_raw a b)). rewrite quatnorm_unit by (apply quat_mul_raw_unit; auto).
  destruct (Rltb_spec (qw (quat_mul_raw a b)) 0); [lra|reflexivity].
Qed.
Lemma plus_id q : unit_q q -> 0 <= qw q -> jpl_plus q v3zero = q.
Proof.
  intros U P. unfold jpl_plus. rewrite delta_0. rewrite multiply_pos; auto.
  - apply raw_id_l.
  - unfold unit_q; cbn; ring.
  - rewrite raw_id_l. exact P.
Qed.
Lemma res_first f x y : cf_S f = mid -> imu_res f x y 0%nat = 2 * qx (imu_qp f x y).
Proof. intros E. unfold imu_res. rewrite E, mid_mvec by lia. reflexivity. Qed.
Lemma predict_first f x y d e : cf_S f = mid -> cpredict (imu_jac f x y) d e 0%nat =
  vx (v3add (v3add (m3v (blk_th1 f x y) (cd_q d)) (m3v (blk_bg f x y) (cd_bg d))) (m3v (blk_th2 f x y) (cd_q e))).
Proof. intros E. rewrite predict_rows, E, mid_mvec by lia. rewrite jac_rows by lia. reflexivity. Qed.

(** ** more than half a turn between the estimated and the measured relative rotation *)
Definition bq : q4 := Q4 (40 / 41) 0 0 (9 / 41).
Definition bq' : q4 := Q4 (- (40 / 41)) 0 0 (9 / 41).
Lemma bq_unit : unit_q bq /\ unit_q bq' /\ unit_q qid.
Proof. unfold unit_q; cbn; repeat split; lra. Qed.
Definition b1f := bad_f bq' m3id. Definition b1x := bad_cl qid v3zero. Definition b1y := bad_cl bq v3zero.
Lemma b1_q12 : imu_q12 b1x b1y = bq.
Proof.
  destruct bq_unit as (A & B & C). unfold imu_q12. rewrite multiply_pos; auto using quat_inv_unit.
  - apply q4_ext; unfold v3dot; cbn; unfold v3dot; cbn; lra.
  - unfold v3dot; cbn; unfold v3dot; cbn; lra.
Qed.
Lemma b1_qb : imu_qb b1f b1x = qid.
Proof. rewrite qb_small. replace (m3v _ _) with (v3scal 0 v3zero) by (apply v3_ext; cbn; ring). apply small_0. Qed.
Lemma b1_meas : quat_multiply (quat_inv (cf_q b1f)) (imu_qb b1f b1x) = bq.
Proof.
  destruct bq_unit as (A & B & C). rewrite b1_qb. rewrite multiply_pos; auto using quat_inv_unit.
  - apply q4_ext; unfold v3dot; cbn; unfold v3dot; cbn; lra.
  - unfold v3dot; cbn; unfold v3dot; cbn; lra.
Qed.
Lemma b1_cross : cross_w b1f b1x b1y = - (1519 / 1681).
Proof. unfold cross_w. rewrite b1_q12, b1_meas. unfold v3dot; cbn; unfold v3dot; cbn. lra. Qed.
Lemma half_turn_wrong : exists f x y d, unit_q (cl_q x) /\ unit_q (cl_q y) /\ unit_q (cf_q f) /\ cl_bg x = cf_bg f /\ cf_S f = mid /\
  is_derive (fun s => imu_res f (cmove x d s) y 0%nat) 0 (- cpredict (imu_jac f x y) d cd0 0%nat) /\ cpredict (imu_jac f x y) d cd0 0%nat <> 0.
Proof.
  destruct bq_unit as (A & B & C). exists b1f, b1x, b1y, (cdq e1).
  split; [exact C|]. split; [exact A|]. split; [exact B|]. split; [reflexivity|]. split; [reflexivity|].
  assert (TH : m3v (blk_th1 b1f b1x b1y) e1 = V3 (1519 / 1681) 0 0).
  { unfold blk_th1. rewrite b1_q12, b1_meas. apply v3_ext; cbn; lra. }
  rewrite predict_first by reflexivity. cbn [cd_q cd_bg cdq cd0]. rewrite TH.
  assert (Z : forall M : m3, m3v M v3zero = v3zero) by (intros; apply v3_ext; cbn; ring). rewrite !Z.
  split; [|cbn; lra].
  assert (W : 0 < -1 * cross_w b1f b1x b1y) by (rewrite b1_cross; lra).
  destruct (qp_derive_sg b1f b1x b1y (cdq e1) cd0 (-1) ltac:(ring) C A B (or_introl eq_refl) W) as (D & _).
  cbn [cd_q cd_bg cdq cd0] in D. rewrite !Z in D.
  replace (m3v (m3scal (-1) (blk_th1 b1f b1x b1y)) e1) with (V3 (- (1519 / 1681)) 0 0) in D.
  2: { replace (m3v (m3scal (-1) (blk_th1 b1f b1x b1y)) e1) with (v3scal (-1) (m3v (blk_th1 b1f b1x b1y) e1)) by (generalize (blk_th1 b1f b1x b1y); intros; apply v3_ext; cbn; ring). rewrite TH. apply v3_ext; cbn; ring. }
  cbn [vx v3add v3zero] in *.
  assert (M : forall s, imu_qp b1f (cmove b1x (cdq e1) s) (cmove b1y cd0 s) = imu_qp b1f (cmove b1x (cdq e1) s) b1y).
  { intros s. unfold imu_qp, imu_qm, imu_q12. do 3 f_equal. cbn [cmove cl_q cd_q cd0 b1y bad_cl].
    replace (v3scal s v3zero) with v3zero by (apply v3_ext; cbn; ring). apply plus_id; auto; cbn; lra. }
  eapply is_derive_eq; [eapply der_ext; [|exact D]|lra]. intros s. rewrite res_first by reflexivity. rewrite <- M. reflexivity.
Qed.

(** ** gyroscope bias away from the one the readings were integrated with *)
Definition b2f := bad_f qid m3id. Definition b2x := bad_cl qid (V3 2 0 0). Definition b2y := bad_cl qid v3zero.
Lemma b2_qp s : imu_qp b2f (cmove b2x (cdb e1) s) b2y = small_quat (V3 (2 + s) 0 0).
Proof.
  destruct bq_unit as (_ & _ & C).
  assert (E1 : cl_q (cmove b2x (cdb e1) s) = qid).
  { cbn [cmove cl_q cd_q cdb b2x bad_cl]. replace (v3scal s v3zero) with v3zero by (apply v3_ext; cbn; ring). apply plus_id; auto; cbn; lra. }
  assert (I : quat_multiply qid (quat_inv qid) = qid).
  { rewrite multiply_pos; auto using quat_inv_unit; [apply q4_ext|]; unfold v3dot; cbn; unfold v3dot; cbn; lra. }
  unfold imu_qp, imu_qm, imu_q12. rewrite E1. cbn [b2y bad_cl cl_q b2f bad_f cf_q]. rewrite !I.
  rewrite qb_small. cbn [cmove cl_bg cd_bg cdb b2x bad_cl cf_Jq cf_bg].
  replace (m3v m3id _) with (V3 (2 + s) 0 0) by (apply v3_ext; cbn; ring).
  destruct (small_unit (V3 (2 + s) 0 0)) as (U & P). rewrite multiply_pos; auto; rewrite raw_id_l; [reflexivity|lra].
Qed.
Lemma far_bias_wrong : exists f x y d, unit_q (cl_q x) /\ unit_q (cl_q y) /\ unit_q (cf_q f) /\ 0 < cross_w f x y /\ cf_S f = mid /\
  ~ is_derive (fun s => imu_res f (cmove x d s) y 0%nat) 0 (cpredict (imu_jac f x y) d cd0 0%nat).
Proof.
  destruct bq_unit as (_ & _ & C). exists b2f, b2x, b2y, (cdb e1).
  split; [exact C|]. split; [exact C|]. split; [exact C|].
  assert (I : quat_multiply qid (quat_inv qid) = qid).
  { rewrite multiply_pos; auto using quat_inv_unit; [apply q4_ext|]; unfold v3dot; cbn; unfold v3dot; cbn; lra. }
  destruct (small_unit (V3 2 0 0)) as (U & P).
  assert (QB : imu_qb b2f b2x = small_quat (V3 2 0 0)).
  { rewrite qb_small. f_equal. apply v3_ext; cbn; ring. }
  assert (II : quat_inv qid = qid) by (apply q4_ext; cbn; ring).
  split.
  { unfold cross_w. cbn [b2f bad_f cf_q]. fold b2f. rewrite QB, II. rewrite multiply_pos by (auto; rewrite raw_id_l; lra). rewrite raw_id_l.
    unfold imu_q12. cbn [b2x b2y bad_cl cl_q]. rewrite I, raw_id_l. exact P. }
  split; [reflexivity|]. rewrite predict_first by reflexivity. cbn [cd_q cd_bg cdb cd0].
  assert (Z : forall M : m3, m3v M v3zero = v3zero) by (intros; apply v3_ext; cbn; ring). rewrite !Z.
  assert (BB : m3v (blk_bg b2f b2x b2y) e1 = e1).
  { unfold blk_bg, imu_qm, imu_q12. cbn [b2f b2x b2y bad_f bad_cl cl_q cf_q cf_Jq]. rewrite !I. apply v3_ext; cbn; ring. }
  rewrite BB. cbn [vx v3add v3zero e1]. intros D.
  assert (T : is_derive (fun s => 2 * ((2 + s) / 2 / sqrt (1 + (2 + s) * (2 + s) / 4))) 0 (/ (2 * sqrt 2))).
  { assert (S2 : sqrt 2 * sqrt 2 = 2) by (apply sqrt_sqrt; lra). assert (0 < sqrt 2) by (apply sqrt_lt_R0; lra).
    assert (Q : 1 + (2 + 0) * (2 + 0) * / 4 = 2) by field.
    auto_derive; rewrite ?Q; [repeat split; lra|]. rewrite S2. field. lra. }
  assert (D' : is_derive (fun s => 2 * ((2 + s) / 2 / sqrt (1 + (2 + s) * (2 + s) / 4))) 0 (0 + 1 + 0)).
  { eapply der_ext; [|exact D]. intros s. cbv beta. rewrite (res_first b2f (cmove b2x (cdb e1) s) b2y) by reflexivity. rewrite b2_qp, small_eq. cbn [qx vx]. unfold v3dot. cbn [vx vy vz]. do 3 f_equal.
    rewrite !Rmult_0_r, !Rplus_0_r. reflexivity. }
  apply is_derive_unique in T. apply is_derive_unique in D'. rewrite T in D'.
  assert (0 < sqrt 2) by (apply sqrt_lt_R0; lra). assert (sqrt 2 * sqrt 2 = 2) by (apply sqrt_sqrt; lra).
  assert (E : 1 = 2 * sqrt 2). { apply (f_equal (fun r => r * (2 * sqrt 2))) in D'. rewrite Rinv_l in D' by lra. lra. }
  nra.
Qed.
