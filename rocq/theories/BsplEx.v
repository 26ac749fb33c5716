(** Concrete splines (C39, C40). *)
From Coq Require Import Reals Lra Psatz Bool List Sorted.
From Coquelicot Require Import Coquelicot.
From Verif Require Import RBool Outcome GeoModel GeoSpec GeoProofs ExpProofs Se3Proofs JacSo3 Calc3 GeoMore EvalThms.
From Verif Require Import BsplModel BsplSpec BsplFind BsplDiff BsplSeg BsplThms BsplKnot BsplNear.
Open Scope R_scope.

(** a quarter turn about the vertical axis while moving sideways and up *)
Definition bw : v3 := V3 0 0 (PI / 2).
Definition bu : v3 := V3 1 0 1.
Definition bE : se3 := exp_se3 bw bu.
Definition bl : pmap := (0, se3id) :: (1, se3id) :: (2, se3id) :: (3, se3id) :: (4, bE) :: nil.

Lemma bw_norm : v3norm bw = PI / 2.
Proof.
  unfold v3norm, v3dot, bw; simpl. replace (0 * 0 + 0 * 0 + PI / 2 * (PI / 2)) with (Rsqr (PI / 2)) by (unfold Rsqr; ring).
  apply sqrt_Rsqr. pose proof PI_RGT_0. lra.
Qed.
Lemma PI_bounds : 3 < PI <= 4.
Proof. pose proof PI2_3_2. pose proof PI_4. split; lra. Qed.

Lemma bl_sorted : by_time bl.
Proof. unfold by_time, bl. repeat (constructor; [|repeat (constructor; [simpl; lra|]); try constructor]). constructor. Qed.
Lemma seg_id : seg se3id se3id = (v3zero, v3zero).
Proof.
  unfold seg. replace (se3mul (Inv_se3 se3id) se3id) with se3id.
  - unfold log_se3. cbn [se3id seR set_]. rewrite log_id, norm_v3zero. destruct (Rltb_spec 0 (1 / 10 ^ 10)); [reflexivity|lra].
  - apply se3_ext; [apply m3_ext|apply v3_ext]; simpl; ring.
Qed.
Lemma seg_E : seg se3id bE = (bw, bu).
Proof.
  unfold seg. replace (se3mul (Inv_se3 se3id) bE) with bE.
  - unfold bE. apply log_exp_se3; rewrite bw_norm, ?cos_PI2; pose proof PI_bounds; try lra.
  - apply se3_ext; [apply m3_ext|apply v3_ext]; simpl; ring.
Qed.
Lemma around_bl t : 2 <= t < 3 -> around t bl (1, se3id) (2, se3id) (3, se3id) (4, bE).
Proof. intros H. exists ((0, se3id) :: nil), nil. split; [reflexivity|exact H]. Qed.

Lemma clear_bl t : 2 <= t < 3 -> t = 2 \/ 1 / 10 < t - 2 ->
  clear_of_switch (1, se3id) (2, se3id) (3, se3id) (4, bE) t.
Proof.
  intros H H2. unfold clear_of_switch. cbn [fst snd]. rewrite seg_id, seg_E. split; [|split]; cbn [fst].
  - left. apply norm_v3zero.
  - left. apply norm_v3zero.
  - replace ((t - 2) / (3 - 2)) with (t - 2) by field. destruct H2 as [->|H2].
    + right; right. unfold cb2. ring.
    + right; left. rewrite bw_norm. unfold cb2. pose proof PI_bounds.
      assert (1 / 1000 < (t - 2) * (t - 2) * (t - 2)).
      { apply Rle_lt_trans with (1 / 10 * (1 / 10) * (1 / 10)); [lra|]. set (x := t - 2) in *. assert (1 / 10 * (1 / 10) < x * x) by nra. nra. }
      rewrite Rabs_right by lra. nra.
Qed.

Lemma knot_bl : knot 2 bl (0, se3id) (1, se3id) (2, se3id) (3, se3id) (4, bE) /\
  knot_ok (0, se3id) (1, se3id) (2, se3id) (3, se3id) (4, bE).
Proof.
  split; [exists nil, nil; split; reflexivity|]. unfold knot_ok. cbn [fst snd]. split; [ring|]. split; [apply is_rot_id|]. split.
  - split.
    + replace (m3mul (m3tr (seR se3id)) (seR se3id)) with m3id by (apply m3_ext; simpl; ring). apply is_rot_id.
    + left. apply m3_ext; simpl; ring.
  - split.
    + unfold clear_of_switch. cbn [fst snd]. rewrite seg_id. split; [|split]; left; apply norm_v3zero.
    + apply clear_bl; [lra|auto].
Qed.

(** the reported rates at an ordinary time *)
Lemma exp_at_zero b : exp_at b (v3zero, v3zero) = se3id.
Proof.
  unfold exp_at. cbn [fst snd]. replace (v3scal b v3zero) with v3zero by (apply v3_ext; simpl; ring).
  rewrite exp_se3_zero. reflexivity.
Qed.
Lemma rates_bl t : 2 <= t < 3 -> exists rp w v, get_velocity bl t (m3id, v3zero) = Ok (true, rp, (w, v)) /\
  vz v = (t - 2) * (t - 2) / 2.
Proof.
  intros Ht. rewrite (get_velocity_around bl t (m3id, v3zero) _ _ _ _ bl_sorted (around_bl t Ht)).
  eexists _, _, _. split; [reflexivity|].
  unfold seg_vel. cbn [fst snd]. rewrite seg_id, seg_E. replace ((t - 2) / (3 - 2)) with (t - 2) by field.
  unfold interp_vel. cbv zeta. rewrite !exp_at_zero. generalize (exp_at (cb2 (t - 2)) (bw, bu)). intros A2.
  unfold hat_se3, bw, bu, cb2dot. simpl. field.
Qed.

(** just after the knot the reported velocity is not the derivative of the reported position *)
Lemma near_bl Rf pf : pose_curve bl Rf pf ->
  exists rp w v, get_velocity bl (2 + 1 / 1000) (m3id, v3zero) = Ok (true, rp, (w, v)) /\ ~ v3_derive pf (2 + 1 / 1000) v.
Proof.
  intros Hp. set (t := 2 + 1 / 1000). assert (Ht : 2 <= t < 3) by (unfold t; lra).
  rewrite (get_velocity_around bl t (m3id, v3zero) _ _ _ _ bl_sorted (around_bl t Ht)).
  eexists _, _, _. split; [reflexivity|]. intros D.
  assert (HD : 3 - 2 <> 0) by lra.
  pose proof (near_formula se3id (v3zero, v3zero) (v3zero, v3zero) (bw, bu) 2 (3 - 2) t HD
     (or_introl norm_v3zero) (or_introl norm_v3zero)) as F. cbv zeta in F. cbn [fst snd] in F.
  assert (Hu : (t - 2) / (3 - 2) = 1 / 1000) by (unfold t; field). rewrite Hu in F.
  assert (Hc : cb2 (1 / 1000) = 1 / (6 * 10 ^ 9)) by (unfold cb2; field).
  specialize (F ltac:(rewrite Hc, bw_norm, Rabs_right by lra; pose proof PI_bounds; lra)).
  assert (D' : v3_derive pf t (m4t (seg_vel (1, se3id) (2, se3id) (3, se3id) (4, bE) t))) by exact D.
  assert (F' : v3_derive pf t (v3sub (m4t (interp_vel se3id (v3zero, v3zero) (v3zero, v3zero) (bw, bu) (3 - 2) (1 / 1000)))
     (m3v (m3mul (seR se3id) (m3mul (seR (exp_at (cb0 (1 / 1000)) (v3zero, v3zero))) (seR (exp_at (cb1 (1 / 1000)) (v3zero, v3zero)))))
        (v3scal (cb2dot (3 - 2) (1 / 1000) * (cb2 (1 / 1000) * cb2 (1 / 1000) * cb2 (1 / 1000)) / 6) (m3v (m3mul (skew_x bw) (m3mul (skew_x bw) (skew_x bw))) bu))))).
  { eapply v3_derive_ext_loc; [|exact F].
    eapply filter_imp; [|exact (around_near bl t _ _ _ _ (around_bl t Ht) ltac:(unfold t; simpl; lra))].
    intros s Hl. destruct (Hp s) as (ok' & E). rewrite (get_pose_around bl s _ _ _ _ bl_sorted Hl) in E.
    apply ok_inj in E. apply pair_inj in E as (_ & E). apply pair_inj in E as (_ & <-).
    unfold seg_pose. cbn [fst snd]. rewrite seg_id, seg_E. reflexivity. }
  pose proof (v3_derive_unique _ _ _ _ D' F') as U. clear D D' F F'.
  unfold seg_vel in U. cbn [fst snd] in U. rewrite seg_id, seg_E, Hu in U. rewrite !exp_at_zero in U.
  set (V := m4t (interp_vel _ _ _ _ _ _)) in U. clearbody V. apply (f_equal vy) in U.
  rewrite Hc in U. unfold cb2dot in U. unfold bw, bu in U. simpl in U. ring_simplify in U.
  pose proof PI_bounds as B. assert (0 < PI ^ 3) by (apply pow_lt; lra). revert U. unfold Rdiv. intros U. field_simplify in U. nra.
Qed.
