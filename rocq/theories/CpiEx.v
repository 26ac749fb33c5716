(** Concrete cases for C82 and C83, and what happens to slow rotations. *)
From Coq Require Import Reals List Bool Arith Lia Lra Psatz.
From Coquelicot Require Import Coquelicot.
From Verif Require Import RBool GeoModel GeoSpec GeoProofs ExpProofs JacSo3 Calc3 Lin TypesModel ManifoldSpec PropModel PropSpec PropAna CpiModel CpiSpec CpiProofs CpiJac.
Open Scope R_scope.

(** three readings: one turning, one without time passing, one not rotating; biases (0,0,1) and (1,0,0) *)
Definition exc_bw : v3 := V3 0 0 1.
Definition exc_ba : v3 := V3 1 0 0.
Definition exc_g : v3 := V3 0 0 10.
Definition exc_l : list reading :=
  mkRd 0 (1 / 2) (V3 0 3 1) (V3 1 0 10) (V3 0 5 1) (V3 3 0 10) ::
  mkRd (1 / 2) (1 / 2) (V3 7 7 7) (V3 7 7 7) (V3 8 8 8) (V3 8 8 8) ::
  mkRd (1 / 2) 2 (V3 0 0 1) (V3 1 2 10) (V3 0 0 1) (V3 1 4 10) :: nil.
Lemma exc_norm : v3norm (unbiased true exc_bw (V3 0 3 1) (V3 0 5 1)) = 4.
Proof. unfold v3norm. replace (v3dot _ _) with (4 * 4) by (unfold v3dot, unbiased, exc_bw; simpl; field). apply sqrt_square; lra. Qed.
Lemma exc_rates : rates rate_in true exc_bw exc_l.
Proof.
  intros r [E|[E|[E|[]]]]; subst r; cbn [rd_t0 rd_t1 rd_w0 rd_w1].
  - right. right. rewrite exc_norm. lra.
  - left. lra.
  - right. left. unfold unbiased, exc_bw. apply v3_ext; simpl; field.
Qed.
Lemma rates_in_ok avg bw l : rates rate_in avg bw l -> rates rate_ok avg bw l.
Proof. intros H r Hr. destruct (H r Hr) as [E|E]; [left; exact E|right; apply rate_in_ok; exact E]. Qed.
Lemma still_exists a g Q v0 p0 : exists Rs v p, kinematics v3zero a g Rs v p /\ Rs 0 = Q /\ v 0 = v0 /\ p 0 = p0.
Proof.
  exists (fun _ => Q), (fun t => v3add v0 (v3scal t (v3sub (m3v (m3tr Q) a) g))), (fun t => v3add p0 (v3add (v3scal t v0) (v3scal (t * t / 2) (v3sub (m3v (m3tr Q) a) g)))).
  split; [|split; [reflexivity|split; apply v3_ext; simpl; field]]. intros t. split; [|split].
  - eapply m3_derive_eq; [apply m3d_const|]. apply m3_ext; simpl; ring.
  - eapply v3_derive_eq; [apply v3d_add; [apply v3d_const|apply (v3d_scalf (fun t => t)); [apply is_derive_id|apply v3d_const]]|]. apply v3_ext; simpl; unfold one; simpl; ring.
  - eapply v3_derive_eq; [apply v3d_add; [apply v3d_const|apply v3d_add; [apply (v3d_scalf (fun t => t)); [apply is_derive_id|apply v3d_const]|apply (v3d_scalf (fun t => t * t / 2) _ _ t); [auto_derive; auto; field|apply v3d_const]]]|].
    apply v3_ext; simpl; unfold one; simpl; ring.
Qed.
Lemma motion_exists w a g Q v0 p0 : exists Rs v p, kinematics w a g Rs v p /\ Rs 0 = Q /\ v 0 = v0 /\ p 0 = p0.
Proof.
  destruct (Rle_lt_dec (v3norm w) 0) as [Z|P].
  - assert (E : v3norm w = 0) by (pose proof (sqrt_pos (v3dot w w)); unfold v3norm in *; lra).
    assert (W : w = v3zero). { pose proof (v3norm_sq w) as S. rewrite E in S. unfold v3dot in S. apply v3_ext; simpl; nra. }
    rewrite W. apply still_exists.
  - destruct (kinematics_exists w a g Q v0 p0 P) as (Rs & v & p & K & A & B & C & _). exists Rs, v, p. auto.
Qed.
(** whatever the pieces, a body can be moved by them *)
Lemma moves_exists g l : forall x, exists y, moves g l x y.
Proof.
  induction l as [|[[dt w] a] l IH]; intros [Q v0 p0]; [eexists; constructor|].
  destruct (motion_exists w a g Q v0 p0) as (Rs & v & p & K & A & B & C). destruct (IH (mkBody (Rs dt) (v dt) (p dt))) as (y & Y).
  exists y. subst Q v0 p0. econstructor; [exact K|exact Y].
Qed.
Definition exc_x : body := mkBody m3id (V3 1 2 3) (V3 4 5 6).
Lemma exc_moves : exists y, moves exc_g (map (piece true exc_bw exc_ba) exc_l) exc_x y.
Proof. apply moves_exists. Qed.
Lemma exc_duration : duration exc_l = 2.
Proof. unfold duration, exc_l; simpl. lra. Qed.

(** slow but not zero: the truncated series is not a rotation matrix *)
Definition exs_l : list reading := mkRd 0 1 (V3 (1 / 1000) 0 0) v3zero (V3 (1 / 1000) 0 0) v3zero :: nil.
Lemma slow_not_rot Qc : ~ is_rot (cp_R (cpi_run (cpi_new false Qc v3zero v3zero) exs_l)).
Proof.
  intros (H & _). unfold exs_l, cpi_run in H; cbn [fold_left] in H. unfold cpi_feed in H. cbn [rd_t0 rd_t1 rd_w0 rd_w1 rd_a0 rd_a1] in H.
  destruct (Reqb_spec (1 - 0) 0) as [Z|Z]; [lra|]. cbn [cp_R cpi_new cp_avg cp_bw] in H. rewrite hat_eq in H.
  assert (E : unbiased false v3zero (V3 (1 / 1000) 0 0) (V3 (1 / 1000) 0 0) = V3 (1 / 1000) 0 0) by (unfold unbiased; apply v3_ext; simpl; field).
  rewrite E in H. unfold cpi_rot in H. rewrite small_t in H.
  2:{ unfold v3norm. replace (v3dot _ _) with (1 / 1000 * (1 / 1000)) by (unfold v3dot; simpl; field). rewrite sqrt_square by lra. unfold thr. lra. }
  apply (f_equal m11) in H. simpl in H. lra.
Qed.
