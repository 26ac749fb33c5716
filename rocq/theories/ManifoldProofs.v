(** Manifold update of the variable classes. *)
From Coq Require Import Reals List Arith Lia Lra Bool Psatz.
From Coquelicot Require Import Coquelicot.
From Verif Require Import RBool Outcome Lin GeoModel GeoSpec GeoProofs GeoMore JacSo3 TypesModel StateModel StateSpec TypesProofs
  ManifoldSpec.
Import ListNotations.
Open Scope R_scope.

Lemma small_quat_rot d : quat_2_Rot (small_quat d) = cayley d.
Proof.
  destruct d as [x y z]. unfold small_quat, quatnorm, cayley, v3dot.
  cbn [qw qx qy qz vx vy vz]. cbv zeta.
  destruct (Rltb_spec 1 0) as [|_]; [lra|].
  unfold q4div, q4norm. cbn [qw qx qy qz].
  match goal with |- context[sqrt ?e] => set (n2 := e) end.
  assert (Hn : 0 < n2) by (unfold n2; nra).
  replace (1 + (x * x + y * y + z * z) / 4) with n2 by (unfold n2; field).
  set (s := sqrt n2).
  assert (Hs : s * s = n2) by (apply sqrt_sqrt; lra).
  assert (Hs0 : s <> 0) by (intros E; rewrite E in Hs; lra).
  assert (Ec : / n2 = / s * / s) by (rewrite <- Hs; field; auto).
  rewrite Ec. unfold Rdiv. set (u := / s) in *.
  assert (E1 : u * u * n2 = 1) by (rewrite <- Hs; unfold u; field; auto). unfold n2 in E1.
  assert (E2 : 2 * (1 * u * (1 * u)) - 1 = 1 - u * u / 2 * (x * x + y * y + z * z)) by lra.
  unfold quat_2_Rot, skew_x, m3add, m3sub, m3scal, m3id, m3outer, qvec. cbn [qw qx qy qz vx vy vz].
  cbn [m00 m01 m02 m10 m11 m12 m20 m21 m22].
  apply m3_ext; cbn [m00 m01 m02 m10 m11 m12 m20 m21 m22]; rewrite ?E2; field.
Qed.

Lemma turned_update d q : unit_q q -> turned d q (quat_multiply (small_quat d) q).
Proof.
  intros H. split; [|split].
  - apply quat_multiply_unit; auto using small_quat_unit.
  - apply quat_multiply_unit; auto using small_quat_unit.
  - rewrite quat_multiply_rot by auto using small_quat_unit. rewrite small_quat_rot. reflexivity.
Qed.

Lemma list_add_nth a b i : length a = length b -> (i < length a)%nat -> nth i (list_add a b) 0 = nth i a 0 + nth i b 0.
Proof. revert b i; induction a as [|x a IH]; intros [|y b] [|i]; simpl; intros; try lia; auto. apply IH; lia. Qed.

Lemma slice3_part d k : slice3 d k = part d k.
Proof. unfold slice3, part. rewrite Nat.add_1_r. replace (k + 2)%nat with (S (S k)) by lia. reflexivity. Qed.

Lemma update_moved t d t' : vals_ok t -> ori_unit t -> ty_update t d = Ok t' ->
  moved d (value_of t) (value_of t').
Proof.
  intros HV HU. unfold ty_update, guard.
  destruct (Nat.eqb_spec (length d) (ty_size t)) as [HL|]; [|discriminate].
  destruct t as [v|v|q|p|i]; intros H.
  - apply obind_ok in H. destruct H as (v' & Hv & H). injection H as <-.
    apply vec_update_ok in Hv. destruct Hv as (-> & A & B). simpl.
    rewrite list_add_length by auto. split; auto. split; auto. intros i Hi. apply list_add_nth; auto.
  - injection H as <-. simpl. rewrite slice3_part. reflexivity.
  - injection H as <-. simpl. rewrite slice3_part. apply turned_update; auto.
  - injection H as <-. simpl in *. destruct HV as (_ & E & _). rewrite !slice3_part. split; auto.
    rewrite E in HU |- *. simpl in *. apply turned_update; auto.
  - injection H as <-. simpl in *. destruct HV as (_ & E & _). rewrite !slice3_part. split; auto.
    rewrite E in HU |- *. simpl in *. apply turned_update; auto.
Qed.

Lemma small_quat_zero : small_quat v3zero = Q4 0 0 0 1.
Proof.
  unfold small_quat, v3zero. cbn [vx vy vz]. rewrite quatnorm_unit by (unfold unit_q; simpl; ring). simpl.
  destruct (Rltb_spec 1 0); [lra|]. f_equal; ring.
Qed.

Lemma slice3_zero n k : slice3 (repeat 0 n) k = v3zero.
Proof.
  unfold slice3, v3zero. rewrite !nth_repeat. reflexivity.
Qed.
Lemma v3add_zero a : v3add a v3zero = a.
Proof. destruct a; unfold v3add; simpl; f_equal; ring. Qed.
Lemma list_add_zero l : list_add l (repeat 0 (length l)) = l.
Proof. induction l as [|a l IH]; simpl; auto. rewrite IH. f_equal. ring. Qed.

Lemma update_zero t t' : vals_ok t -> ori_unit t -> canonical (value_of t) ->
  ty_update t (repeat 0 (ty_size t)) = Ok t' -> value_of t' = value_of t.
Proof.
  intros HV HU HC. unfold ty_update, guard.
  destruct (Nat.eqb_spec (length (repeat 0 (ty_size t))) (ty_size t)) as [HL|]; [|discriminate].
  destruct t as [v|v|q|p|i]; intros H; cbn [ty_size] in *.
  - apply obind_ok in H. destruct H as (v' & Hv & H). injection H as <-.
    apply vec_update_ok in Hv. destruct Hv as (-> & A & B). simpl in *. destruct HV as (V1 & _).
    rewrite <- V1, list_add_zero. reflexivity.
  - injection H as <-. simpl. f_equal. apply v3add_zero.
  - injection H as <-. simpl. f_equal. change (slice3 [0; 0; 0] 0) with v3zero. rewrite small_quat_zero, quat_multiply_id_l; auto.
  - injection H as <-. match goal with |- ?l = _ => change l with
      (VPose (PVal (quat_multiply (small_quat v3zero) (qo_val (po_q p))) (v3add (pv_p (po_val p)) v3zero))) end.
    simpl in HV, HU, HC. rewrite small_quat_zero, v3add_zero.
    destruct HV as (_ & E & _). rewrite E in *. simpl in *. rewrite quat_multiply_id_l by auto. rewrite E. reflexivity.
  - injection H as <-. match goal with |- ?l = _ => change l with
      (VImu (IVal (quat_multiply (small_quat v3zero) (qo_val (po_q (io_pose i)))) (v3add (iv_p (io_val i)) v3zero)
         (v3add (iv_v (io_val i)) v3zero) (v3add (iv_bg (io_val i)) v3zero) (v3add (iv_ba (io_val i)) v3zero))) end.
    simpl in HV, HU, HC. rewrite small_quat_zero, !v3add_zero.
    destruct HV as (_ & E & _). rewrite E in *. simpl in *. rewrite quat_multiply_id_l by auto. rewrite E. reflexivity.
Qed.

Lemma cayley_rot d : is_rot (cayley d).
Proof. rewrite <- small_quat_rot. apply quat_2_Rot_is_rot, small_quat_unit. Qed.

(** first order: turning by [s d] changes the rotation at rate - skew(d) *)
Lemma cayley_first_order d :
  cayley (v3scal 0 d) = m3id /\
  let D := m3scal (-1) (skew_x d) in
  is_derive (fun s => m00 (cayley (v3scal s d))) 0 (m00 D) /\ is_derive (fun s => m01 (cayley (v3scal s d))) 0 (m01 D) /\
  is_derive (fun s => m02 (cayley (v3scal s d))) 0 (m02 D) /\ is_derive (fun s => m10 (cayley (v3scal s d))) 0 (m10 D) /\
  is_derive (fun s => m11 (cayley (v3scal s d))) 0 (m11 D) /\ is_derive (fun s => m12 (cayley (v3scal s d))) 0 (m12 D) /\
  is_derive (fun s => m20 (cayley (v3scal s d))) 0 (m20 D) /\ is_derive (fun s => m21 (cayley (v3scal s d))) 0 (m21 D) /\
  is_derive (fun s => m22 (cayley (v3scal s d))) 0 (m22 D).
Proof.
  destruct d as [x y z]. split.
  - unfold cayley, v3scal, v3dot; cbn [vx vy vz]. apply m3_ext; simpl; field; lra.
  - cbv zeta. unfold cayley, v3scal, v3dot, m3scal, skew_x; cbn [vx vy vz m00 m01 m02 m10 m11 m12 m20 m21 m22].
    repeat match goal with |- _ /\ _ => split end; auto_derive; try (split; [|exact I]); try lra; field; lra.
Qed.
