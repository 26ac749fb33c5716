(** Lemmas about the ov_type objects. *)
From Coq Require Import Reals List Arith Lia Lra Bool.
From Verif Require Import RBool Outcome Lin GeoModel GeoSpec GeoProofs TypesModel StateModel StateSpec.
Import ListNotations.
Open Scope R_scope.

(** ** set_local_id *)
Lemma set_id_id t k : ty_id (set_local_id t k) = k.
Proof. destruct t; reflexivity. Qed.
Lemma set_id_ptr t k : ty_ptr (set_local_id t k) = ty_ptr t.
Proof. destruct t; reflexivity. Qed.
Lemma set_id_ptrs t k : ty_ptrs (set_local_id t k) = ty_ptrs t.
Proof. destruct t; reflexivity. Qed.
Lemma set_id_size t k : ty_size (set_local_id t k) = ty_size t.
Proof. destruct t; reflexivity. Qed.
Lemma set_id_value t k : value_of (set_local_id t k) = value_of t.
Proof. destruct t; reflexivity. Qed.
Lemma set_id_fej t k : fej_of (set_local_id t k) = fej_of t.
Proof. destruct t; reflexivity. Qed.
Lemma set_id_vals t k : vals_ok t -> vals_ok (set_local_id t k).
Proof. destruct t; exact (fun H => H). Qed.
Lemma set_id_unit t k : ori_unit t -> ori_unit (set_local_id t k).
Proof. destruct t; exact (fun H => H). Qed.
Lemma set_id_subs t k : subs_ok (set_local_id t k).
Proof.
  destruct t; simpl; auto; unfold pose_subs_ok, at_off; simpl; destruct k as [kk|]; simpl;
    repeat split; f_equal; lia.
Qed.

(** ** update *)
Lemma small_quat_unit dx : unit_q (small_quat dx).
Proof.
  unfold small_quat. apply quatnorm_is_unit. simpl.
  pose proof (Rle_0_sqr (/ 2 * vx dx)). pose proof (Rle_0_sqr (/ 2 * vy dx)).
  pose proof (Rle_0_sqr (/ 2 * vz dx)). unfold Rsqr in *. lra.
Qed.

Lemma list_add_length a b : length a = length b -> length (list_add a b) = length a.
Proof. revert b; induction a as [|x a IH]; intros [|y b]; simpl; intros; auto; try lia. Qed.

Lemma ty_update_total t dx : vals_ok t -> length dx = ty_size t ->
  exists t', ty_update t dx = Ok t'.
Proof.
  intros HV HL. unfold ty_update, guard. rewrite HL, Nat.eqb_refl.
  destruct t; try (eexists; reflexivity).
  simpl in HV, HL. destruct HV as [HV _]. unfold vec_update, vec_set_value, guard. simpl.
  rewrite HL, HV, Nat.eqb_refl. rewrite list_add_length by congruence.
  rewrite HV, Nat.eqb_refl. eexists; reflexivity.
Qed.

Lemma vec_update_ok v dx v' : vec_update v dx = Ok v' ->
  v' = mkVec (vo_ptr v) (vo_id v) (vo_size v) (list_add (vo_val v) dx) (vo_fej v) /\
  length (vo_val v) = length dx /\ length dx = vo_size v.
Proof.
  unfold vec_update, vec_set_value, guard.
  destruct (Nat.eqb_spec (length dx) (vo_size v)); [|discriminate].
  destruct (Nat.eqb_spec (length (vo_val v)) (length dx)); [|discriminate].
  destruct (Nat.eqb_spec (length (vo_val v)) (length (list_add (vo_val v) dx))); [|discriminate].
  intros H; injection H as <-. auto.
Qed.

Lemma ty_update_inv t dx t' : ty_update t dx = Ok t' ->
  length dx = ty_size t /\
  ty_id t' = ty_id t /\ ty_size t' = ty_size t /\ ty_ptr t' = ty_ptr t /\ ty_ptrs t' = ty_ptrs t /\
  fej_of t' = fej_of t /\
  (subs_ok t -> subs_ok t') /\ (vals_ok t -> vals_ok t').
Proof.
  unfold ty_update, guard. destruct (Nat.eqb_spec (length dx) (ty_size t)) as [HL|]; [|discriminate].
  destruct t as [v|v|q|p|i]; simpl; intros H.
  - apply obind_ok in H. destruct H as (v' & Hv & H). injection H as <-.
    apply vec_update_ok in Hv. destruct Hv as (-> & H1 & H2).
    simpl. repeat match goal with |- _ /\ _ => split end; auto.
    intros [A B]. split; auto. rewrite list_add_length; congruence.
  - injection H as <-. simpl. repeat match goal with |- _ /\ _ => split end; auto.
  - injection H as <-. simpl. repeat match goal with |- _ /\ _ => split end; auto.
    intros [A B]. split; auto.
  - injection H as <-. repeat match goal with |- _ /\ _ => split end;
      try reflexivity; try assumption; try exact (fun x => x).
    intros (A & B & C). simpl. unfold pose_vals_ok, quat_ok in *. simpl. tauto.
  - injection H as <-. repeat match goal with |- _ /\ _ => split end;
      try reflexivity; try assumption; try exact (fun x => x).
    intros (A & B & C). simpl. unfold pose_vals_ok, quat_ok in *. simpl. tauto.
Qed.

Lemma ty_update_unit t dx t' : vals_ok t -> ori_unit t -> ty_update t dx = Ok t' -> ori_unit t'.
Proof.
  intros HV HU. unfold ty_update, guard.
  destruct (Nat.eqb_spec (length dx) (ty_size t)) as [HL|]; [|discriminate].
  destruct t as [v|v|q|p|i]; simpl in *; intros H.
  - apply obind_ok in H. destruct H as (v' & Hv & H). injection H as <-. exact I.
  - injection H as <-. exact I.
  - injection H as <-. simpl. apply quat_multiply_unit; auto using small_quat_unit.
  - injection H as <-. simpl. destruct HV as (_ & E & _). rewrite E in HU. simpl in HU.
    apply quat_multiply_unit; auto using small_quat_unit.
  - injection H as <-. simpl. destruct HV as (_ & E & _). rewrite E in HU. simpl in HU.
    apply quat_multiply_unit; auto using small_quat_unit.
Qed.

(** ** clone *)
Lemma ty_clone_total nx t : vals_ok t -> exists c, ty_clone nx t = Ok c.
Proof.
  destruct t as [v|v|q|p|i]; simpl; intros H; try (eexists; reflexivity).
  destruct H as (H1 & H2 & _). unfold vec_set_value, vec_set_fej, guard. simpl.
  rewrite !repeat_length, H1, Nat.eqb_refl. simpl. rewrite repeat_length, H2, Nat.eqb_refl.
  eexists; reflexivity.
Qed.

Lemma ty_clone_inv nx t c : ty_clone nx t = Ok c ->
  ty_size c = ty_size t /\ ty_ptr c = nx /\ ty_ptrs c = seq nx (ty_alloc t) /\
  value_of c = value_of t /\ fej_of c = fej_of t /\
  (vals_ok t -> vals_ok c) /\ (ori_unit t -> ori_unit c) /\
  (match t, c with TPose _, TPose _ => True | TPose _, _ => False | _, _ => True end).
Proof.
  destruct t as [v|v|q|p|i]; simpl; intros H.
  - unfold vec_set_value, vec_set_fej, guard in H. simpl in H.
    destruct (Nat.eqb_spec (length (repeat 0 (vo_size v))) (length (vo_val v))); [|discriminate].
    simpl in H.
    destruct (Nat.eqb_spec (length (repeat 0 (vo_size v))) (length (vo_fej v))); [|discriminate].
    injection H as <-. simpl. repeat match goal with |- _ /\ _ => split end; auto.
  - injection H as <-. simpl. repeat match goal with |- _ /\ _ => split end; auto.
  - injection H as <-. simpl. repeat match goal with |- _ /\ _ => split end; auto.
    intros _; split; reflexivity.
  - injection H as <-. simpl.
    repeat match goal with |- _ /\ _ => split end; auto.
    + unfold pose_ptrs; simpl. repeat f_equal; lia.
    + intros _. unfold pose_vals_ok, quat_ok; simpl. destruct (po_val p), (po_fej p). simpl. tauto.
  - injection H as <-. simpl.
    repeat match goal with |- _ /\ _ => split end; auto.
    + unfold pose_ptrs; simpl. repeat f_equal; lia.
    + intros _. unfold pose_vals_ok, quat_ok; simpl. destruct (io_val i), (io_fej i). simpl. tauto.
Qed.

(** ** sub-variables *)
Lemma pose_sub_inv p ptr s : pose_sub p ptr = Some s -> pose_subs_ok p -> pose_vals_ok p ->
  unit_q (qo_val (po_q p)) ->
  ty_ptr s = ptr /\ In ptr (pose_ptrs p) /\ subs_ok s /\ vals_ok s /\ ori_unit s /\
  forall id, po_id p = Some id -> exists k, ty_id s = Some k /\ (id <= k)%nat /\ (k + ty_size s <= id + 6)%nat.
Proof.
  unfold pose_sub. intros H [S1 S2] (V1 & V2 & V3) HU.
  destruct (Nat.eqb_spec ptr (qo_ptr (po_q p))).
  - injection H as <-. simpl. subst.
    repeat match goal with |- _ /\ _ => split end; auto; try apply V1.
    intros id E. rewrite S1, E. exists (id + 0)%nat. split; [reflexivity|lia].
  - destruct (Nat.eqb_spec ptr (wo_ptr (po_p p))); [|discriminate].
    injection H as <-. simpl. subst.
    repeat match goal with |- _ /\ _ => split end; auto.
    intros id E. rewrite S2, E. exists (id + 3)%nat. split; [reflexivity|lia].
Qed.

Lemma check_sub_inv t ptr s : check_if_subvariable t ptr = Some s ->
  subs_ok t -> vals_ok t -> ori_unit t ->
  ty_ptr s = ptr /\ In ptr (ty_ptrs t) /\ subs_ok s /\ vals_ok s /\ ori_unit s /\
  forall id, ty_id t = Some id ->
    exists k, ty_id s = Some k /\ (id <= k)%nat /\ (k + ty_size s <= id + ty_size t)%nat.
Proof.
  destruct t as [v|v|q|p|i]; simpl; try discriminate.
  - intros H HS HV HU.
    assert (HU' : unit_q (qo_val (po_q p))).
    { destruct HV as (_ & E & _). rewrite E in HU. exact HU. }
    apply (pose_sub_inv p ptr s H HS HV HU').
  - intros H (S1 & S2 & S3 & S4 & S5) (V1 & V2 & V3) HU.
    assert (HU' : unit_q (qo_val (po_q (io_pose i)))) by (rewrite V2 in HU; exact HU).
    destruct (Nat.eqb_spec ptr (po_ptr (io_pose i))).
    { injection H as <-. subst ptr.
      repeat match goal with |- _ /\ _ => split end; auto.
      - simpl; destruct V1 as (_ & E & _). rewrite E. exact HU'.
      - intros id E. simpl. rewrite S1, E. exists (id + 0)%nat. split; [reflexivity|lia]. }
    destruct (pose_sub (io_pose i) ptr) as [s'|] eqn:Eps.
    { injection H as <-.
      destruct (pose_sub_inv _ _ _ Eps S2 V1 HU') as (A & B & C & D & E & F).
      repeat match goal with |- _ /\ _ => split end; auto.
      - simpl in B |- *. intuition.
      - intros id E'. rewrite E' in S1. destruct (F _ S1) as (k & K1 & K2 & K3).
        exists k. split; [auto|lia]. }
    destruct (Nat.eqb_spec ptr (wo_ptr (io_v i))).
    { injection H as <-. subst. simpl.
      repeat match goal with |- _ /\ _ => split end; auto 10.
      intros id E. rewrite S3, E. exists (id + 6)%nat. split; [reflexivity|lia]. }
    destruct (Nat.eqb_spec ptr (wo_ptr (io_bg i))).
    { injection H as <-. subst. simpl.
      repeat match goal with |- _ /\ _ => split end; auto 10.
      intros id E. rewrite S4, E. exists (id + 9)%nat. split; [reflexivity|lia]. }
    destruct (Nat.eqb_spec ptr (wo_ptr (io_ba i))); [|discriminate].
    injection H as <-. subst. simpl.
    repeat match goal with |- _ /\ _ => split end; auto 10.
    intros id E. rewrite S5, E. exists (id + 12)%nat. split; [reflexivity|lia].
Qed.

Lemma ty_ptr_in_ptrs t : In (ty_ptr t) (ty_ptrs t).
Proof. destruct t; simpl; auto. Qed.

Lemma ty_alloc_pos t : (0 < ty_alloc t)%nat.
Proof. destruct t; simpl; lia. Qed.
Lemma ty_ptrs_length t : length (ty_ptrs t) = ty_alloc t.
Proof. destruct t; reflexivity. Qed.
