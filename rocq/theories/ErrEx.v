(** Cases for C110. *)
From Coq Require Import Reals List Arith ZArith Bool Lia Lra Psatz.
From Verif Require Import RBool Outcome GeoModel GeoSpec GeoProofs ExpProofs InitModel EvalModel EvalSpec EvalThms CeresModel ErrModel ErrSpec ErrProofs ErrPose ErrThms.
Import ListNotations.
Open Scope R_scope.

Lemma about_trace u a : v3dot u u = 1 -> m3trace (about u a) = 1 + 2 * cos a.
Proof. intros D. rewrite about_skew by exact D. unfold m3trace. cbn. transitivity (3 * cos a + (1 - cos a) * v3dot u u); [unfold v3dot; ring|rewrite D; ring]. Qed.

Lemma half_turn_error : exists e g u a, unit_q (po_q e) /\ unit_q (po_q g) /\ turned_body e g u a /\ 180 / PI * a = 180 /\
  forall n t co cp w, (1 <= n)%nat -> error_one n t e g co cp = Ok w -> v3norm (er_ori w) < 120.
Proof.
  pose proof PI_RGT_0 as HP. exists (mkPose v3zero (Q4 0 0 0 1)), (mkPose v3zero (Q4 0 0 1 0)), (V3 0 0 1), PI.
  assert (U1 : unit_q (Q4 0 0 0 1)) by (unfold unit_q; cbn; ring). assert (U2 : unit_q (Q4 0 0 1 0)) by (unfold unit_q; cbn; ring).
  split; [exact U1|]. split; [exact U2|]. split; [|split; [field; lra|]].
  - split; [unfold v3dot; cbn; ring|]. split; [lra|]. unfold about, att. rewrite sin_PI, cos_PI. apply m3_ext; cbn; ring.
  - intros n t co cp w L E. destruct (error_one_spec n t (mkPose v3zero (Q4 0 0 0 1)) (mkPose v3zero (Q4 0 0 1 0)) co cp L U1 U2) as (w' & E' & _ & A).
    rewrite E in E'. injection E' as <-. destruct A as (_ & (u & a & (D & A & _) & O) & _). rewrite O, v3norm_scal, norm_rot by (apply is_rot_att; exact U1). rewrite v3norm_scal.
    assert (Nu : v3norm u = 1) by (unfold v3norm; rewrite D; apply sqrt_1). rewrite Nu.
    assert (S : 0 <= sin (a / 2)) by (apply sin_ge_0; lra). pose proof (SIN_bound (a / 2)) as [_ S1].
    assert (P3 : 3 < PI) by (pose proof PI_4; pose proof PI2_3_2; lra). assert (Q : 0 < 180 / PI) by (apply Rdiv_lt_0_compat; lra).
    rewrite (Rabs_pos_eq (180 / PI)) by lra. rewrite Rabs_pos_eq by lra.
    assert (B : 180 / PI < 60). { apply (Rmult_lt_reg_r PI); [lra|]. unfold Rdiv. rewrite Rmult_assoc, Rinv_l by lra. lra. }
    assert (180 / PI * (2 * sin (a / 2) * 1) <= 180 / PI * 2) by (apply Rmult_le_compat_l; lra). lra.
Qed.

Ltac rb := repeat (first [match goal with |- context [Rltb ?a ?b] => destruct (Rltb_spec a b) end | match goal with |- context [Rleb ?a ?b] => destruct (Rleb_spec a b) end];
  try (exfalso; unfold Rabs in *; repeat destruct (Rcase_abs _); lra); cbn).
Lemma err_example : exists r, let I := Q4 0 0 0 1 in
  let T := mkT [0; 1; 2] [mkPose v3zero I; mkPose (V3 1 0 0) I; mkPose (V3 2 0 0) I] [m3id; m3id; m3id] [m3id; m3id; m3id] in
  let G := mkT [0; 1; 2] [mkPose (V3 0 1 0) I; mkPose (V3 1 2 0) I; mkPose (V3 2 0 3) I] [] [] in
  traj_wf T /\ traj_wf G /\ unit_traj T /\ unit_traj G /\ orth_svd (fun _ => (m3id, v3zero, m3id)) /\ result_new (fun _ => (m3id, v3zero, m3id)) T G NoAlign = Ok r /\
  (forall P, In P (t_co (r_est r)) \/ In P (t_cp (r_est r)) -> m3det P <> 0) /\
  (forall e g u a, In (e, g) (combine (t_poses (r_est r)) (r_gt2est r)) -> turned_body e g u a -> 1 / 10 ^ 10 <= 2 + 2 * cos a).
Proof.
  eexists. cbv zeta. split; [split; [reflexivity|right; split; reflexivity]|]. split; [split; [reflexivity|left; reflexivity]|].
  split; [intros p H; cbn in H; repeat (destruct H as [<-|H]; [unfold unit_q; cbn; ring|]); destruct H|].
  split; [intros p H; cbn in H; repeat (destruct H as [<-|H]; [unfold unit_q; cbn; ring|]); destruct H|].
  split; [intros C; split; split; apply m3_ext; cbn; ring|]. split; [|split].
  - unfold result_new, perform_association. replace (assoc_loop 0 0.02 0 _ _) with [(0, 0); (1, 1); (2, 2)]%nat by (cbn; rb; reflexivity).
    cbn -[apply_align m3id v3zero m3zero]. reflexivity.
  - cbn -[m3id m3det]. assert (D : m3det m3id = 1) by (unfold m3det, m3id; cbn; ring). intros P [H|H]; repeat (destruct H as [<-|H]; [rewrite D; lra|]); destruct H.
  - cbn -[apply_align m3id v3zero]. intros e g u a H T.
    assert (X : forall p q, po_q p = Q4 0 0 0 1 -> po_q q = Q4 0 0 0 1 -> (p, apply_align (m3id, v3zero, 1) q) = (e, g) -> 1 / 10 ^ 10 <= 2 + 2 * cos a).
    { intros p q Ep Eq K. assert (K1 : p = e) by congruence. assert (K2 : apply_align (m3id, v3zero, 1) q = g) by congruence. clear K H. subst e g. destruct T as (D & _ & T).
      assert (U : unit_q (po_q q)) by (rewrite Eq; unfold unit_q; cbn; ring). assert (RI : is_rot m3id) by (split; [|split]; [apply m3_ext; cbn; ring|apply m3_ext; cbn; ring|unfold m3det; cbn; ring]).
      destruct (apply_align_spec m3id v3zero 1 q RI U) as (_ & _ & A). cbv zeta in A. fold (att (apply_align (m3id, v3zero, 1) q)) in A. rewrite A, m3mul_id_l, Eq in T. unfold att in T. rewrite Ep in T.
      assert (J : m3tr (quat_2_Rot (Q4 0 0 0 1)) = m3id) by (apply m3_ext; cbn; ring). rewrite J, m3mul_id_l in T. pose proof (about_trace u a D) as TR. rewrite <- T in TR. unfold m3trace, m3id in TR. cbn in TR. lra. }
    destruct H as [H|[H|[H|[]]]]; eapply X; try exact H; reflexivity.
Qed.
Lemma normalized_example : positive m3id /\ normalized m3id (V3 0 3 4) 25.
Proof.
  split; [split; [reflexivity|]|].
  - intros [x y z] N. unfold v3dot, m3id. cbn. assert (0 <= x * x /\ 0 <= y * y /\ 0 <= z * z) by (repeat split; apply Rle_0_sqr).
    destruct (Req_dec (x * x + y * y + z * z) 0) as [Z|Z]; [|lra]. exfalso. apply N. unfold v3zero. f_equal; nra.
  - exists (V3 0 3 4). split; [apply v3_ext; cbn; ring|unfold v3dot; cbn; ring].
Qed.
