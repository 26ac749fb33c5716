(** Concrete cases for C35, C36 and C75. *)
From Coq Require Import Reals Lra Lia List ZArith Bool.
From Coquelicot Require Import Coquelicot.
From Verif Require Import RBool Outcome Lin GeoModel GeoSpec GeoProofs JacSo3 Calc3 LandModel LandSpec LandProofs CamModel CamSpec CamProofs HelpModel HelpSpec HelpGeo HelpRep HelpAsm HelpThms.
Import ListNotations.
Open Scope R_scope.

(** *** the stale chart *)
Definition st_env : henv := mkEnv false false false (fun _ => None) (fun _ => None) (fun _ => None) (fun _ => None).
Definition st_feat : hfeat := mkHf GlobalFullInv (-1) 0 v3zero (V3 (-1) 0 0) (V3 (-1) 0 0) [].
Definition st_lam (s : R) : vec := v3vec (V3 0 (- (PI / 2) + s) 1).
Lemma acos_0 : acos 0 = PI / 2.
Proof. rewrite <- cos_PI2. apply acos_cos. pose proof PI_RGT_0. lra. Qed.
Lemma stored_wrong : exists e f Hf n ex lam l', rep_jac e f = Ok (Hf, n, ex) /\ hf_rep f = GlobalFullInv /\ expressible GlobalFullInv (hf_pG f) /\
  feat_xyz GlobalFullInv v3zero (lam 0) = hf_pG f /\ vec_derive 3 lam 0 l' /\
  ~ vec_derive 3 (fun s => v3vec (feat_xyz GlobalFullInv v3zero (lam s))) 0 (mvec n Hf l').
Proof.
  assert (N : v3norm (V3 (-1) 0 0) = 1). { unfold v3norm, v3dot. cbn [vx vy vz]. replace (-1 * -1 + 0 * 0 + 0 * 0) with 1 by ring. apply sqrt_1. }
  exists st_env, st_feat, (m3mat (full_inv_jac (full_inv_of (V3 (-1) 0 0)))), 3%nat, [], st_lam, (v3vec (V3 0 1 0)).
  split; [reflexivity|]. split; [reflexivity|]. split; [cbn; intros H; apply (f_equal vx) in H; cbn in H; lra|]. split; [|split].
  - cbn [feat_xyz st_lam v3vec vx vy vz st_feat hf_pG]. rewrite Rplus_0_r, cos_neg, sin_neg, sin_PI2, cos_PI2, cos_0, sin_0. apply v3_ext; cbn [vx vy vz]; field.
  - intros [|[|[|i]]] Hi; [| | |lia]; cbn [st_lam v3vec vx vy vz]; auto_derive; auto; ring.
  - intros H. specialize (H 2%nat ltac:(lia)). rewrite m3mat_vec in H by lia.
    assert (D : is_derive (fun s => v3vec (feat_xyz GlobalFullInv v3zero (st_lam s)) 2%nat) 0 1).
    { cbn [feat_xyz st_lam v3vec vx vy vz]. auto_derive; [lra|]. rewrite Rplus_0_r, sin_neg, sin_PI2. field. }
    apply is_derive_unique in H. apply is_derive_unique in D. rewrite D in H. revert H.
    unfold full_inv_of. cbv zeta. rewrite N. cbn [vx vy vz]. replace (1 / 1 * 0) with 0 by field. rewrite acos_0.
    unfold full_inv_jac, seg3, m3v. cbn [vx vy vz v3vec m20 m21 m22]. rewrite sin_PI2, cos_PI2. lra.
Qed.

(** *** the null direction *)
Lemma frame_fixed e e' g d v : he_fej e = true -> he_fej e' = true ->
  (forall t cl', he_clone e' t = Some cl' -> exists cl, he_clone e t = Some cl /\ po_Rf cl = po_Rf cl' /\ po_pf cl = po_pf cl') ->
  frame_move e g d v -> frame_move e' g d v.
Proof.
  intros F F' C (V1 & V2 & V3). split; [|split; auto]. intros t cl' E'. destruct (C t cl' E') as (cl & E & A & B). destruct (V1 t cl E) as [X Y].
  unfold lin_R, lin_p in *. rewrite F in X, Y. rewrite F'. rewrite X, Y, A, B. auto.
Qed.
Definition dr_env (p : v3) : henv := mkEnv false false false (fun _ => Some (mkPose m3id p m3id v3zero)) (fun _ => None) (fun _ => None) (fun _ => None).
Lemma frame_drifts : exists e e' g d v, he_fej e = false /\ he_fej e' = false /\
  (forall t cl', he_clone e' t = Some cl' -> exists cl, he_clone e t = Some cl /\ po_Rf cl = po_Rf cl' /\ po_pf cl = po_pf cl') /\
  frame_move e g d v /\ ~ frame_move e' g d v.
Proof.
  exists (dr_env v3zero), (dr_env (V3 1 0 0)), (V3 0 0 1), v3zero, (fun k => match k with KClone _ => fun i => if (i =? 2)%nat then 1 else 0 | _ => fun _ => 0 end).
  split; [reflexivity|]. split; [reflexivity|]. split; [|split].
  - intros t cl' E. cbn in E. injection E as <-. eexists. split; [reflexivity|]. auto.
  - split; [|auto]. intros t cl E. cbn in E. injection E as <-. split; unfold lin_R, lin_p, seg3, frame_rate; apply v3_ext; cbn; ring.
  - intros (V & _). destruct (V 0 _ eq_refl) as [_ B]. apply (f_equal vy) in B. unfold lin_p, seg3, frame_rate in B. cbn in B. lra.
Qed.

(** *** a feature seen from two clones *)
Definition ex_env : henv := mkEnv false true true
  (fun t => if Reqb t 0 then Some (mkPose m3id v3zero m3id v3zero) else if Reqb t 1 then Some (mkPose m3id (V3 1 0 0) m3id (V3 1 0 0)) else None)
  (fun c => if (c =? 0)%nat then Some (mkCal m3id v3zero) else None)
  (fun c => if (c =? 0)%nat then Some (row8 400 400 320 240 0 0 0 0) else None) (fun c => if (c =? 0)%nat then Some CRadtan else None).
Definition ex_feat : hfeat := mkHf AnchMsckf 0 0 (V3 0 0 2) v3zero v3zero [(0%nat, [(0, vec2 300 200); (1, vec2 100 200)])].
(** the second clone and the landmark move *)
Definition ex_motion : motion := mkMotion (fun _ _ => m3id) (fun t s => if Reqb t 1 then V3 (1 + s) (2 * s) (3 * s) else v3zero)
  (fun _ _ => m3id) (fun _ _ => v3zero) (fun _ _ => row8 400 400 320 240 0 0 0 0) (fun s => v3vec (V3 s 0 (1 / 2 + s)))
  (fun k => match k with KClone t => if Reqb t 1 then (fun i => match i with 3%nat => 1 | 4%nat => 2 | 5%nat => 3 | _ => 0 end) else (fun _ => 0) | _ => fun _ => 0 end) (v3vec (V3 1 0 1)) v3zero.

Lemma const_rot (v : vec) : seg3 v 0 = v3zero -> m3_derive (fun _ => m3id) 0 (m3mul (m3scal (-1) (skew_x (seg3 v 0))) m3id).
Proof. intros ->. eapply m3_derive_eq; [apply m3d_const|]. apply m3_ext; cbn; ring. Qed.

Lemma R01 : Reqb 0 1 = false. Proof. apply Reqb_false. lra. Qed.
Lemma R00 : Reqb 0 0 = true. Proof. apply Reqb_true. reflexivity. Qed.
Lemma R10 : Reqb 1 0 = false. Proof. apply Reqb_false. lra. Qed.
Lemma R11 : Reqb 1 1 = true. Proof. apply Reqb_true. reflexivity. Qed.

Lemma ex_moves : motion_of ex_env ex_feat ex_motion.
Proof.
  split; [|split; [|split]].
  - intros t cl. cbn [ex_env he_clone]. destruct (Reqb_spec t 0) as [->|N0]; [|destruct (Reqb_spec t 1) as [->|N1]; [|discriminate]]; intros E; injection E as <-; cbn [ex_motion mo_R mo_p mo_v po_R po_p].
    + rewrite R01. do 2 (split; [reflexivity|]). split; [apply is_rot_id|]. split; [apply const_rot; reflexivity|]. eapply v3_derive_eq; [apply v3d_const|reflexivity].
    + rewrite R11. split; [reflexivity|]. split; [apply v3_ext; cbn; ring|]. split; [apply is_rot_id|]. split; [apply const_rot; reflexivity|].
      split; [|split]; cbn [vx vy vz seg3]; auto_derive; auto; ring.
  - intros c ca. cbn [ex_env he_calib]. destruct (c =? 0)%nat; [|discriminate]. intros E; injection E as <-. cbn [ex_motion mo_cR mo_cp mo_v ca_R ca_p].
    do 2 (split; [reflexivity|]). split; [apply is_rot_id|]. split; [|discriminate]. split; [apply const_rot; reflexivity|]. eapply v3_derive_eq; [apply v3d_const|reflexivity].
  - intros c di. cbn [ex_env he_intr]. destruct (c =? 0)%nat; [|discriminate]. intros E; injection E as <-. cbn [ex_motion mo_in mo_v]. split; [reflexivity|]. split; [|discriminate].
    intros i Hi. apply (is_derive_const (K := R_AbsRing) (V := R_NormedModule)).
  - intros [|[|[|i]]] Hi; [| | |lia]; cbn [ex_motion mo_lam mo_lv v3vec vx vy vz]; auto_derive; auto; ring.
Qed.
Lemma full_example : exists j, full_jac ex_env ex_feat = Ok j /\ fj_rows j = 4%nat /\ fj_total j = 26%nat /\ motion_of ex_env ex_feat ex_motion /\ starts ex_feat ex_motion (stored ex_feat) /\
  (forall c t uv cm, In (c, t, uv) (flat_meas (hf_meas ex_feat)) -> he_cam ex_env c = Some cm -> regular cm (in_camera ex_motion c t 0 (moving_feat ex_feat ex_motion 0))).
Proof.
  destruct (full_defined ex_env ex_feat) as (j & E).
  - discriminate.
  - intros c ts [H|[]]. injection H as <- <-. cbn. do 3 (split; [discriminate|]). intros t uv [H|[H|[]]]; injection H as <- <-; rewrite ?R00, ?R10, ?R11; discriminate.
  - intros _. cbn. rewrite R00. split; [lia|]. split; discriminate.
  - assert (ND : NoDup (map fst (hf_meas ex_feat))) by (cbn; constructor; [intros []|constructor]).
    assert (X : expressible AnchMsckf (V3 0 0 2)) by (cbn; lra).
    assert (ST : starts ex_feat ex_motion (stored ex_feat)).
    { split; [exact X|]. split; [|discriminate]. intros [|[|[|i]]] Hi; [| | |lia]; cbn; field. }
    exists j. split; [exact E|]. assert (RG : forall c t uv cm, In (c, t, uv) (flat_meas (hf_meas ex_feat)) -> he_cam ex_env c = Some cm -> regular cm (in_camera ex_motion c t 0 (moving_feat ex_feat ex_motion 0))).
    { intros c t uv cm [H|[H|[]]]; injection H as <- <- <-; cbn; intros H; injection H as <-; (split; [|exact I]); unfold in_camera, moving_feat, to_global; cbn; rewrite ?R01, ?R11; cbn; lra. }
    destruct (full_derivative ex_env ex_feat j ex_motion E eq_refl ND ex_moves ST RG) as (R1 & _).
    split; [rewrite R1; reflexivity|]. split; [|split; [exact ex_moves|split; [exact ST|exact RG]]].
    unfold full_jac in E. cbn [ex_feat hf_meas lay_cams lay_clones ex_env he_calib he_intr he_clone he_cal he_int Nat.eqb at_ obind] in E. rewrite R00, R10, R11 in E. cbn [at_ obind] in E.
    unfold ly_push, ly_add in E. cbn [ly_find ly_map ly_order ly_total find fst snd keqb app ksize Nat.add] in E.
    unfold ly_find in E. cbn [ly_find ly_map ly_order ly_total find fst snd keqb app ksize Nat.add] in E. rewrite ?R00, ?R01, ?R10, ?R11 in E.
    match type of E with obind ?x _ = _ => assert (TT : forall l, x = Ok l -> ly_total l = 26%nat) end.
    { unfold lay_anchor. cbn [hf_rep is_relative hf_acam hf_atime he_clone Z.eqb ex_feat ex_env]. rewrite R00. cbn [at_ obind he_cal ex_env]. unfold cam_at. cbn [Z.ltb Z.compare Z.to_nat he_calib ex_env Nat.eqb at_ obind].
      intros l H. injection H as <-. repeat (progress (unfold ly_add, ly_push, ly_find; cbn [ly_map ly_order ly_total find fst snd keqb Nat.eqb app ksize Nat.add]; rewrite ?R00, ?R01, ?R10, ?R11)). reflexivity. }
    match type of E with obind ?x _ = _ => destruct x as [l| |]; cbn [obind] in E; try discriminate end. specialize (TT l eq_refl).
    destruct (feat_global _ _) as [pp| |]; cbn [obind] in E; try discriminate. destruct (rep_jac _ _) as [[[dl n] ex]| |]; cbn [obind] in E; try discriminate.
    destruct (all_meas _ _ _ _ _ _ _ _ _) as [a| |]; cbn [obind] in E; try discriminate. injection E as <-. exact TT.
Qed.
