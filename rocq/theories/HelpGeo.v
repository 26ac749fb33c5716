(** Derivatives behind C35 and C36. *)
From Coq Require Import Reals Lra Lia Psatz List ZArith Bool.
From Coquelicot Require Import Coquelicot.
From Verif Require Import RBool Outcome Lin GeoModel GeoSpec GeoProofs JacSo3 Calc3 LandModel LandSpec LandProofs CamModel CamSpec CamProofs HelpModel HelpSpec.
Import ListNotations.
Open Scope R_scope.

Lemma m3mat_vec A x i : (i < 3)%nat -> mvec 3 (m3mat A) x i = v3vec (m3v A (seg3 x 0)) i.
Proof. intros H. destruct i as [|[|[|i]]]; [| | |lia]; unfold mvec; cbn; ring. Qed.
Lemma beside_vec A B x i : (i < 3)%nat -> mvec 6 (beside (m3mat A) (m3mat B)) x i = v3vec (v3add (m3v A (seg3 x 0)) (m3v B (seg3 x 3))) i.
Proof. intros H. destruct i as [|[|[|i]]]; [| | |lia]; unfold mvec; cbn; ring. Qed.
Lemma col_vec v x i : mvec 1 (col v) x i = v3vec (v3scal (x 0%nat) v) i.
Proof. unfold mvec, col. cbn [sumn]. destruct i as [|[|i]]; cbn; ring. Qed.
Lemma v3vec_seg v : seg3 (v3vec v) 0 = v. Proof. destruct v; reflexivity. Qed.
Lemma v3vec_derive f s D : v3_derive f s D -> vec_derive 3 (fun t => v3vec (f t)) s (v3vec D).
Proof. intros (A & B & C) i Hi. destruct i as [|[|[|i]]]; [exact A|exact B|exact C|lia]. Qed.
Lemma v3_derive_vec f s D : vec_derive 3 (fun t => v3vec (f t)) s (v3vec D) -> v3_derive f s D.
Proof. intros H. split; [exact (H 0%nat ltac:(lia))|]. split; [exact (H 1%nat ltac:(lia))|exact (H 2%nat ltac:(lia))]. Qed.

(** anchor frame to global frame *)
Lemma to_global_derive Ra pa Rc pc q s va vc q' : pose_moves Ra pa s va -> pose_moves Rc pc s vc -> v3_derive q s q' ->
  v3_derive (fun t => to_global (Ra t) (pa t) (Rc t) (pc t) (q t)) s
   (let R_CtoG := m3mul (m3tr (Ra s)) (m3tr (Rc s)) in
    v3add (m3v R_CtoG q')
      (v3add (v3add (m3v (m3mul (m3scal (-1) (m3tr (Ra s))) (skew_x (m3v (m3tr (Rc s)) (v3sub (q s) (pc s))))) (seg3 va 0)) (m3v m3id (seg3 va 3)))
             (v3add (m3v (m3mul (m3scal (-1) R_CtoG) (skew_x (v3sub (q s) (pc s)))) (seg3 vc 0)) (m3v (m3scal (-1) R_CtoG) (seg3 vc 3))))).
Proof.
  intros [RA PA] [RC PC] Q. unfold to_global.
  eapply v3_derive_eq.
  - apply v3d_add; [|exact PA]. apply v3d_mv; [apply m3d_tr; exact RA|]. apply v3d_mv; [apply m3d_tr; exact RC|]. apply v3d_sub; [exact Q|exact PC].
  - cbv beta zeta. destruct (Ra s), (Rc s), (q s), (pc s), (seg3 va 0), (seg3 va 3), (seg3 vc 0), (seg3 vc 3), q'. apply v3_ext; cbn; ring.
Qed.

(** global frame to camera frame *)
Lemma to_cam_derive Rc pc Ri pi q s vc vi q' : pose_moves Rc pc s vc -> pose_moves Ri pi s vi -> v3_derive q s q' ->
  v3_derive (fun t => v3add (m3v (Rc t) (m3v (Ri t) (v3sub (q t) (pi t)))) (pc t)) s
   (let p_FinI := m3v (Ri s) (v3sub (q s) (pi s)) in let d := m3mul (Rc s) (Ri s) in
    v3add (m3v d q')
      (v3add (v3add (m3v (m3mul (Rc s) (skew_x p_FinI)) (seg3 vi 0)) (m3v (m3scal (-1) d) (seg3 vi 3)))
             (v3add (m3v (skew_x (v3sub (v3add (m3v (Rc s) p_FinI) (pc s)) (pc s))) (seg3 vc 0)) (m3v m3id (seg3 vc 3))))).
Proof.
  intros [RC PC] [RI PI] Q.
  eapply v3_derive_eq.
  - apply v3d_add; [|exact PC]. apply v3d_mv; [exact RC|]. apply v3d_mv; [exact RI|]. apply v3d_sub; [exact Q|exact PI].
  - cbv beta zeta. destruct (Rc s), (Ri s), (q s), (pc s), (pi s), (seg3 vc 0), (seg3 vc 3), (seg3 vi 0), (seg3 vi 3), q'. apply v3_ext; cbn; ring.
Qed.

(** the landmark parametrizations *)
Definition feat_jac (r : rep) (p : v3) : mat :=
  match r with
  | GlobalFullInv | AnchFullInv => m3mat (full_inv_jac (full_inv_of p))
  | AnchMsckf => m3mat (msckf_jac (msckf_of p))
  | AnchSingle => col (v3scal (- (1 / (1 / vz p * (1 / vz p)))) (v3scal (1 / vz p) p))
  | _ => m3mat m3id
  end.
Definition feat_cols (r : rep) : nat := match r with AnchSingle => 1 | _ => 3 end.
Lemma full_inv_derive (lam : R -> vec) s (l' : vec) : lam s 2%nat <> 0 -> vec_derive 3 lam s l' ->
  v3_derive (fun t => feat_xyz AnchFullInv v3zero (lam t)) s (m3v (full_inv_jac (seg3 (lam s) 0)) (seg3 l' 0)).
Proof.
  intros N H. pose proof (H 0%nat ltac:(lia)) as H0. pose proof (H 1%nat ltac:(lia)) as H1. pose proof (H 2%nat ltac:(lia)) as H2.
  assert (I : is_derive (fun t => / lam t 2%nat) s (- l' 2%nat / (lam s 2%nat * lam s 2%nat))).
  { eapply is_derive_eq; [apply is_derive_inv; [exact H2|exact N]|]. simpl. field. exact N. }
  assert (C0 : is_derive (fun t => cos (lam t 0%nat)) s (l' 0%nat * - sin (lam s 0%nat))) by (apply (is_derive_comp (K:=R_AbsRing) (V:=R_NormedModule) cos (fun t => lam t 0%nat)); [apply is_derive_cos|exact H0]).
  assert (S0 : is_derive (fun t => sin (lam t 0%nat)) s (l' 0%nat * cos (lam s 0%nat))) by (apply (is_derive_comp (K:=R_AbsRing) (V:=R_NormedModule) sin (fun t => lam t 0%nat)); [apply is_derive_sin|exact H0]).
  assert (C1 : is_derive (fun t => cos (lam t 1%nat)) s (l' 1%nat * - sin (lam s 1%nat))) by (apply (is_derive_comp (K:=R_AbsRing) (V:=R_NormedModule) cos (fun t => lam t 1%nat)); [apply is_derive_cos|exact H1]).
  assert (S1 : is_derive (fun t => sin (lam t 1%nat)) s (l' 1%nat * cos (lam s 1%nat))) by (apply (is_derive_comp (K:=R_AbsRing) (V:=R_NormedModule) sin (fun t => lam t 1%nat)); [apply is_derive_sin|exact H1]).
  unfold feat_xyz, full_inv_jac, seg3. cbv zeta. cbn [m3v vx vy vz m00 m01 m02 m10 m11 m12 m20 m21 m22].
  unfold m3v. split; [|split]; cbn [vx vy vz m00 m01 m02 m10 m11 m12 m20 m21 m22].
  - eapply is_derive_eq; [apply der_mult; [exact I|apply der_mult; [exact C0|exact S1]]|]. cbv beta. field. exact N.
  - eapply is_derive_eq; [apply der_mult; [exact I|apply der_mult; [exact S0|exact S1]]|]. cbv beta. field. exact N.
  - eapply is_derive_eq; [apply der_mult; [exact I|exact C1]|]. cbv beta. field. exact N.
Qed.
Lemma msckf_derive (lam : R -> vec) s (l' : vec) : lam s 2%nat <> 0 -> vec_derive 3 lam s l' ->
  v3_derive (fun t => feat_xyz AnchMsckf v3zero (lam t)) s (m3v (msckf_jac (seg3 (lam s) 0)) (seg3 l' 0)).
Proof.
  intros N H. pose proof (H 0%nat ltac:(lia)) as H0. pose proof (H 1%nat ltac:(lia)) as H1. pose proof (H 2%nat ltac:(lia)) as H2.
  assert (I : is_derive (fun t => / lam t 2%nat) s (- l' 2%nat / (lam s 2%nat * lam s 2%nat))).
  { eapply is_derive_eq; [apply is_derive_inv; [exact H2|exact N]|]. simpl. field. exact N. }
  unfold feat_xyz, msckf_jac, seg3. cbv zeta. cbn [m3v vx vy vz m00 m01 m02 m10 m11 m12 m20 m21 m22].
  unfold m3v. split; [|split]; cbn [vx vy vz m00 m01 m02 m10 m11 m12 m20 m21 m22].
  - eapply is_derive_eq; [apply der_mult; [exact H0|exact I]|]. cbv beta. field. exact N.
  - eapply is_derive_eq; [apply der_mult; [exact H1|exact I]|]. cbv beta. field. exact N.
  - eapply is_derive_eq; [exact I|]. cbv beta. field. exact N.
Qed.
Lemma feat_derive r p b (lam : R -> vec) s (l' : vec) : expressible r p -> (r = AnchSingle -> b = v3scal (1 / vz p) p) ->
  (forall i, (i < 3)%nat -> lam s i = feat_params r p i) -> vec_derive 3 lam s l' ->
  feat_xyz r b (lam s) = p /\ vec_derive 3 (fun t => v3vec (feat_xyz r b (lam t))) s (mvec (feat_cols r) (feat_jac r p) l').
Proof.
  intros X B L H.
  assert (SG : r <> AnchSingle -> seg3 (lam s) 0 = seg3 (feat_params r p) 0) by (intros _; unfold seg3; rewrite !L by lia; reflexivity).
  destruct r; cbn [expressible] in X; try contradiction.
  - split; [cbn; rewrite !L by lia; destruct p; reflexivity|].
    intros i Hi. cbn [feat_cols feat_jac]. rewrite m3mat_vec, m3v_id by exact Hi. destruct i as [|[|[|i]]]; [| | |lia]; apply H; lia.
  - assert (F : feat_xyz GlobalFullInv b (lam s) = p).
    { rewrite <- (full_inv_round p X) at 1. unfold feat_xyz, full_inv_xyz. rewrite !L by lia. cbn [feat_params v3vec]. generalize (full_inv_of p); intros q; cbn [v3vec]. apply v3_ext; cbn [vx vy vz]; unfold Rdiv; ring. }
    split; [exact F|]. assert (N : lam s 2%nat <> 0).
    { rewrite L by lia. cbn. pose proof (v3norm_pos p X). intros Z. apply (Rmult_eq_compat_r (v3norm p)) in Z. field_simplify in Z; lra. }
    pose proof (full_inv_derive lam s l' N H) as D. apply v3vec_derive in D.
    intros i Hi. specialize (D i Hi). cbn [feat_cols feat_jac]. rewrite m3mat_vec by exact Hi. rewrite SG in D by discriminate. cbn [feat_params] in D. rewrite v3vec_seg in D. exact D.
  - split; [cbn; rewrite !L by lia; destruct p; reflexivity|].
    intros i Hi. cbn [feat_cols feat_jac]. rewrite m3mat_vec, m3v_id by exact Hi. destruct i as [|[|[|i]]]; [| | |lia]; apply H; lia.
  - assert (F : feat_xyz AnchFullInv b (lam s) = p).
    { rewrite <- (full_inv_round p X) at 1. unfold feat_xyz, full_inv_xyz. rewrite !L by lia. cbn [feat_params v3vec]. generalize (full_inv_of p); intros q; cbn [v3vec]. apply v3_ext; cbn [vx vy vz]; unfold Rdiv; ring. }
    split; [exact F|]. assert (N : lam s 2%nat <> 0).
    { rewrite L by lia. cbn. pose proof (v3norm_pos p X). intros Z. apply (Rmult_eq_compat_r (v3norm p)) in Z. field_simplify in Z; lra. }
    pose proof (full_inv_derive lam s l' N H) as D. apply v3vec_derive in D.
    intros i Hi. specialize (D i Hi). cbn [feat_cols feat_jac]. rewrite m3mat_vec by exact Hi. rewrite SG in D by discriminate. cbn [feat_params] in D. rewrite v3vec_seg in D. exact D.
  - assert (F : feat_xyz AnchMsckf b (lam s) = p).
    { unfold feat_xyz. rewrite !L by lia. cbn [feat_params v3vec]. apply v3_ext; cbn; field; auto. }
    split; [exact F|]. assert (N : lam s 2%nat <> 0).
    { rewrite L by lia. cbn. intros Z. apply (Rmult_eq_compat_r (vz p)) in Z. field_simplify in Z; lra. }
    pose proof (msckf_derive lam s l' N H) as D. apply v3vec_derive in D.
    intros i Hi. specialize (D i Hi). cbn [feat_cols feat_jac]. rewrite m3mat_vec by exact Hi. rewrite SG in D by discriminate. cbn [feat_params] in D. rewrite v3vec_seg in D. exact D.
  - rewrite (B eq_refl). assert (N : lam s 0%nat <> 0).
    { rewrite L by lia. cbn. intros Z. apply (Rmult_eq_compat_r (vz p)) in Z. field_simplify in Z; lra. }
    split; [cbn [feat_xyz]; rewrite L by lia; cbn [feat_params]; apply v3_ext; cbn [v3scal vx vy vz]; field; auto|].
    intros i Hi. cbn [feat_cols feat_jac feat_xyz]. rewrite col_vec.
    assert (I : is_derive (fun t => / lam t 0%nat) s (- l' 0%nat / (lam s 0%nat * lam s 0%nat))).
    { eapply is_derive_eq; [apply is_derive_inv; [apply H; lia|exact N]|]. simpl. field. exact N. }
    rewrite L in I by lia. cbn [feat_params] in I.
    destruct i as [|[|[|i]]]; [| | |lia]; cbn [v3vec v3scal vx vy vz];
    (eapply is_derive_eq; [apply der_mult; [exact I|apply der_const]|]; cbv beta; field; auto).
Qed.
