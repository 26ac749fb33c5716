(** C89: proofs about Factor_ImageReprojCalib. *)
From Coq Require Import Reals List Bool Arith Lia Lra Psatz.
From Coquelicot Require Import Coquelicot.
From Verif Require Import RBool Outcome GeoModel GeoSpec GeoProofs ExpSeries JacSo3 Calc3 Lin TypesModel ManifoldSpec PropModel CamModel CamSpec HelpModel HelpSpec HelpAsm HelpRep HelpGeo HelpThms CeresModel CeresSpec CeresQuat.
Import ListNotations.
Open Scope R_scope.

Lemma local_pad A v i : mvec 3 (local4 (pad4 A)) v i = mvec 3 A v i.
Proof. unfold local4, mvec, mmul, jpl_jac, pad4. cbn. ring. Qed.
Lemma img_dzn_jac p : forall i j, img_dzn p i j = proj_jac p i j.
Proof. intros. unfold img_dzn, proj_jac. simpl pow. rewrite Rmult_1_r. reflexivity. Qed.

Lemma sumn_derive n (f : R -> nat -> R) (x : R) (g : nat -> R) : (forall k, (k < n)%nat -> is_derive (fun s => f s k) x (g k)) -> is_derive (fun s => sumn n (f s)) x (sumn n g).
Proof.
  induction n; intros H; cbn [sumn]; [apply der_const|]. apply der_plus; [apply IHn; intros; apply H; lia|apply H; lia].
Qed.
Lemma mvec_derive m n A (f : R -> vec) x D : vec_derive n f x D -> vec_derive m (fun s => mvec n A (f s)) x (mvec n A D).
Proof.
  intros H i _. unfold mvec. apply (sumn_derive n (fun s l => A i l * f s l)). intros k Hk. cbv beta.
  eapply is_derive_eq; [apply der_mult; [apply der_const|exact (H k Hk)]|]. cbv beta. ring.
Qed.

Section Img.
Variables (f : ifac) (x : ipar) (d : idir).
Hypothesis U1 : unit_q (ip_q x).
Hypothesis U2 : unit_q (ip_qc x).
Let Ri := quat_2_Rot (ip_q x).
Let Rc := quat_2_Rot (ip_qc x).
Let pI := img_pI x.
Let pC := img_pC x.
Definition pC_dot : v3 :=
  v3add (v3add (v3add (m3v Rc (m3v (skew_x pI) (id_q d))) (m3v Rc (m3v Ri (v3sub (id_f d) (id_p d))))) (m3v (skew_x (m3v Rc pI)) (id_qc d))) (id_pc d).
Lemma pC_start : img_pC (imove x d 0) = pC.
Proof.
  unfold pC, img_pC, img_pI, imove. cbn [ip_q ip_p ip_f ip_qc ip_pc]. rewrite !plus_0 by auto.
  assert (Z : forall a b, v3add a (v3scal 0 b) = a) by (intros; apply v3_ext; simpl; ring). rewrite !Z. reflexivity.
Qed.
Lemma pC_derive : v3_derive (fun s => img_pC (imove x d s)) 0 pC_dot.
Proof.
  unfold img_pC, img_pI, imove. cbn [ip_q ip_p ip_f ip_qc ip_pc].
  eapply v3_derive_eq.
  - apply v3d_add; [|apply v3d_id]. apply v3d_mv; [apply plus_derive; exact U2|]. apply v3d_mv; [apply plus_derive; exact U1|].
    apply v3d_sub; apply v3d_id.
  - cbv beta. rewrite !plus_0 by auto. unfold pC_dot, pI, img_pI. fold Ri Rc.
    assert (Z : forall a b, v3add a (v3scal 0 b) = a) by (intros; apply v3_ext; simpl; ring). rewrite !Z.
    generalize Ri Rc (ip_f x) (ip_p x) (id_q d) (id_f d) (id_p d) (id_qc d) (id_pc d). clear. intros A B f p a b c e g.
    destruct A, B, f, p, a, b, c, e, g. apply v3_ext; cbn; ring.
Qed.

Lemma img_derive : regular (im_cam f) pC ->
  vec_derive 2 (fun s => img_res f (imove x d s)) 0 (ipredict (img_jac f x) d).
Proof.
  intros REG. set (q := fun s => img_pC (imove x d s)).
  pose proof (projected_derive q 0 pC_dot ltac:(unfold q; rewrite pC_start; apply REG) pC_derive) as Dp.
  assert (Dk : vec_derive 8 (fun s => ip_k (imove x d s)) 0 (id_k d)).
  { intros i _. unfold imove. cbn [ip_k]. auto_derive; auto. ring. }
  pose proof (cam_jac (im_cam f) (ip_k x) pC REG (fun s => ip_k (imove x d s)) (fun s => projected (q s)) 0 _ _
    ltac:(intros i; cbn; ring) ltac:(intros i; unfold q; rewrite pC_start; reflexivity) Dk Dp) as Dz.
  assert (DR : vec_derive 2 (fun s => img_res f (imove x d s)) 0 (mvec 2 (img_sqrtQ f) (fun i =>
     mvec 2 (cam_dzn (im_cam f) (ip_k x) (projected pC)) (mvec 3 (proj_jac (q 0)) (v3vec pC_dot)) i + mvec 8 (cam_dzeta (im_cam f) (ip_k x) (projected pC)) (id_k d) i))).
  { apply mvec_derive. intros j Hj. eapply is_derive_eq; [apply der_minus; [exact (Dz j Hj)|apply der_const]|]. cbv beta. ring. }
  intros i Hi. eapply is_derive_eq; [exact (DR i Hi)|].
  unfold ipredict, img_jac. cbn [ij_q ij_p ij_f ij_qc ij_pc ij_k]. rewrite !local_pad.
  fold pI pC Ri Rc. change (img_zn pC) with (projected pC).
  set (dzn := cam_dzn _ _ _). set (dze := cam_dzeta _ _ _).
  set (H := mmul 2 (mmul 2 (img_sqrtQ f) dzn) (img_dzn pC)).
  rewrite !mvec_mmul. rewrite mvec_plus. f_equal.
  assert (HE : forall u, mvec 2 (img_sqrtQ f) (mvec 2 dzn (mvec 3 (proj_jac (q 0)) u)) i = mvec 3 H u i).
  { intros u. unfold H. rewrite !mvec_mmul. apply mvec_ext_r. intros k _. apply mvec_ext_r. intros l _. unfold q. rewrite pC_start.
    apply mvec_ext_l. intros. symmetry. apply img_dzn_jac. }
  rewrite HE. assert (SC : forall u, mvec 3 (mscal (-1) H) u i = - mvec 3 H u i) by (intros; unfold mvec, mscal; cbn [sumn]; ring). rewrite SC.
  assert (V : forall A v k, (k < 3)%nat -> mvec 3 (m3mat A) (v3vec v) k = v3vec (m3v A v) k).
  { intros A v k Hk. rewrite m3mat_vec by auto. destruct v; reflexivity. }
  assert (V2 : forall A B v k, (k < 3)%nat -> mvec 3 (m3mat A) (mvec 3 (m3mat B) (v3vec v)) k = v3vec (m3v A (m3v B v)) k).
  { intros A B v k Hk. rewrite <- V by auto. apply mvec_ext_r. intros; apply V; auto. }
  assert (W : forall A v, mvec 3 H (mvec 3 (m3mat A) (v3vec v)) i = mvec 3 H (v3vec (m3v A v)) i) by (intros; apply mvec_ext_r; intros; apply V; auto).
  assert (W2 : forall A B v, mvec 3 H (mvec 3 (m3mat A) (mvec 3 (m3mat B) (v3vec v))) i = mvec 3 H (v3vec (m3v A (m3v B v))) i) by (intros; apply mvec_ext_r; intros; apply V2; auto).
  rewrite !W2, W.
  unfold pC_dot. rewrite !m3v_sub. clearbody H. unfold mvec. cbn [sumn v3vec v3add v3sub vx vy vz]. ring.
Qed.
End Img.

(** the residual is the pixel error in units of the standard deviation *)
Lemma img_value f x i : (i < 2)%nat -> img_res f x i = im_gate f / im_sigma f * (pixel f x i - im_uv f i).
Proof.
  intros Hi. unfold img_res, mvec, img_sqrtQ, pixel, img_pC, img_pI. change (img_zn ?p) with (projected p). cbn [sumn].
  destruct i as [|[|i]]; [| |lia]; cbn [Nat.eqb]; unfold Rdiv; ring.
Qed.
