(** The Runge-Kutta step of the covariance agrees with the exact covariance to second order (C103). *)
From Coq Require Import Reals Lra Lia List Arith Bool FunctionalExtensionality.
From Coquelicot Require Import Coquelicot.
From Verif Require Import RBool GeoModel GeoSpec GeoProofs JacSo3 Calc3 Lin StateModel PropModel HelpSpec CpiModel CpiSpec CpiProofs CpiJac CpiCovSpec CpiCov.
Import ListNotations.
Open Scope R_scope.

(** ** limits *)
Lemma der_eps (g : R -> R) B (eps : posreal) : is_derive g 0 B -> exists d : posreal, forall t, Rabs t < d -> Rabs (g t - g 0 - t * B) <= eps * Rabs t.
Proof.
  intros H. apply is_derive_Reals in H. destruct (H eps (cond_pos eps)) as [d Hd]. exists d. intros t Ht.
  destruct (Req_dec t 0) as [->|N]; [rewrite Rabs_R0; replace (g 0 - g 0 - 0 * B) with 0 by ring; rewrite Rabs_R0; lra|].
  specialize (Hd t N Ht). rewrite Rplus_0_l in Hd. replace (g t - g 0 - t * B) with (((g t - g 0) / t - B) * t) by (field; exact N).
  rewrite Rabs_mult. apply Rmult_le_compat_r; [apply Rabs_pos|lra].
Qed.
Lemma second_order (f p g s : R -> R) B : (forall t, t <> 0 -> f t = p 0 + t * s t) -> (forall t, is_derive p t (g t)) -> is_derive g 0 B ->
  s 0 = g 0 -> is_derive s 0 (B / 2) -> is_lim (fun t => (f t - p t) / t ^ 2) 0 0.
Proof.
  intros Hf Hp Hg H0 Hs. apply is_lim_spec. intros eps. assert (E4 : 0 < eps / 4) by (destruct eps; cbn; lra).
  destruct (der_eps g B (mkposreal _ E4) Hg) as [d1 D1]. destruct (der_eps s (B / 2) (mkposreal _ E4) Hs) as [d2 D2]. cbn [pos] in D1, D2.
  assert (Dm : 0 < Rmin d1 d2) by (apply Rmin_glb_lt; [apply cond_pos|apply cond_pos]).
  exists (mkposreal _ Dm). intros t Ht N. change (Rabs (t - 0) < Rmin d1 d2) in Ht. rewrite Rminus_0_r in Ht.
  assert (T1 : Rabs t < d1) by (eapply Rlt_le_trans; [exact Ht|apply Rmin_l]). assert (T2 : Rabs t < d2) by (eapply Rlt_le_trans; [exact Ht|apply Rmin_r]).
  set (h := fun x => p x - p 0 - x * g 0 - x ^ 2 * (B / 2)).
  assert (Hh : forall x, is_derive h x (g x - g 0 - x * B)).
  { intros x. unfold h. evar_last.
    - apply (is_derive_minus (fun x => p x - p 0 - x * g 0) (fun x => x ^ 2 * (B / 2))); [|auto_derive; [auto|reflexivity]].
      apply (is_derive_minus (fun x => p x - p 0) (fun x => x * g 0)); [|auto_derive; [auto|reflexivity]].
      apply (is_derive_minus p (fun _ => p 0)); [apply Hp|apply cder].
    - unfold minus, plus, opp; cbn. field. }
  destruct (MVT_gen h 0 t (fun x => g x - g 0 - x * B)) as (c & Hc & Eh).
  { intros x _. apply Hh. }
  { intros x _. apply (ex_derive_continuous (K := R_AbsRing) (V := R_NormedModule)) || apply derivable_continuous_pt. eexists. apply is_derive_Reals, Hh. }
  assert (Ac : Rabs c <= Rabs t).
  { destruct (Rle_dec 0 t) as [L|L]; [rewrite Rmin_left, Rmax_right in Hc by lra; rewrite !Rabs_pos_eq by lra; lra|].
    rewrite Rmin_right, Rmax_left in Hc by lra. rewrite !Rabs_left1 by lra. lra. }
  assert (B1 : Rabs (h t) <= eps / 4 * Rabs t * Rabs t).
  { replace (h t) with ((g c - g 0 - c * B) * t) by (rewrite Rminus_0_r in Eh; rewrite <- Eh; unfold h; ring). rewrite Rabs_mult.
    apply Rmult_le_compat_r; [apply Rabs_pos|]. eapply Rle_trans; [apply D1; lra|]. apply Rmult_le_compat_l; lra. }
  specialize (D2 t T2). rewrite (Hf t N), Rminus_0_r.
  replace ((p 0 + t * s t - p t) / t ^ 2) with (((s t - s 0 - t * (B / 2)) * t - h t) / (t * t)) by (unfold h; rewrite H0; field; exact N).
  assert (Pt : 0 < Rabs t) by (apply Rabs_pos_lt; exact N).
  unfold Rdiv. rewrite Rabs_mult, Rabs_inv, Rabs_mult. apply (Rmult_lt_reg_r (Rabs t * Rabs t)); [nra|]. rewrite Rmult_assoc, Rinv_l, Rmult_1_r by nra.
  eapply Rle_lt_trans; [unfold Rminus; apply Rabs_triang|]. rewrite Rabs_Ropp, Rabs_mult. destruct eps as [e He]. cbn [pos] in *. unfold Rminus in D2.
  assert (Rabs (s t + - s 0 + - (t * (B * / 2))) * Rabs t <= e / 4 * Rabs t * Rabs t) by (apply Rmult_le_compat_r; [lra|exact D2]).
  assert (0 < Rabs t * Rabs t) by nra. unfold Rdiv in *. nra.
Qed.

(** ** the pieces of the step *)
Lemma cov_rate_ext F G Qc X Y i j : (i < 15)%nat -> (j < 15)%nat -> meq 15 15 X Y -> cov_rate F G Qc X i j = cov_rate F G Qc Y i j.
Proof.
  intros Hi Hj E. unfold cov_rate. f_equal. f_equal; apply mmul_ext; intros l Hl; auto.
Qed.
Lemma mixed_tr G G' Qc i j : sym 12 Qc -> mmul 12 (mmul 12 G Qc) (mtr G') j i = mmul 12 (mmul 12 G' Qc) (mtr G) i j.
Proof.
  intros S. rewrite mmul_tr. rewrite (mmul_assoc 12 12 G' Qc (mtr G)). apply mmul_ext; intros l Hl; [reflexivity|].
  unfold mmul, mtr. apply sumn_ext. intros k Hk. rewrite (S k l Hk Hl). unfold mtr. ring.
Qed.
Lemma lin_tr F X i j : (i < 15)%nat -> (j < 15)%nat -> sym 15 X -> mmul 15 F X j i = mmul 15 X (mtr F) i j.
Proof. intros Hi Hj S. rewrite mmul_tr. apply mmul_ext; intros l Hl; [|reflexivity]. symmetry. apply S; assumption. Qed.
Lemma cov_rate_sym F G Qc X : sym 12 Qc -> sym 15 X -> sym 15 (cov_rate F G Qc X).
Proof.
  intros S1 S2 i j Hi Hj. unfold mtr, cov_rate. rewrite (lin_tr F X i j), <- (lin_tr F X j i) by assumption. rewrite (mixed_tr G G Qc i j S1). ring.
Qed.
Lemma bent_sym F F' G G' Qc X X' i j : (i < 15)%nat -> (j < 15)%nat -> sym 12 Qc -> sym 15 X -> sym 15 X' -> bent F F' G G' Qc X X' j i = bent F F' G G' Qc X X' i j.
Proof.
  intros Hi Hj S1 S2 S3. unfold bent. rewrite (lin_tr F' X i j), (lin_tr F X' i j), <- (lin_tr F X' j i), <- (lin_tr F' X j i) by assumption.
  rewrite (mixed_tr G' G Qc i j S1), (mixed_tr G G' Qc i j S1). ring.
Qed.
Lemma bent_lin F Q' a G Qc X X' k i j : bent F (F_bend (m3scal k Q') a) G (G_bend (m3scal k Q')) Qc X (fun i j => k * X' i j) i j = k * bent F (F_bend Q' a) G (G_bend Q') Qc X X' i j.
Proof.
  assert (B : forall A u v, b3 (m3scal (-1) (m3tr (m3scal k A))) u v = k * b3 (m3scal (-1) (m3tr A)) u v).
  { intros A u v. unfold b3. destruct u as [|[|[|u]]], v as [|[|[|v]]]; cbn; ring. }
  assert (HF : forall u v, F_bend (m3scal k Q') a u v = k * F_bend Q' a u v).
  { intros u v. unfold F_bend, put3, set_block. destruct (_ && _ && _ && _); [apply B|]. destruct (_ && _ && _ && _); [|unfold mzero; ring].
    unfold b3. generalize (u - 6)%nat (v - 0)%nat. clear. intros u v. destruct u as [|[|[|u]]], v as [|[|[|v]]]; cbn; ring. }
  assert (HG : forall u v, G_bend (m3scal k Q') u v = k * G_bend Q' u v).
  { intros u v. unfold G_bend, put3, set_block. destruct (_ && _ && _ && _); [apply B|unfold mzero; ring]. }
  unfold bent, mmul, mtr. rewrite !Rmult_plus_distr_l, <- !sumn_scal.
  repeat match goal with |- _ + _ = _ + _ => apply f_equal2 end; apply sumn_ext; intros l Hl; rewrite ?HF, ?HG; try ring.
  rewrite (sumn_ext 12 _ (fun m => k * (G_bend Q' i m * Qc m l))) by (intros m Hm; rewrite HG; ring). rewrite sumn_scal. ring.
Qed.
(** the covariance moved along a rate *)
Lemma moved_der (P : mat) (K : R -> mat) K' k : mder K 0 K' -> mder (fun s => madd P (mscal (k * s) (K s))) 0 (fun i j => k * K 0 i j).
Proof.
  intros H i j Hi Hj. unfold madd, mscal. eapply is_derive_eq.
  - apply (is_derive_plus (fun _ => P i j) (fun s => k * s * K s i j)); [apply cder|]. apply (mul_der (fun s => k * s) (fun s => K s i j)); [|apply (H i j Hi Hj)].
    instantiate (1 := k). auto_derive; [auto|ring].
  - cbv beta. unfold plus; cbn. ring.
Qed.
Lemma rot_der0 w k : m3_derive (fun s => cpi_rot (k * s) w) 0 (m3scal (- k) (skew_x w)).
Proof.
  unfold cpi_rot. destruct (cpi_small w) eqn:E.
  - eapply m3_derive_eq.
    + apply m3d_add; [apply m3d_sub; [apply m3d_const|apply m3d_scalf; [|apply m3d_const]]|apply m3d_scalf; [|apply m3d_const]].
      * instantiate (1 := k). auto_derive; [auto|ring].
      * instantiate (1 := 0). auto_derive; [auto|ring].
    + apply m3_ext; cbn; ring.
  - assert (N : v3norm w <> 0) by (unfold cpi_small in E; destruct (Rltb_spec (v3norm w) (8726646 / 1000000000)); [discriminate|lra]).
    eapply m3_derive_eq.
    + apply m3d_add; [apply m3d_sub; [apply m3d_const|apply m3d_scalf; [|apply m3d_const]]|apply m3d_scalf; [|apply m3d_const]].
      * instantiate (1 := k). auto_derive; [auto|]. rewrite !Rmult_0_r, cos_0. field. exact N.
      * instantiate (1 := 0). auto_derive; [auto|]. rewrite !Rmult_0_r, sin_0. field. exact N.
    + apply m3_ext; cbn; ring.
Qed.
Lemma rot_0 w : cpi_rot 0 w = m3id.
Proof.
  unfold cpi_rot. rewrite Rmult_0_r, sin_0, cos_0. destruct (cpi_small w).
  - apply m3_ext; cbn; field.
  - unfold Rdiv. rewrite Rmult_0_l, Rminus_diag_eq, Rmult_0_l by reflexivity. apply m3_ext; cbn; ring.
Qed.
Lemma turn_der w (Q : m3) k : m3_derive (fun s => m3mul (cpi_rot (k * s) w) Q) 0 (m3scal k (m3mul (m3scal (-1) (skew_x w)) Q)).
Proof.
  eapply m3_derive_eq; [apply m3d_mul; [apply rot_der0|apply m3d_const]|]. cbv beta. rewrite Rmult_0_r, rot_0. apply m3_ext; cbn; ring.
Qed.
Lemma bent_ext F F' G G' Qc X X' Y Y' i j : (i < 15)%nat -> (j < 15)%nat -> meq 15 15 X Y -> meq 15 15 X' Y' -> bent F F' G G' Qc X X' i j = bent F F' G G' Qc Y Y' i j.
Proof.
  intros Hi Hj E1 E2. unfold bent.
  rewrite (mmul_ext 15 F' F' X Y i j), (mmul_ext 15 F F X' Y' i j), (mmul_ext 15 X' Y' (mtr F) (mtr F) i j), (mmul_ext 15 X Y (mtr F') (mtr F') i j); auto.
Qed.

Section Step.
Variables (w a : v3) (Qc P : mat) (Q : m3).
Hypothesis SQ : sym 12 Qc.
Hypothesis SP : sym 15 P.
Let Qd := m3mul (m3scal (-1) (skew_x w)) Q.
Let A := cov_rate (cpi_F Q w a) (cpi_G Q) Qc P.
Let Bt := bent (cpi_F Q w a) (F_bend Qd a) (cpi_G Q) (G_bend Qd) Qc P A.
Lemma stage (Qs : R -> m3) (f : R -> R) (K : R -> mat) K' k : Qs 0 = Q -> m3_derive Qs 0 (m3scal k Qd) -> (forall s, f s = k * s) -> meq 15 15 (K 0) A -> mder K 0 K' ->
  let N := fun s => cpi_Pdot (Qs s) w a Qc (madd P (mscal (f s) (K s))) in
  meq 15 15 (N 0) A /\ mder N 0 (fun i j => k * Bt i j).
Proof.
  intros H0 HD Hf HK HK'. cbv zeta.
  assert (X0 : meq 15 15 (madd P (mscal (f 0) (K 0))) P) by (intros i j _ _; unfold madd, mscal; rewrite Hf; ring).
  split.
  - intros i j Hi Hj. rewrite pdot_is, H0. apply cov_rate_ext; assumption.
  - assert (HX : mder (fun s => madd P (mscal (f s) (K s))) 0 (fun i j => k * K 0 i j)).
    { intros i j Hi Hj. pose proof (moved_der P K K' k HK' i j Hi Hj) as M. eapply is_derive_ext; [|exact M]. intros s. unfold madd, mscal. rewrite Hf. reflexivity. }
    intros i j Hi Hj. eapply is_derive_eq; [apply (pdot_der Qs (fun s => madd P (mscal (f s) (K s))) w a Qc 0 _ _ HD HX i j Hi Hj)|].
    rewrite H0. unfold Bt. rewrite <- bent_lin. apply bent_ext; try assumption. intros u v Hu Hv. rewrite HK by assumption. reflexivity.
Qed.
Definition slope (s : R) : mat :=
  let k1 := cpi_Pdot Q w a Qc P in
  let k2 := cpi_Pdot (m3mul (cpi_mid s w) Q) w a Qc (madd P (mscal (s / 2) k1)) in
  let k3 := cpi_Pdot (m3mul (cpi_mid s w) Q) w a Qc (madd P (mscal (s / 2) k2)) in
  let k4 := cpi_Pdot (m3mul (cpi_rot s w) Q) w a Qc (madd P (mscal s k3)) in
  fun i j => 1 / 6 * (k1 i j + 2 * k2 i j + 2 * k3 i j + k4 i j).
Lemma slope_der : meq 15 15 (slope 0) A /\ mder slope 0 (fun i j => 1 / 2 * Bt i j).
Proof.
  assert (M0 : m3mul (cpi_mid 0 w) Q = Q) by (unfold cpi_mid; rewrite Rmult_0_r, rot_0; apply m3_ext; cbn; ring).
  assert (R0 : m3mul (cpi_rot 0 w) Q = Q) by (rewrite rot_0; apply m3_ext; cbn; ring).
  assert (MD : m3_derive (fun s => m3mul (cpi_mid s w) Q) 0 (m3scal (1 / 2) Qd)).
  { eapply m3_derive_eq; [apply (turn_der w Q (5 / 10))|]. f_equal. lra. }
  assert (RD : m3_derive (fun s => m3mul (cpi_rot s w) Q) 0 (m3scal 1 Qd)).
  { eapply m3_derive_ext; [|apply (turn_der w Q 1)]. intros t. cbv beta. rewrite Rmult_1_l. reflexivity. }
  set (K1 := fun _ : R => cpi_Pdot Q w a Qc P).
  assert (D1 : mder K1 0 mzero) by (intros i j _ _; apply (cder (cpi_Pdot Q w a Qc P i j) 0)).
  destruct (stage (fun s => m3mul (cpi_mid s w) Q) (fun s => s / 2) K1 mzero (1 / 2) M0 MD ltac:(intros; lra) ltac:(intros i j _ _; reflexivity) D1) as [V2 D2].
  set (K2 := fun s => cpi_Pdot (m3mul (cpi_mid s w) Q) w a Qc (madd P (mscal (s / 2) (K1 s)))) in *.
  destruct (stage (fun s => m3mul (cpi_mid s w) Q) (fun s => s / 2) K2 _ (1 / 2) M0 MD ltac:(intros; lra) V2 D2) as [V3 D3].
  set (K3 := fun s => cpi_Pdot (m3mul (cpi_mid s w) Q) w a Qc (madd P (mscal (s / 2) (K2 s)))) in *.
  destruct (stage (fun s => m3mul (cpi_rot s w) Q) (fun s => s) K3 _ 1 R0 RD ltac:(intros; lra) V3 D3) as [V4 D4].
  set (K4 := fun s => cpi_Pdot (m3mul (cpi_rot s w) Q) w a Qc (madd P (mscal s (K3 s)))) in *.
  change slope with (fun s i j => 1 / 6 * (K1 s i j + 2 * K2 s i j + 2 * K3 s i j + K4 s i j)). split.
  - intros i j Hi Hj. specialize (V2 i j Hi Hj). specialize (V3 i j Hi Hj). specialize (V4 i j Hi Hj).
    change (K2 0 i j = A i j) in V2. change (K3 0 i j = A i j) in V3. change (K4 0 i j = A i j) in V4. rewrite V2, V3, V4. change (K1 0 i j) with (A i j). field.
  - intros i j Hi Hj. evar_last.
    + apply (is_derive_scal (fun s => K1 s i j + 2 * K2 s i j + 2 * K3 s i j + K4 s i j)).
      apply (is_derive_plus (fun s => K1 s i j + 2 * K2 s i j + 2 * K3 s i j) (fun s => K4 s i j)); [|apply D4; assumption].
      apply (is_derive_plus (fun s => K1 s i j + 2 * K2 s i j) (fun s => 2 * K3 s i j)); [|apply (is_derive_scal (fun s => K3 s i j)), D3; assumption].
      apply (is_derive_plus (fun s => K1 s i j) (fun s => 2 * K2 s i j)); [apply D1; assumption|apply (is_derive_scal (fun s => K2 s i j)), D2; assumption].
    + unfold mzero, plus; cbn. field.
Qed.
Lemma cov_slope s i j : (i < 15)%nat -> (j < 15)%nat ->
  cpi_cov s Q (m3mul (cpi_mid s w) Q) (m3mul (cpi_rot s w) Q) w a Qc P i j = P i j + s * (1 / 2 * (slope s i j + slope s j i)).
Proof.
  intros Hi Hj. unfold cpi_cov, slope. cbv zeta.
  set (k1 := cpi_Pdot Q w a Qc P).
  set (k2 := cpi_Pdot (m3mul (cpi_mid s w) Q) w a Qc (madd P (mscal (s / 2) k1))).
  set (k3 := cpi_Pdot (m3mul (cpi_mid s w) Q) w a Qc (madd P (mscal (s / 2) k2))).
  set (k4 := cpi_Pdot (m3mul (cpi_rot s w) Q) w a Qc (madd P (mscal s k3))).
  clearbody k4 k3 k2 k1. pose proof (SP j i Hj Hi) as E. unfold mtr in E. unfold mscal, madd, mtr. rewrite E. field.
Qed.
Lemma A_sym : sym 15 A. Proof. apply cov_rate_sym; assumption. Qed.
Lemma B_sym i j : (i < 15)%nat -> (j < 15)%nat -> Bt j i = Bt i j.
Proof. intros Hi Hj. apply bent_sym; auto using A_sym. Qed.

Lemma step_order (f : R -> mat) (Qt : R -> m3) (Pt : R -> mat) : (forall s, s <> 0 -> f s = cpi_cov s Q (m3mul (cpi_mid s w) Q) (m3mul (cpi_rot s w) Q) w a Qc P) ->
  Qt 0 = Q -> m3_derive Qt 0 Qd -> meq 15 15 (Pt 0) P ->
  (forall t i j, (i < 15)%nat -> (j < 15)%nat -> is_derive (fun s => Pt s i j) t (cov_rate (cpi_F (Qt t) w a) (cpi_G (Qt t)) Qc (Pt t) i j)) ->
  forall i j, (i < 15)%nat -> (j < 15)%nat -> is_lim (fun s => (f s i j - Pt s i j) / s ^ 2) 0 0.
Proof.
  intros Hf H0 HD HP Hrate i j Hi Hj. destruct slope_der as [V D].
  assert (E0 : meq 15 15 (cov_rate (cpi_F (Qt 0) w a) (cpi_G (Qt 0)) Qc (Pt 0)) A) by (intros u v Hu Hv; rewrite H0; apply cov_rate_ext; assumption).
  apply (second_order (fun s => f s i j) (fun s => Pt s i j) (fun s => cov_rate (cpi_F (Qt s) w a) (cpi_G (Qt s)) Qc (Pt s) i j) (fun s => 1 / 2 * (slope s i j + slope s j i)) (Bt i j)).
  - intros t N. rewrite (Hf t N), cov_slope, HP by assumption. reflexivity.
  - intros t. apply Hrate; assumption.
  - assert (MP : mder Pt 0 A). { intros u v Hu Hv. eapply is_derive_eq; [apply Hrate; assumption|apply E0; assumption]. }
    eapply is_derive_eq; [apply (pdot_der Qt Pt w a Qc 0 Qd A HD MP i j Hi Hj)|]. rewrite H0. apply bent_ext; try assumption. intros u v _ _; reflexivity.
  - rewrite E0, !V by assumption. rewrite (A_sym j i Hj Hi). unfold mtr. field.
  - evar_last.
    + apply (is_derive_scal (fun s => slope s i j + slope s j i)). apply (is_derive_plus (fun s => slope s i j) (fun s => slope s j i)); apply D; assumption.
    + cbv beta. rewrite B_sym by assumption. unfold plus; cbn. field.
Qed.
End Step.

Lemma hat_steady avg b v : cpi_hat avg b (v3add v b) (v3add v b) = v.
Proof. unfold cpi_hat. destruct avg; apply v3_ext; cbn; field. Qed.
Theorem order_thm c w a Qt : sym 12 (cp_Qc c) -> sym 15 (cp_P c) -> Qt 0 = cp_R c ->
  (forall t, m3_derive Qt t (m3mul (m3scal (-1) (skew_x w)) (Qt t))) ->
  exists Ft Gt, (forall t, lin_rates (Ft t) (Gt t) (Qt t) w a) /\
    forall Pt, true_cov (cp_Qc c) Ft Gt Pt -> meq 15 15 (Pt 0) (cp_P c) ->
      forall i j, (i < 15)%nat -> (j < 15)%nat ->
      is_lim (fun dt => (cp_P (cpi_feed c (steady c dt w a)) i j - Pt dt i j) / dt ^ 2) 0 0.
Proof.
  intros SQ SP H0 HD. exists (fun t => cpi_F (Qt t) w a), (fun t => cpi_G (Qt t)). split; [intros t; apply F_rates|].
  intros Pt [HR] HP i j Hi Hj. apply (step_order w a (cp_Qc c) (cp_P c) (cp_R c) SQ SP (fun dt => cp_P (cpi_feed c (steady c dt w a))) Qt Pt); try assumption.
  - intros s N. unfold cpi_feed, steady. cbn [rd_t0 rd_t1 rd_w0 rd_w1 rd_a0 rd_a1]. rewrite Rminus_0_r. destruct (Reqb_spec s 0); [contradiction|]. cbn [cp_P].
    rewrite !hat_steady. reflexivity.
  - rewrite <- H0. apply HD.
Qed.
