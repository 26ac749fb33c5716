(** Errors along the axes: proofs. *)
From Coq Require Import Reals List Arith ZArith Lia Lra Psatz.
From Coquelicot Require Import Coquelicot.
From Verif Require Import RBool Outcome GeoModel GeoSpec GeoProofs ExpProofs JacSo3 EulerProofs InitModel EvalModel EvalSpec CeresModel CeresSpec CeresLog ErrModel ErrSpec.
Import ListNotations.
Open Scope R_scope.

Lemma about_x_rot a : about_x a = rot_x a.
Proof. unfold about_x, about, rot_x. apply m3_ext; cbn; ring. Qed.
Lemma about_y_rot a : about_y a = rot_y a.
Proof. unfold about_y, about, rot_y. apply m3_ext; cbn; ring. Qed.
Lemma about_z_rot a : about_z a = rot_z a.
Proof. unfold about_z, about, rot_z. apply m3_ext; cbn; ring. Qed.
Lemma euler_rpy v : euler v = rpy_mat v.
Proof. unfold euler, rpy_mat. rewrite about_x_rot, about_y_rot, about_z_rot. reflexivity. Qed.

(** ** angles *)
Lemma atan2_half y x : half_turn (atan2 y x).
Proof.
  unfold half_turn, atan2. pose proof PI_RGT_0. pose proof (atan_bound (y / x)) as [A B].
  destruct (Rltb_spec 0 x); [lra|]. destruct (Rltb_spec x 0) as [Hx|Hx].
  - destruct (Rleb_spec 0 y) as [Hy|Hy].
    + assert (y / x <= 0). { unfold Rdiv. assert (/ x < 0) by (apply Rinv_lt_0_compat; lra). nra. }
      assert (atan (y / x) <= 0). { rewrite <- atan_0. destruct (Req_dec (y / x) 0) as [->|E]; [lra|]. left. apply atan_increasing. lra. } lra.
    + assert (0 <= y / x). { unfold Rdiv. assert (/ x < 0) by (apply Rinv_lt_0_compat; lra). nra. }
      assert (0 <= atan (y / x)). { rewrite <- atan_0. destruct (Req_dec (y / x) 0) as [->|E]; [lra|]. left. apply atan_increasing. lra. } lra.
  - destruct (Rltb_spec 0 y); [lra|]. destruct (Rltb_spec y 0); lra.
Qed.
Lemma rpy_half r : half_turn (vx (rot2rpy r)) /\ half_turn (vy (rot2rpy r)) /\ half_turn (vz (rot2rpy r)).
Proof.
  unfold rot2rpy. cbv zeta. destruct (Rltb _ _); cbn [vx vy vz]; repeat split; try apply atan2_half; pose proof PI_RGT_0; lra.
Qed.

Lemma wrap_up_ok n x : - PI - 2 * PI * INR n <= x -> x <= PI -> exists y, wrap_up n x = Ok y /\ half_turn y /\ same_angle y x.
Proof.
  pose proof PI_RGT_0 as HP. revert x. induction n as [|n IH]; intros x H1 H2; cbn [wrap_up]; destruct (Rltb_spec x (- PI)).
  - cbn in H1. exfalso. lra.
  - exists x. split; [reflexivity|]. split; [split; lra|]. exists 0%Z. cbn. ring.
  - destruct (IH (x + 2 * PI)) as (y & E & Hy & k & Ek). { rewrite S_INR in H1. lra. } { lra. }
    exists y. split; [exact E|]. split; [exact Hy|]. exists (k + 1)%Z. rewrite plus_IZR. lra.
  - exists x. split; [reflexivity|]. split; [split; lra|]. exists 0%Z. cbn. ring.
Qed.
Lemma wrap_up_big n x : - PI <= x -> wrap_up n x = Ok x.
Proof. intros H. destruct n; cbn [wrap_up]; destruct (Rltb_spec x (- PI)); auto; lra. Qed.
Lemma wrap_down_ok n x : x <= PI + 2 * PI * INR n -> - PI <= x -> exists y, wrap_down n x = Ok y /\ half_turn y /\ same_angle y x.
Proof.
  pose proof PI_RGT_0 as HP. revert x. induction n as [|n IH]; intros x H1 H2; cbn [wrap_down]; destruct (Rltb_spec PI x).
  - cbn in H1. exfalso. lra.
  - exists x. split; [reflexivity|]. split; [split; lra|]. exists 0%Z. cbn. ring.
  - destruct (IH (x - 2 * PI)) as (y & E & Hy & k & Ek). { rewrite S_INR in H1. lra. } { lra. }
    exists y. split; [exact E|]. split; [exact Hy|]. exists (k - 1)%Z. rewrite minus_IZR. lra.
  - exists x. split; [reflexivity|]. split; [split; lra|]. exists 0%Z. cbn. ring.
Qed.
Lemma wrap_down_small n x : x <= PI -> wrap_down n x = Ok x.
Proof. intros H. destruct n; cbn [wrap_down]; destruct (Rltb_spec PI x); auto; lra. Qed.
Lemma wrap_ok n x : Rabs x <= PI + 2 * PI * INR n -> exists y, wrap n x = Ok y /\ half_turn y /\ same_angle y x.
Proof.
  intros H. pose proof PI_RGT_0 as HP. unfold wrap. destruct (Rle_or_lt x PI) as [L|L].
  - destruct (wrap_up_ok n x) as (y & E & Hy & S). { unfold Rabs in H. destruct (Rcase_abs x); [lra|]. assert (0 <= INR n) by apply pos_INR. nra. } { exact L. }
    rewrite E. cbn [obind]. rewrite wrap_down_small by apply Hy. eauto.
  - rewrite wrap_up_big by lra. cbn [obind]. apply wrap_down_ok; [|lra]. unfold Rabs in H. destruct (Rcase_abs x); lra.
Qed.
(** two results within half a turn that are the same angle are equal unless they are the two ends *)
Lemma wrap_any x : exists n y, forall m, (n <= m)%nat -> wrap m x = Ok y /\ half_turn y /\ same_angle y x.
Proof.
  pose proof PI_RGT_0 as HP. destruct (nfloor_ex (Rabs x / (2 * PI))) as (n0 & _ & Hn).
  { apply Rmult_le_pos; [apply Rabs_pos|]. left. apply Rinv_0_lt_compat. lra. }
  rewrite <- S_INR in Hn. set (n := S n0) in *. clearbody n.
  assert (B : Rabs x <= PI + 2 * PI * INR n). { apply Rmult_lt_compat_r with (r := 2 * PI) in Hn; [|lra]. unfold Rdiv in Hn. rewrite Rmult_assoc, Rinv_l in Hn by lra. lra. }
  destruct (wrap_ok n x B) as (y & E & Hy & S). exists n, y. intros m L. split; [|auto].
  assert (MU : forall a b z, (a <= b)%nat -> forall w, wrap_up a w = Ok z -> wrap_up b w = Ok z).
  { clear. induction a as [|a IH]; intros b z L w; destruct b as [|b]; cbn [wrap_up]; intros H; try (destruct (Rltb w (- PI)); [discriminate|auto]; fail).
    - lia.
    - destruct (Rltb w (- PI)); auto. apply IH; auto. lia. }
  assert (MD : forall a b z, (a <= b)%nat -> forall w, wrap_down a w = Ok z -> wrap_down b w = Ok z).
  { clear. induction a as [|a IH]; intros b z L w; destruct b as [|b]; cbn [wrap_down]; intros H; try (destruct (Rltb PI w); [discriminate|auto]; fail).
    - lia.
    - destruct (Rltb PI w); auto. apply IH; auto. lia. }
  unfold wrap in *. destruct (wrap_up n x) as [u| |] eqn:U; try discriminate. rewrite (MU n m u L x U). cbn [obind] in *. eapply MD; eauto.
Qed.
Lemma same_cs x y : same_angle x y -> cos x = cos y /\ sin x = sin y.
Proof.
  intros (k & ->). replace (2 * PI * IZR k) with (2 * IZR k * PI) by ring.
  destruct (Z_le_gt_dec 0 k) as [L|L].
  - replace k with (Z.of_nat (Z.to_nat k)) by lia. rewrite <- INR_IZR_INZ. rewrite cos_period, sin_period. auto.
  - assert (E : IZR k = - INR (Z.to_nat (- k))) by (rewrite INR_IZR_INZ, Z2Nat.id, opp_IZR by lia; ring).
    rewrite E. set (m := Z.to_nat (- k)). set (z := y + 2 * - INR m * PI). replace y with (z + 2 * INR m * PI) by (unfold z; ring).
    rewrite cos_period, sin_period. auto.
Qed.
Lemma euler_same v w : same_angle (vx v) (vx w) -> same_angle (vy v) (vy w) -> same_angle (vz v) (vz w) -> euler v = euler w.
Proof.
  intros X Y Z. destruct (same_cs _ _ X), (same_cs _ _ Y), (same_cs _ _ Z). unfold euler. rewrite about_x_rot, about_y_rot, about_z_rot, about_x_rot, about_y_rot, about_z_rot.
  unfold rot_x, rot_y, rot_z. congruence.
Qed.

(** ** rates *)
Definition eul (sr cr sp cp sy cy : R) : m3 :=
  M3 (cy * cp) (cy * sp * sr - sy * cr) (cy * sp * cr + sy * sr)
     (sy * cp) (sy * sp * sr + cy * cr) (sy * sp * cr - cy * sr)
     (- sp) (cp * sr) (cp * cr).
Lemma euler_form v : euler v = eul (sin (vx v)) (cos (vx v)) (sin (vy v)) (cos (vy v)) (sin (vz v)) (cos (vz v)).
Proof.
  unfold euler. rewrite about_x_rot, about_y_rot, about_z_rot. unfold rot_x, rot_y, rot_z, eul.
  set (sr := sin (vx v)); set (cr := cos (vx v)); set (sp := sin (vy v)); set (cp := cos (vy v)); set (sy := sin (vz v)); set (cy := cos (vz v)); clearbody sr cr sp cp sy cy.
  apply m3_ext; cbn; ring.
Qed.
Lemma H_form v : H_xyz2rpy v = M3 1 0 (- sin (vy v))  0 (cos (vx v)) (sin (vx v) * cos (vy v))  0 (- sin (vx v)) (cos (vx v) * cos (vy v)).
Proof.
  unfold H_xyz2rpy, rot_x, rot_y. rewrite !cos_neg, !sin_neg.
  set (sr := sin (vx v)); set (cr := cos (vx v)); set (sp := sin (vy v)); set (cp := cos (vy v)); clearbody sr cr sp cp.
  apply m3_ext; cbn; ring.
Qed.
Lemma d_sin a d : is_derive (fun s => sin (a + s * d)) 0 (cos a * d).
Proof. auto_derive; trivial. rewrite Rmult_0_l, Rplus_0_r. ring. Qed.
Lemma d_cos a d : is_derive (fun s => cos (a + s * d)) 0 (- sin a * d).
Proof. auto_derive; trivial. rewrite Rmult_0_l, Rplus_0_r. ring. Qed.
(** products of two and three factors *)
Lemma d_mul f g a b fa gb : is_derive f 0 a -> is_derive g 0 b -> f 0 = fa -> g 0 = gb -> is_derive (fun s => f s * g s) 0 (a * gb + fa * b).
Proof. intros F G <- <-. exact (is_derive_mult f g 0 a b F G Rmult_comm). Qed.
Lemma d_add f g (a b : R) : is_derive f 0 a -> is_derive g 0 b -> is_derive (fun s => f s + g s) 0 (a + b).
Proof. exact (is_derive_plus f g 0 a b). Qed.
Lemma d_sub f g (a b : R) : is_derive f 0 a -> is_derive g 0 b -> is_derive (fun s => f s - g s) 0 (a - b).
Proof. exact (is_derive_minus f g 0 a b). Qed.
Lemma d_opp f (a : R) : is_derive f 0 a -> is_derive (fun s => - f s) 0 (- a).
Proof. exact (is_derive_opp f 0 a). Qed.
Lemma d_to (f : R -> R) (a b : R) : is_derive f 0 a -> a = b -> is_derive f 0 b.
Proof. intros H <-. exact H. Qed.
Ltac dpr :=
  match goal with
  | |- is_derive (fun s => sin (?a + s * ?d)) _ _ => exact (d_sin a d)
  | |- is_derive (fun s => cos (?a + s * ?d)) _ _ => exact (d_cos a d)
  | |- is_derive (fun s => @?f s * @?g s) _ _ => eapply (d_mul f g); [dpr | dpr | cbv beta; rewrite ?Rmult_0_l, ?Rplus_0_r; reflexivity | cbv beta; rewrite ?Rmult_0_l, ?Rplus_0_r; reflexivity]
  | |- is_derive (fun s => @?f s + @?g s) _ _ => eapply (d_add f g); dpr
  | |- is_derive (fun s => @?f s - @?g s) _ _ => eapply (d_sub f g); dpr
  | |- is_derive (fun s => - @?f s) _ _ => eapply (d_opp f); dpr
  end.
Lemma m3_derive_ext f g x D : (forall s, f s = g s) -> m3_derive g x D -> m3_derive f x D.
Proof. intros E (A & B & C & D1 & E1 & F & G & H & I). unfold m3_derive. split9; (eapply is_derive_ext; [|eassumption]); intros s; cbv beta; rewrite E; reflexivity. Qed.
Lemma H_rates v : rates v (H_xyz2rpy v).
Proof.
  intros d. rewrite euler_form, H_form. destruct v as [r p y], d as [dr dp dy].
  apply (m3_derive_ext _ (fun s => eul (sin (r + s * dr)) (cos (r + s * dr)) (sin (p + s * dp)) (cos (p + s * dp)) (sin (y + s * dy)) (cos (y + s * dy)))).
  { intros s. rewrite euler_form. reflexivity. }
  cbn [vx vy vz].
  pose proof (sin2_cos2 r) as R1. pose proof (sin2_cos2 p) as P1. unfold Rsqr in *.
  assert (R2 : sin r ^ 2 = 1 - cos r ^ 2) by (cbn; lra). assert (P2 : sin p ^ 2 = 1 - cos p ^ 2) by (cbn; lra). clear R1 P1.
  unfold m3_derive. split9; unfold eul; cbn [m00 m01 m02 m10 m11 m12 m20 m21 m22];
  (eapply d_to; [dpr|]); cbn [m3mul skew_x m3v vx vy vz m00 m01 m02 m10 m11 m12 m20 m21 m22];
  (ring || (apply Rminus_diag_uniq; ring_simplify; rewrite ?R2, ?P2; ring)).
Qed.
