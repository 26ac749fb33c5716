(** Calculus for the B-spline: matrix curves and the exponential of a scaled twist (C39). *)
From Coq Require Import Reals Lra Psatz Bool.
From Coquelicot Require Import Coquelicot.
From Verif Require Import RBool Outcome GeoModel GeoSpec GeoProofs ExpProofs Se3Proofs JacSo3 Calc3.
From Verif Require Import BsplModel.
Open Scope R_scope.

Lemma m4_ext a b : m4R a = m4R b -> m4t a = m4t b -> m4c a = m4c b -> a = b.
Proof. destruct a, b; simpl; intros -> -> ->; reflexivity. Qed.
Ltac m4ring := apply m4_ext; [apply m3_ext|apply v3_ext|]; simpl; ring.
Lemma m4mul_assoc a b c : m4mul (m4mul a b) c = m4mul a (m4mul b c).
Proof. m4ring. Qed.
Lemma m4mul_add_l a b c : m4mul (m4add a b) c = m4add (m4mul a c) (m4mul b c).
Proof. m4ring. Qed.
Lemma m4mul_add_r a b c : m4mul a (m4add b c) = m4add (m4mul a b) (m4mul a c).
Proof. m4ring. Qed.
Lemma m4mul_scal_l k a b : m4mul (m4scal k a) b = m4scal k (m4mul a b).
Proof. m4ring. Qed.

Definition m4_derive (f : R -> m4) (x : R) (D : m4) : Prop :=
  m3_derive (fun t => m4R (f t)) x (m4R D) /\ v3_derive (fun t => m4t (f t)) x (m4t D) /\
  is_derive (fun t => m4c (f t)) x (m4c D).

Lemma m4_derive_eq f x D D' : m4_derive f x D -> D = D' -> m4_derive f x D'.
Proof. intros H <-; exact H. Qed.
Lemma m4_derive_ext_loc f g x D : locally x (fun t => f t = g t) -> m4_derive f x D -> m4_derive g x D.
Proof.
  intros E (A & B & C). split; [|split].
  - eapply m3_derive_ext_loc; [|exact A]. eapply filter_imp; [|exact E]. intros t H; cbv beta in *; rewrite H; reflexivity.
  - eapply v3_derive_ext_loc; [|exact B]. eapply filter_imp; [|exact E]. intros t H; cbv beta in *; rewrite H; reflexivity.
  - eapply is_derive_ext_loc; [|exact C]. eapply filter_imp; [|exact E]. intros t H; cbv beta in *; rewrite H; reflexivity.
Qed.
Lemma m4_derive_ext f g x D : (forall t, f t = g t) -> m4_derive f x D -> m4_derive g x D.
Proof. intros E. apply m4_derive_ext_loc. apply filter_forall. exact E. Qed.

Lemma m4d_mul f g x a b : m4_derive f x a -> m4_derive g x b ->
  m4_derive (fun t => m4mul (f t) (g t)) x (m4add (m4mul a (g x)) (m4mul (f x) b)).
Proof.
  intros (A & B & C) (A' & B' & C'). split; [|split]; cbn [m4mul m4add m4R m4t m4c].
  - apply m3d_mul; auto.
  - eapply v3_derive_eq; [apply v3d_add; [apply v3d_mv; [exact A|exact B']|apply v3d_scalf; [exact C'|exact B]]|].
    apply v3_ext; simpl; ring.
  - apply der_mult; auto.
Qed.
Lemma m4d_add f g x a b : m4_derive f x a -> m4_derive g x b ->
  m4_derive (fun t => m4add (f t) (g t)) x (m4add a b).
Proof.
  intros (A & B & C) (A' & B' & C'). split; [|split]; cbn [m4add m4R m4t m4c].
  - apply m3d_add; auto.
  - apply v3d_add; auto.
  - apply der_plus; auto.
Qed.
Lemma m4d_scalc (c : R -> R) c' h x : is_derive c x c' -> m4_derive (fun t => m4scal (c t) h) x (m4scal c' h).
Proof.
  intros H. split; [|split]; cbn [m4scal m4R m4t m4c].
  - eapply m3_derive_eq; [apply m3d_scalf; [exact H|apply m3d_const]|]. apply m3_ext; simpl; ring.
  - eapply v3_derive_eq; [apply v3d_scalf; [exact H|apply v3d_const]|]. apply v3_ext; simpl; ring.
  - eapply is_derive_eq; [apply der_mult; [exact H|apply der_const]|]. cbv beta. ring.
Qed.
Definition m4zero := M4 m3zero v3zero 0.
Lemma m4d_const k x : m4_derive (fun _ => k) x m4zero.
Proof. split; [|split]; [apply m3d_const|apply v3d_const|apply der_const]. Qed.
Lemma m4d_left k f x D : m4_derive f x D -> m4_derive (fun t => m4mul k (f t)) x (m4mul k D).
Proof. intros H. eapply m4_derive_eq; [apply m4d_mul; [apply m4d_const|exact H]|]. m4ring. Qed.

(** I + a W + b W^2 and c0 u + c1 W u + c2 W^2 u *)
Definition poly (wu : v3 * v3) (a b c0 c1 c2 : R) : m4 :=
  let W := skew_x (fst wu) in
  M4 (m3add (m3add m3id (m3scal a W)) (m3scal b (m3mul W W)))
     (v3add (v3add (v3scal c0 (snd wu)) (v3scal c1 (m3v W (snd wu)))) (v3scal c2 (m3v (m3mul W W) (snd wu)))) 1.

Lemma poly_derive wu (a b c0 c1 c2 : R -> R) a' b' c0' c1' c2' x :
  is_derive a x a' -> is_derive b x b' -> is_derive c0 x c0' -> is_derive c1 x c1' -> is_derive c2 x c2' ->
  let W := skew_x (fst wu) in
  m4_derive (fun t => poly wu (a t) (b t) (c0 t) (c1 t) (c2 t)) x
    (M4 (m3add (m3scal a' W) (m3scal b' (m3mul W W)))
        (v3add (v3add (v3scal c0' (snd wu)) (v3scal c1' (m3v W (snd wu)))) (v3scal c2' (m3v (m3mul W W) (snd wu)))) 0).
Proof.
  intros Ha Hb H0 H1 H2 W. split; [|split]; cbn [poly m4R m4t m4c]; fold W.
  - eapply m3_derive_eq.
    { apply m3d_add; [apply m3d_add; [apply m3d_const|]|]; (apply m3d_scalf; [eassumption|apply m3d_const]). }
    apply m3_ext; simpl; ring.
  - eapply v3_derive_eq.
    { apply v3d_add; [apply v3d_add|]; (apply v3d_scalf; [eassumption|apply v3d_const]). }
    apply v3_ext; simpl; ring.
  - apply der_const.
Qed.

(** exp_se3 (s * [w; u]) below the switch and above *)
Lemma exp_at_small s wu : Rabs s * v3norm (fst wu) < 1 / 10 ^ 7 ->
  m4of (exp_at s wu) = poly wu s (s * s / 2) s (s * s / 2) (s * s * s / 6).
Proof.
  intros H. unfold exp_at. rewrite exp_se3_small by (rewrite v3norm_scal; auto).
  apply m4_ext; [apply m3_ext|apply v3_ext|]; simpl; field.
Qed.
Lemma exp_at_big s wu : 1 / 10 ^ 7 <= Rabs s * v3norm (fst wu) ->
  let th := v3norm (fst wu) in
  m4of (exp_at s wu) =
    poly wu (sin (s * th) / th) ((1 - cos (s * th)) / (th * th)) s ((1 - cos (s * th)) / (th * th))
         ((s - sin (s * th) / th) / (th * th)).
Proof.
  intros H th. unfold exp_at. rewrite exp_se3_eq by (rewrite v3norm_scal; auto).
  rewrite exp_so3_eq by (right; rewrite v3norm_scal; auto). rewrite v3norm_scal. fold th. fold th in H.
  assert (P : 0 < Rabs s * th) by (assert (0 < 1 / 10 ^ 7) by lra; lra).
  assert (Hs : s <> 0) by (intros ->; rewrite Rabs_R0 in P; lra).
  assert (Ht : 0 < th) by (pose proof (v3norm_nonneg (fst wu)) as Q; fold th in Q; destruct Q as [Q|Q]; [auto|rewrite <- Q in P; lra]).
  assert (Es : sin (Rabs s * th) * s = sin (s * th) * Rabs s).
  { unfold Rabs. destruct (Rcase_abs s); [|ring]. rewrite Ropp_mult_distr_l_reverse, sin_neg. ring. }
  assert (Ec : cos (Rabs s * th) = cos (s * th)).
  { unfold Rabs. destruct (Rcase_abs s); [|ring]. rewrite Ropp_mult_distr_l_reverse. apply cos_neg. }
  assert (Es2 : Rabs s * Rabs s = s * s) by (rewrite <- Rabs_mult, Rabs_right; nra).
  assert (Hr : Rabs s <> 0) by (apply Rabs_no_R0; auto).
  assert (E1 : sin (Rabs s * th) / (Rabs s * th) * s = sin (s * th) / th).
  { replace (sin (Rabs s * th) / (Rabs s * th) * s) with ((sin (Rabs s * th) * s) / (Rabs s * th)) by (field; lra).
    rewrite Es. field. lra. }
  assert (E2 : (1 - cos (Rabs s * th)) / (Rabs s * th * (Rabs s * th)) * (s * s) = (1 - cos (s * th)) / (th * th)).
  { rewrite Ec. replace (Rabs s * th * (Rabs s * th)) with (s * s * (th * th)) by (rewrite <- Es2; ring). field. lra. }
  assert (E3 : (1 - sin (Rabs s * th) / (Rabs s * th)) / (Rabs s * th * (Rabs s * th)) * (s * s) * s = (s - sin (s * th) / th) / (th * th)).
  { replace (Rabs s * th * (Rabs s * th)) with (s * s * (th * th)) by (rewrite <- Es2; ring). rewrite <- E1. field. lra. }
  set (a := sin (Rabs s * th) / (Rabs s * th)) in *. set (b := (1 - cos (Rabs s * th)) / _) in *.
  set (c := (1 - a) / _) in *. rewrite <- E3, <- E2, <- E1. clearbody a b c.
  apply m4_ext; [apply m3_ext|apply v3_ext|]; simpl; ring.
Qed.

(** scaled rotation vectors for which the derivative of exp_se3 along the curve is the textbook one: none,
    above the small-angle switch of exp_se3, or exactly zero *)
Definition regular (s : R) (w : v3) : Prop := v3norm w = 0 \/ 1 / 10 ^ 7 < Rabs s * v3norm w \/ s = 0.

Lemma skew_cube w : m3mul (skew_x w) (m3mul (skew_x w) (skew_x w)) = m3scal (- (v3norm w * v3norm w)) (skew_x w).
Proof. rewrite v3norm_sq. apply m3_ext; unfold v3dot; simpl; ring. Qed.

Lemma is_derive_cont (c : R -> R) x c' : is_derive c x c' -> continuous c x.
Proof. intros H. apply (ex_derive_continuous c x). eexists; exact H. Qed.

Lemma exp_at_small_derive (c : R -> R) c' x wu : is_derive c x c' -> Rabs (c x) * v3norm (fst wu) < 1 / 10 ^ 7 ->
  let W := skew_x (fst wu) in
  m4_derive (fun t => m4of (exp_at (c t) wu)) x
    (M4 (m3add (m3scal c' W) (m3scal (c' * c x) (m3mul W W)))
        (v3add (v3add (v3scal c' (snd wu)) (v3scal (c' * c x) (m3v W (snd wu))))
               (v3scal (c' * (c x * c x) / 2) (m3v (m3mul W W) (snd wu)))) 0).
Proof.
  intros Hc H W.
  eapply m4_derive_ext_loc with (f := fun t => poly wu (c t) (c t * c t / 2) (c t) (c t * c t / 2) (c t * c t * c t / 6)).
  - assert (L : locally x (fun t => Rabs (c t) * v3norm (fst wu) < 1 / 10 ^ 7)).
    { pose proof (is_derive_cont _ _ _ Hc) as C.
      assert (C2 : continuous (fun t => Rabs (c t) * v3norm (fst wu)) x).
      { apply (continuous_mult (K:=R_AbsRing) (fun t => Rabs (c t)) (fun _ => v3norm (fst wu)));
        [apply (continuous_comp c Rabs); [exact C|apply continuous_Rabs]|apply continuous_const]. }
      apply (C2 (fun y => y < 1 / 10 ^ 7)). apply open_lt. exact H. }
    eapply filter_imp; [|exact L]. intros t Ht. symmetry. apply exp_at_small. exact Ht.
  - eapply m4_derive_eq.
    { apply (poly_derive wu c (fun t => c t * c t / 2) c (fun t => c t * c t / 2) (fun t => c t * c t * c t / 6) c' (c' * c x) c' (c' * c x) (c' * (c x * c x) / 2)); auto.
      all: pose proof (is_derive_unique _ _ _ Hc) as U; assert (Ex : ex_derive c x) by (eexists; exact Hc).
      all: auto_derive; [repeat split; auto|]; change (Derive (fun x => c x) x) with (Derive c x); rewrite U; field. }
    reflexivity.
Qed.

Lemma exp_at_derive (c : R -> R) c' x wu : is_derive c x c' -> regular (c x) (fst wu) ->
  m4_derive (fun t => m4of (exp_at (c t) wu)) x (m4mul (m4scal c' (hat_se3 wu)) (m4of (exp_at (c x) wu))).
Proof.
  intros Hc Hr. destruct Hr as [Hz|[Hb|H0]].
  - assert (Hs : Rabs (c x) * v3norm (fst wu) < 1 / 10 ^ 7) by (rewrite Hz, Rmult_0_r; lra).
    eapply m4_derive_eq; [exact (exp_at_small_derive c c' x wu Hc Hs)|].
    rewrite (exp_at_small _ _ Hs). apply v3norm_zero in Hz. destruct wu as [w u]; simpl in Hz; subst w.
    apply m4_ext; [apply m3_ext|apply v3_ext|]; simpl; field.
  - set (th := v3norm (fst wu)) in *.
    assert (P : 0 < Rabs (c x) * th) by (assert (0 < 1 / 10 ^ 7) by lra; lra).
    assert (Ht : 0 < th) by (pose proof (v3norm_nonneg (fst wu)) as Q; fold th in Q; destruct Q as [Q|Q]; [auto|rewrite <- Q in P; lra]).
    eapply m4_derive_ext_loc with (f := fun t => poly wu (sin (c t * th) / th) ((1 - cos (c t * th)) / (th * th)) (c t) ((1 - cos (c t * th)) / (th * th))
         ((c t - sin (c t * th) / th) / (th * th))).
    + assert (L : locally x (fun t => 1 / 10 ^ 7 < Rabs (c t) * th)).
      { pose proof (is_derive_cont _ _ _ Hc) as C.
        assert (C2 : continuous (fun t => Rabs (c t) * th) x).
        { apply (continuous_mult (K:=R_AbsRing) (fun t => Rabs (c t)) (fun _ => th));
          [apply (continuous_comp c Rabs); [exact C|apply continuous_Rabs]|apply continuous_const]. }
        apply (C2 (fun y => 1 / 10 ^ 7 < y)). apply open_gt. exact Hb. }
      eapply filter_imp; [|exact L]. intros t Hq. symmetry. apply (exp_at_big (c t) wu). fold th. lra.
    + pose proof (is_derive_unique _ _ _ Hc) as U; assert (Ex : ex_derive c x) by (eexists; exact Hc).
      assert (D1 : is_derive (fun t => sin (c t * th) / th) x (c' * cos (c x * th))).
      { auto_derive; [repeat split; auto; lra|]. change (Derive (fun x => c x) x) with (Derive c x); rewrite U. field. lra. }
      assert (D2 : is_derive (fun t => (1 - cos (c t * th)) / (th * th)) x (c' * (sin (c x * th) / th))).
      { auto_derive; [repeat split; auto; nra|]. change (Derive (fun x => c x) x) with (Derive c x); rewrite U. field. lra. }
      assert (D3 : is_derive (fun t => (c t - sin (c t * th) / th) / (th * th)) x (c' * ((1 - cos (c x * th)) / (th * th)))).
      { auto_derive; [repeat split; auto; nra|]. change (Derive (fun x => c x) x) with (Derive c x); rewrite U. field. lra. }
      eapply m4_derive_eq; [exact (poly_derive wu _ _ _ _ _ _ _ _ _ _ _ D1 D2 Hc D2 D3)|].
      rewrite (exp_at_big (c x) wu) by (fold th; lra). cbv zeta. fold th.
      pose proof (skew_cube (fst wu)) as K. fold th in K.
      set (W := skew_x (fst wu)) in *. set (S1 := sin (c x * th)) in *. set (C1 := cos (c x * th)) in *.
      set (W2 := m3mul W W) in *.
      apply m4_ext; cbn [m4mul m4scal hat_se3 poly m4R m4t m4c]; fold W; fold W2.
      * transitivity (m3add (m3scal c' W) (m3add (m3scal (c' * (S1 / th)) W2) (m3scal (c' * ((1 - C1) / (th * th))) (m3mul W W2)))).
        -- rewrite K. clearbody W W2. apply m3_ext; simpl; field; lra.
        -- unfold W2. apply m3_ext; simpl; ring.
      * transitivity (v3add (v3add (v3scal c' (snd wu)) (v3scal (c' * c x) (m3v W (snd wu))))
          (v3add (v3scal (c' * ((1 - C1) / (th * th))) (m3v W2 (snd wu))) (v3scal (c' * ((c x - S1 / th) / (th * th))) (m3v (m3mul W W2) (snd wu))))).
        -- rewrite K. clearbody W W2. apply v3_ext; simpl; field; lra.
        -- unfold W2. apply v3_ext; simpl; ring.
      * ring.
  - assert (Hs : Rabs (c x) * v3norm (fst wu) < 1 / 10 ^ 7) by (rewrite H0, Rabs_R0, Rmult_0_l; lra).
    eapply m4_derive_eq; [exact (exp_at_small_derive c c' x wu Hc Hs)|].
    rewrite (exp_at_small _ _ Hs). rewrite H0.
    apply m4_ext; [apply m3_ext|apply v3_ext|]; simpl; field.
Qed.

Lemma exp_at_rot s wu : regular s (fst wu) -> is_rot (seR (exp_at s wu)).
Proof.
  intros H. unfold exp_at.
  assert (E : v3norm (v3scal s (fst wu)) = 0 \/ 1 / 10 ^ 7 <= v3norm (v3scal s (fst wu))).
  { rewrite v3norm_scal. destruct H as [->|[H| ->]]; [left; ring|right; lra|left; rewrite Rabs_R0; ring]. }
  destruct E as [E|E].
  - apply v3norm_zero in E. rewrite E, exp_se3_zero. simpl. apply is_rot_id.
  - rewrite exp_se3_eq by auto. simpl. apply exp_so3_is_rot. auto.
Qed.
