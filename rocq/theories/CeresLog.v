(** The derivative of log_so3 (for C91).  Mathematics only, no model of repository code. *)
From Coq Require Import Reals List Bool Arith Lia Lra Psatz.
From Coquelicot Require Import Coquelicot.
From Verif Require CamProofs.
From Verif Require Import RBool Outcome GeoModel GeoSpec GeoProofs ExpProofs ExpSeries Se3Proofs JacSo3 Calc3 Lin TypesModel ManifoldSpec EvalThms CamSpec PropModel PropDisc CeresModel CeresSpec.
Open Scope R_scope.

Lemma skew_inj u v : skew_x u = skew_x v -> u = v.
Proof.
  intros H. apply v3_ext; [exact (f_equal m21 H)|exact (f_equal m02 H)|exact (f_equal m10 H)].
Qed.
Lemma der_acos (f : R -> R) x a : -1 < f x < 1 -> is_derive f x a -> exists b, is_derive (fun t => acos (f t)) x b.
Proof.
  intros H D. destruct (derivable_pt_acos (f x) H) as (l & Hl). exists (a * l).
  apply (is_derive_comp acos f x l a); [|exact D]. apply is_derive_Reals. exact Hl.
Qed.
Lemma log_form r : 1 / 10 ^ 10 <= m3trace r + 1 -> log_so3 r =
  v3scal (if Rltb (m3trace r - 3) (- (1 / 10 ^ 7)) then acos ((m3trace r - 1) / 2) / (2 * sin (acos ((m3trace r - 1) / 2))) else 1 / 2 - (m3trace r - 3) / 12)
    (V3 (m21 r - m12 r) (m02 r - m20 r) (m10 r - m01 r)).
Proof. intros H. unfold log_so3. destruct (Rltb_spec (m3trace r + 1) (1 / 10 ^ 10)); [lra|]. reflexivity. Qed.
Lemma trace_derive f x D : m3_derive f x D -> is_derive (fun t => m3trace (f t)) x (m3trace D).
Proof. intros (A & _ & _ & _ & B & _ & _ & _ & C). unfold m3trace. apply der_plus; [apply der_plus|]; assumption. Qed.
Lemma axis_derive f x D : m3_derive f x D ->
  v3_derive (fun t => V3 (m21 (f t) - m12 (f t)) (m02 (f t) - m20 (f t)) (m10 (f t) - m01 (f t))) x (V3 (m21 D - m12 D) (m02 D - m20 D) (m10 D - m01 D)).
Proof. intros (A00 & A01 & A02 & A10 & A11 & A12 & A20 & A21 & A22). split; [|split]; cbn [vx vy vz]; apply der_minus; assumption. Qed.
Lemma derive_near (f : R -> R) x l c : is_derive f x l -> f x < c -> locally x (fun t => f t < c).
Proof. intros D H. assert (C : continuous f x) by (apply (ex_derive_continuous f); exists l; exact D). apply (C (fun v => v < c)). exact (open_lt c _ H). Qed.
Lemma derive_near' (f : R -> R) x l c : is_derive f x l -> c < f x -> locally x (fun t => c < f t).
Proof. intros D H. assert (C : continuous f x) by (apply (ex_derive_continuous f); exists l; exact D). apply (C (fun v => c < v)). exact (open_gt c _ H). Qed.

Lemma neg_norm w : v3norm (v3neg w) = v3norm w.
Proof. unfold v3norm, v3dot. f_equal. cbn. ring. Qed.
Lemma big_norm r : is_rot r -> 1 / 10 ^ 10 <= m3trace r + 1 -> m3trace r - 3 < - (1 / 10 ^ 7) ->
  3 / 10 ^ 4 < v3norm (log_so3 r) < PI.
Proof.
  intros Hr H1 H2. destruct (exp_log_so3 r Hr H1 H2) as (_ & N).
  assert (Hc : -1 < (m3trace r - 1) / 2 < 1) by lra.
  pose proof (acos_range _ Hc) as Ht. rewrite <- N in Ht. split; [|lra].
  assert (C : cos (v3norm (log_so3 r)) = (m3trace r - 1) / 2) by (rewrite N; apply cos_acos; lra).
  pose proof (one_minus_cos_le (v3norm (log_so3 r))) as B. rewrite C in B. specialize (B ltac:(lra)).
  destruct (Rlt_or_le (3 / 10 ^ 4) (v3norm (log_so3 r))) as [L|L]; auto.
  assert (v3norm (log_so3 r) * v3norm (log_so3 r) <= 3 / 10 ^ 4 * (3 / 10 ^ 4)) by (apply Rmult_le_compat; lra). lra.
Qed.
Lemma log_inside_exp r : is_rot r -> log_inside r -> exp_so3 (log_so3 r) = r /\ v3norm (log_so3 r) < PI /\ (log_so3 r = v3zero \/ 3 / 10 ^ 4 < v3norm (log_so3 r)).
Proof.
  intros Hr [->|(H1 & H2)].
  - rewrite log_id. split; [|split; [rewrite norm_v3zero; apply PI_RGT_0|left; reflexivity]].
    unfold exp_so3. rewrite norm_v3zero. unfold Reqb. destruct (Req_EM_T 0 0); [reflexivity|lra].
  - destruct (exp_log_so3 r Hr ltac:(lra) H2) as (E & _). pose proof (big_norm r Hr ltac:(lra) H2). split; [exact E|]. split; [apply H|right; apply H].
Qed.
(** the determinant of the right Jacobian *)
Lemma m3inv_l A : m3det A <> 0 -> m3mul (m3inv A) A = m3id.
Proof. intros H. unfold m3inv. cbv zeta. set (d := m3det A) in *. assert (E : m3det A = d) by reflexivity. clearbody d. unfold m3det in E. apply m3_ext; cbn; field_simplify_eq; auto; rewrite <- E; ring. Qed.
Lemma Jl_det w : 1 / 10 ^ 6 <= v3norm w -> m3det (Jl_so3 w) = 2 * (1 - cos (v3norm w)) / (v3norm w * v3norm w).
Proof.
  intros H. unfold Jl_so3. set (t := v3norm w) in *. cbv zeta. destruct (Rltb_spec t (1 / 10 ^ 6)); [lra|].
  pose proof (v3norm_sq w) as Q. fold t in Q. unfold v3dot in Q. clearbody t.
  assert (T0 : t <> 0) by (intros Z; rewrite Z in H; lra).
  set (a := v3div w t).
  assert (A : vx a * vx a + vy a * vy a + vz a * vz a = 1).
  { unfold a. cbn. replace (vx w / t * (vx w / t) + vy w / t * (vy w / t) + vz w / t * (vz w / t)) with ((vx w * vx w + vy w * vy w + vz w * vz w) / (t * t)) by (field; auto). rewrite <- Q. field. auto. }
  clearbody a. set (s := sin t / t). set (c := (1 - cos t) / t).
  assert (SC : s * s + c * c = 2 * (1 - cos t) / (t * t)).
  { unfold s, c. pose proof (sin2_cos2 t) as P. unfold Rsqr in P. replace (sin t / t * (sin t / t)) with (sin t * sin t / (t * t)) by (field; auto). replace (sin t * sin t) with (1 - cos t * cos t) by lra. field. auto. }
  rewrite <- SC. clearbody s c. unfold m3det. cbn.
  set (p := vx a * vx a) in *.
  assert (E : forall n, n = 1 -> (s * s * s + (1 - s) * n * s * s + s * c * c * n + (1 - s) * c * c * n * n) = s * s + c * c) by (intros n ->; ring).
  rewrite <- (E _ A). unfold p. ring.
Qed.
Lemma log_derive (W : R -> m3) (v : v3) : (forall s, is_rot (W s)) -> m3_derive W 0 (m3mul (W 0) (skew_x v)) -> log_inside (W 0) ->
  v3_derive (fun s => log_so3 (W s)) 0 (m3v (m3inv (Jr_so3 (log_so3 (W 0)))) v).
Proof.
  intros HR DW HI. pose proof (trace_derive _ _ _ DW) as DT. pose proof (axis_derive _ _ _ DW) as DA.
  destruct HI as [HI|(H1 & H2)].
  - (* at the identity *)
    assert (L : locally 0 (fun s => log_so3 (W s) = v3scal (1 / 2 - (m3trace (W s) - 3) / 12) (V3 (m21 (W s) - m12 (W s)) (m02 (W s) - m20 (W s)) (m10 (W s) - m01 (W s))))).
    { assert (T0 : m3trace (W 0) = 3) by (rewrite HI; unfold m3trace; cbn; ring).
      pose proof (derive_near' (fun s => m3trace (W s)) 0 _ (3 - 1 / 10 ^ 7) DT) as N. cbv beta in N. specialize (N ltac:(rewrite T0; lra)).
      generalize N. apply filter_imp. intros s Hs. rewrite log_form by lra. destruct (Rltb_spec (m3trace (W s) - 3) (- (1 / 10 ^ 7))); [lra|reflexivity]. }
    apply (v3_derive_ext_loc (fun s => v3scal (1 / 2 - (m3trace (W s) - 3) / 12) (V3 (m21 (W s) - m12 (W s)) (m02 (W s) - m20 (W s)) (m10 (W s) - m01 (W s))))).
    { generalize L. apply filter_imp. intros s ->. reflexivity. }
    eapply v3_derive_eq.
    + apply (v3d_scalf (fun s => 1 / 2 - (m3trace (W s) - 3) / 12)); [|exact DA].
      apply der_minus; [apply der_const|]. apply (der_div (fun s => m3trace (W s) - 3) (fun _ => 12)); [lra| |apply der_const]. apply der_minus; [exact DT|apply der_const].
    + cbv beta. rewrite HI. rewrite log_id. unfold Jr_so3, Jl_so3. replace (v3neg v3zero) with v3zero by (apply v3_ext; cbn; ring). rewrite norm_v3zero. destruct (Rltb_spec 0 (1 / 10 ^ 6)); [|lra].
      unfold m3trace, m3inv, m3det. apply v3_ext; cbn; field.
  - (* inside *)
    assert (Hc : -1 < (m3trace (W 0) - 1) / 2 < 1) by lra.
    assert (L : locally 0 (fun s => 1 / 10 ^ 10 < m3trace (W s) + 1 /\ m3trace (W s) - 3 < - (1 / 10 ^ 7))).
    { pose proof (derive_near' (fun s => m3trace (W s)) 0 _ (1 / 10 ^ 10 - 1) DT) as N1. pose proof (derive_near (fun s => m3trace (W s)) 0 _ (3 - 1 / 10 ^ 7) DT) as N2. cbv beta in N1, N2.
      specialize (N1 ltac:(lra)). specialize (N2 ltac:(lra)). generalize (filter_and _ _ N1 N2). apply filter_imp. intros s (A & B). lra. }
    assert (EX : exists w', v3_derive (fun s => log_so3 (W s)) 0 w').
    { destruct (der_acos (fun s => (m3trace (W s) - 1) / 2) 0 (m3trace (m3mul (W 0) (skew_x v)) / 2) Hc) as (b & Hb).
      { eapply is_derive_eq; [apply (der_div (fun s => m3trace (W s) - 1) (fun _ => 2)); [lra|apply der_minus; [exact DT|apply der_const]|apply der_const]|]. cbv beta. field. }
      assert (S0 : 0 < sin (acos ((m3trace (W 0) - 1) / 2))). { pose proof (acos_range _ Hc). apply sin_gt_0; lra. }
      eexists. apply (v3_derive_ext_loc (fun s => v3scal (acos ((m3trace (W s) - 1) / 2) / (2 * sin (acos ((m3trace (W s) - 1) / 2)))) (V3 (m21 (W s) - m12 (W s)) (m02 (W s) - m20 (W s)) (m10 (W s) - m01 (W s))))).
      { generalize L. apply filter_imp. intros s (A & B). symmetry. rewrite log_form by lra. destruct (Rltb_spec (m3trace (W s) - 3) (- (1 / 10 ^ 7))); [reflexivity|lra]. }
      apply (v3d_scalf (fun s => acos ((m3trace (W s) - 1) / 2) / (2 * sin (acos ((m3trace (W s) - 1) / 2))))); [|exact DA].
      apply (der_div (fun s => acos ((m3trace (W s) - 1) / 2)) (fun s => 2 * sin (acos ((m3trace (W s) - 1) / 2)))); [lra|exact Hb|].
      apply (der_mult (fun _ => 2)); [apply der_const|]. apply (is_derive_comp sin (fun s => acos ((m3trace (W s) - 1) / 2))); [apply is_derive_Reals; apply derivable_pt_lim_sin|exact Hb]. }
    destruct EX as (w' & DL).
    destruct (exp_log_so3 (W 0) (HR 0) ltac:(lra) H2) as (E0 & _).
    pose proof (big_norm (W 0) (HR 0) ltac:(lra) H2) as (B1 & B2). set (w := log_so3 (W 0)) in *.
    pose proof (exp_so3_curve (fun s => log_so3 (W s)) w' DL) as DE. cbv beta in DE. fold w in DE. specialize (DE ltac:(lra)). rewrite E0 in DE.
    assert (DE' : m3_derive W 0 (m3mul (skew_x (m3v (Jl_so3 w) w')) (W 0))).
    { apply (m3_derive_ext_loc (fun s => exp_so3 (log_so3 (W s)))); [|exact DE]. generalize L. apply filter_imp. intros s (A & B). apply (exp_log_so3 (W s) (HR s)); lra. }
    pose proof (m3_derive_unique _ _ _ _ DW DE') as U.
    assert (RW : is_rot (W 0)) by apply HR. rewrite (rot_skew _ _ RW) in U. destruct RW as (O1 & O2 & _).
    assert (K : m3v (W 0) v = m3v (Jl_so3 w) w').
    { apply skew_inj. apply (f_equal (fun M => m3mul M (m3tr (W 0)))) in U. rewrite !m3mul_assoc, O1, !m3mul_id_r in U. exact U. }
    rewrite <- (exp_Jr w), E0, m3v_mul in K by lra. apply (f_equal (m3v (m3tr (W 0)))) in K. 
    assert (X : forall u, m3v (m3tr (W 0)) (m3v (W 0) u) = u) by (intros; rewrite <- m3v_mul, O2; apply m3v_id). rewrite !X in K.
    rewrite K. replace (m3v (m3inv (Jr_so3 w)) (m3v (Jr_so3 w) w')) with w'; [exact DL|]. rewrite <- m3v_mul, m3inv_l; [rewrite m3v_id; reflexivity|].
    unfold Jr_so3. rewrite Jl_det; rewrite neg_norm; [|lra].
    assert (0 < 1 - cos (v3norm w)). { assert (cos (v3norm w) < cos 0) by (apply cos_decreasing_1; lra). rewrite cos_0 in H. lra. }
    apply Rgt_not_eq. apply Rdiv_lt_0_compat; nra.
Qed.
