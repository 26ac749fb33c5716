(** The spline across its knots and inside the small-angle switch (C39). *)
From Coq Require Import Reals Lra Psatz Bool List.
From Coquelicot Require Import Coquelicot.
From Verif Require Import RBool Outcome GeoModel GeoSpec GeoProofs ExpProofs Se3Proofs JacSo3 Calc3 GeoMore EvalThms.
From Verif Require Import BsplModel BsplSpec BsplFind BsplDiff BsplSeg BsplThms.
Open Scope R_scope.

Lemma exp_log_se3 T : log_safe (seR T) -> exp_se3 (fst (log_se3 T)) (snd (log_se3 T)) = T.
Proof.
  intros (Hr & [Hi|(H1 & H2)]).
  - unfold log_se3. rewrite Hi, log_id, norm_v3zero.
    destruct (Rltb_spec 0 (1 / 10 ^ 10)); [|lra]. cbn [fst snd]. rewrite exp_se3_zero. destruct T as [r p]. simpl in *. subst r. reflexivity.
  - destruct (exp_log_so3 (seR T) Hr H1 H2) as (E & N).
    assert (Hc : -1 < (m3trace (seR T) - 1) / 2 < 1) by lra.
    pose proof (acos_range _ Hc) as Ht. rewrite <- N in Ht.
    unfold log_se3. set (w := log_so3 (seR T)) in *.
    assert (C : cos (v3norm w) = (m3trace (seR T) - 1) / 2) by (rewrite N; apply cos_acos; lra).
    assert (Hbig : 1 / 10 ^ 7 <= v3norm w).
    { pose proof (one_minus_cos_le (v3norm w)) as B. rewrite C in B. specialize (B ltac:(lra)).
      destruct (Rle_or_lt (1 / 10 ^ 7) (v3norm w)) as [L|L]; auto.
      assert (v3norm w * v3norm w <= 1 * v3norm w) by (apply Rmult_le_compat_r; lra). lra. }
    destruct (Rltb_spec (v3norm w) (1 / 10 ^ 10)); [lra|]. cbn [fst snd].
    rewrite exp_se3_eq by auto. destruct T as [r p]. cbn [seR set_] in *. f_equal; [exact E|].
    pose proof (tan_half (v3norm w) ltac:(lra)) as T2.
    assert (S0 : 0 < sin (v3norm w)) by (apply sin_gt_0; lra).
    rewrite T2. clear T2.
    pose proof (v3norm_sq w) as Sq. pose proof (sin2_cos2 (v3norm w)) as SC; unfold Rsqr in SC. clear C N E Hc H1 H2 Hr.
    set (t := v3norm w) in *. clearbody t.
    set (B := (1 - cos t) / (t * t)). set (Cc := (1 - sin t / t) / (t * t)).
    set (g := (1 - t / (2 * (1 - cos t) / sin t)) / (t * t)).
    assert (Hcos : cos t < 1).
    { pose proof (COS_bound t). destruct (Req_dec (cos t) 1) as [Q|Q]; [rewrite Q in SC; nra|lra]. }
    transitivity (m3v (m3mul (rodrigues w B Cc) (rodrigues w (- (1/2)) g)) p).
    + rewrite m3v_mul. f_equal.
      assert (E2 : g = (1 - t / (2 * (1 - cos t) / sin t)) * (1/t) * (1/t)) by (unfold g; field; lra).
      rewrite E2. set (k := 1 - t / (2 * (1 - cos t) / sin t)).
      apply v3_ext; simpl; field; lra.
    + rewrite rod_mul. replace (rodrigues w _ _) with m3id; [apply m3v_id|].
      rewrite <- (rod_id w). rewrite <- Sq. unfold g, B, Cc. f_equal.
      * field_simplify_eq; [|lra]. replace (sin t ^ 2) with (1 - cos t * cos t) by (simpl; lra). ring.
      * field_simplify_eq; [|lra]. replace (sin t ^ 2) with (1 - cos t * cos t) by (simpl; lra). ring.
Qed.

(** the first factor of a segment has reached the second control pose at its end *)
Lemma seg_joined a b : is_rot (seR a) -> log_safe (m3mul (m3tr (seR a)) (seR b)) -> se3mul a (exp_at 1 (seg a b)) = b.
Proof.
  intros Ha Hs. unfold exp_at. replace (v3scal 1 (fst (seg a b))) with (fst (seg a b)) by (apply v3_ext; simpl; ring).
  replace (v3scal 1 (snd (seg a b))) with (snd (seg a b)) by (apply v3_ext; simpl; ring).
  unfold seg. rewrite exp_log_se3 by exact Hs. rewrite <- se3mul_assoc, Inv_se3_r by exact Ha. apply se3mul_id_l.
Qed.

Lemma m4of_mul a b : m4of (se3mul a b) = m4mul (m4of a) (m4of b).
Proof. apply m4_ext; simpl; [reflexivity| |ring]. apply v3_ext; simpl; ring. Qed.
Definition m4id := M4 m3id v3zero 1.
Lemma m4mul_id_r a : m4mul a m4id = a.
Proof. m4ring. Qed.
Lemma m4scal_0 a : m4scal 0 a = m4zero.
Proof. m4ring. Qed.
Lemma m4mul_0_l a : m4mul m4zero a = m4zero.
Proof. m4ring. Qed.
Lemma m4mul_0_r a : m4mul a m4zero = m4zero.
Proof. m4ring. Qed.
Lemma m4add_0_l a : m4add m4zero a = a.
Proof. m4ring. Qed.
Lemma m4add_0_r a : m4add a m4zero = a.
Proof. m4ring. Qed.
Lemma m4scal_zero k : m4scal k m4zero = m4zero.
Proof. m4ring. Qed.
Lemma m4mul_scal_r k a b : m4mul a (m4scal k b) = m4scal k (m4mul a b).
Proof. m4ring. Qed.
Lemma m4scal_comm j k a : m4scal j (m4scal k a) = m4scal k (m4scal j a).
Proof. m4ring. Qed.
Lemma exp_at_0 o : m4of (exp_at 0 o) = m4id.
Proof.
  unfold exp_at. replace (v3scal 0 (fst o)) with v3zero by (apply v3_ext; simpl; ring). rewrite exp_se3_zero.
  apply m4_ext; simpl; auto. apply v3_ext; simpl; ring.
Qed.

Lemma basis_ends DT : DT <> 0 ->
  (cb0 1 = 1 /\ cb1 1 = cb0 0 /\ cb2 1 = cb1 0 /\ cb2 0 = 0) /\
  (cb0dot DT 1 = 0 /\ cb1dot DT 1 = cb0dot DT 0 /\ cb2dot DT 1 = cb1dot DT 0 /\ cb2dot DT 0 = 0) /\
  (cb0dd DT 1 = 0 /\ cb1dd DT 1 = cb0dd DT 0 /\ cb2dd DT 1 = cb1dd DT 0 /\ cb2dd DT 0 = 0).
Proof.
  intros H. unfold cb0, cb1, cb2, cb0dot, cb1dot, cb2dot, cb0dd, cb1dd, cb2dd.
  repeat split; field; auto.
Qed.

(** pose, velocity and acceleration of neighbouring segments agree at the knot between them *)
Lemma knot_agree z a o0 o1 o2 o3 DT : DT <> 0 -> se3mul z (exp_at 1 o0) = a ->
  interp_pose z o0 o1 o2 1 = interp_pose a o1 o2 o3 0 /\
  interp_vel z o0 o1 o2 DT 1 = interp_vel a o1 o2 o3 DT 0 /\
  interp_acc z o0 o1 o2 DT 1 = interp_acc a o1 o2 o3 DT 0.
Proof.
  intros HD Hj. destruct (basis_ends DT HD) as ((E1 & E2 & E3 & E4) & (F1 & F2 & F3 & F4) & (G1 & G2 & G3 & G4)).
  rewrite interp_pose_assoc, interp_pose_assoc. unfold interp_vel, interp_acc. cbv zeta.
  rewrite E1, E2, E3, E4, F1, F2, F3, F4, G1, G2, G3, G4. rewrite !exp_at_0. rewrite <- Hj, m4of_mul.
  set (Z := m4of z). set (X := m4of (exp_at 1 o0)). set (Y := m4of (exp_at (cb0 0) o1)). set (W := m4of (exp_at (cb1 0) o2)).
  set (h0 := hat_se3 o0). set (h1 := hat_se3 o1). set (h2 := hat_se3 o2). set (h3 := hat_se3 o3).
  rewrite !m4scal_0, !m4mul_0_l, ?m4scal_zero, ?m4mul_0_l, ?m4mul_0_r, ?m4add_0_l, ?m4add_0_r, ?m4mul_0_l, ?m4add_0_l, ?m4mul_id_r.
  split; [|split].
  - rewrite !m4mul_assoc. reflexivity.
  - rewrite ?m4mul_0_l, ?m4mul_0_r, ?m4add_0_l, ?m4add_0_r, ?m4mul_id_r. rewrite !m4mul_add_r, !m4mul_assoc. reflexivity.
  - rewrite ?m4mul_0_l, ?m4mul_0_r, ?m4add_0_l, ?m4add_0_r, ?m4mul_id_r.
    rewrite ?m4mul_add_r, ?m4mul_add_l, ?m4mul_add_r, ?m4mul_scal_l, ?m4mul_scal_r, ?m4mul_assoc, ?m4mul_scal_l, ?m4mul_scal_r.
    rewrite ?m4mul_0_l, ?m4mul_0_r, ?m4scal_zero, ?m4add_0_l, ?m4add_0_r. rewrite ?m4mul_assoc.
    f_equal. f_equal. apply m4scal_comm.
Qed.

(** gluing two curves that agree to first order *)
Lemma glue_derive (f g1 g2 : R -> R) t D : is_derive g1 t D -> is_derive g2 t D -> g1 t = g2 t ->
  locally t (fun s => (s < t -> f s = g1 s) /\ (t <= s -> f s = g2 s)) -> is_derive f t D.
Proof.
  intros D1 D2 E (eps & L). apply is_derive_Reals. apply is_derive_Reals in D1. apply is_derive_Reals in D2.
  intros e He. destruct (D1 e He) as (d1 & H1). destruct (D2 e He) as (d2 & H2).
  assert (Hm : 0 < Rmin eps (Rmin d1 d2)) by (apply Rmin_pos; [apply cond_pos|apply Rmin_pos; apply cond_pos]).
  exists (mkposreal _ Hm). intros h Hh Hd. simpl in Hd.
  pose proof (Rmin_l eps (Rmin d1 d2)). pose proof (Rmin_r eps (Rmin d1 d2)).
  pose proof (Rmin_l d1 d2). pose proof (Rmin_r d1 d2).
  assert (Lt : f t = g2 t).
  { apply L; [apply ball_center|lra]. }
  assert (B : ball t eps (t + h)).
  { unfold ball; simpl; unfold AbsRing_ball, abs, minus, plus, opp; simpl. replace (t + h + - t) with h by ring. lra. }
  destruct (L (t + h) B) as (L1 & L2).
  destruct (Rlt_or_le h 0) as [Q|Q].
  - rewrite (L1 ltac:(lra)), Lt, <- E. apply H1; auto. lra.
  - rewrite (L2 ltac:(lra)), Lt. apply H2; auto. lra.
Qed.
Lemma glue_proj {X} (pr : X -> R) (f g1 g2 : R -> X) t D : g1 t = g2 t ->
  locally t (fun s => (s < t -> f s = g1 s) /\ (t <= s -> f s = g2 s)) ->
  is_derive (fun s => pr (g1 s)) t D -> is_derive (fun s => pr (g2 s)) t D -> is_derive (fun s => pr (f s)) t D.
Proof.
  intros E L A B. apply (glue_derive _ _ _ _ _ A B); [cbv beta; rewrite E; reflexivity|].
  eapply filter_imp; [|exact L]. intros s (L1 & L2). split; intros Hs; [rewrite (L1 Hs)|rewrite (L2 Hs)]; reflexivity.
Qed.
Lemma glue_v3 (f g1 g2 : R -> v3) t D : v3_derive g1 t D -> v3_derive g2 t D -> g1 t = g2 t ->
  locally t (fun s => (s < t -> f s = g1 s) /\ (t <= s -> f s = g2 s)) -> v3_derive f t D.
Proof.
  intros (A0 & A1 & A2) (B0 & B1 & B2) E L.
  split; [exact (glue_proj vx f g1 g2 t _ E L A0 B0)|split; [exact (glue_proj vy f g1 g2 t _ E L A1 B1)|exact (glue_proj vz f g1 g2 t _ E L A2 B2)]].
Qed.
Lemma glue_m3 (f g1 g2 : R -> m3) t D : m3_derive g1 t D -> m3_derive g2 t D -> g1 t = g2 t ->
  locally t (fun s => (s < t -> f s = g1 s) /\ (t <= s -> f s = g2 s)) -> m3_derive f t D.
Proof.
  intros (A0 & A1 & A2 & A3 & A4 & A5 & A6 & A7 & A8) (B0 & B1 & B2 & B3 & B4 & B5 & B6 & B7 & B8) E L.
  split9.
  - exact (glue_proj m00 f g1 g2 t _ E L A0 B0).
  - exact (glue_proj m01 f g1 g2 t _ E L A1 B1).
  - exact (glue_proj m02 f g1 g2 t _ E L A2 B2).
  - exact (glue_proj m10 f g1 g2 t _ E L A3 B3).
  - exact (glue_proj m11 f g1 g2 t _ E L A4 B4).
  - exact (glue_proj m12 f g1 g2 t _ E L A5 B5).
  - exact (glue_proj m20 f g1 g2 t _ E L A6 B6).
  - exact (glue_proj m21 f g1 g2 t _ E L A7 B7).
  - exact (glue_proj m22 f g1 g2 t _ E L A8 B8).
Qed.

(** five neighbouring control points, the time of the third being [t] *)
Definition knot (t : R) (l : pmap) (z a b c d : R * se3) : Prop :=
  exists l1 l2, l = app l1 (z :: a :: b :: c :: d :: l2) /\ fst b = t.

Lemma knot_sides t l z a b c d : by_time l -> knot t l z a b c d ->
  around t l a b c d /\ fst a < fst b /\ fst b < fst c /\
  locally t (fun s => (s < t -> around s l z a b c) /\ (t <= s -> around s l a b c d)).
Proof.
  intros Hs (l1 & l2 & E & Hb). pose proof Hs as Hs'. rewrite E in Hs'. apply by_time_app in Hs' as (_ & Hs' & _).
  inversion Hs' as [|? ? H1 F1]; subst. inversion H1 as [|? ? H2 F2]; subst. inversion H2 as [|? ? H3 F3]; subst.
  inversion F2; subst. inversion F3; subst.
  assert (A : forall s, fst b <= s < fst c -> around s (app l1 (z :: a :: b :: c :: d :: l2)) a b c d).
  { intros s Q. exists (app l1 (z :: nil)), l2. split; [rewrite <- app_assoc; reflexivity|exact Q]. }
  split; [apply A; lra|]. split; [auto|]. split; [auto|].
  assert (L1 : locally (fst b) (fun s => fst a < s)) by (apply open_gt; auto).
  assert (L2 : locally (fst b) (fun s => s < fst c)) by (apply open_lt; auto).
  eapply filter_imp; [|exact (filter_and _ _ L1 L2)]. intros s (Q1 & Q2). split; intros Q.
  - exists l1, (d :: l2). split; [reflexivity|lra].
  - apply A. lra.
Qed.

Definition knot_ok (z a b c d : R * se3) : Prop :=
  fst b - fst a = fst c - fst b /\ is_rot (seR (snd z)) /\ log_safe (m3mul (m3tr (seR (snd z))) (seR (snd a))) /\
  clear_of_switch z a b c (fst b) /\ clear_of_switch a b c d (fst b).

Lemma knot_values z a b c d : fst a < fst b -> knot_ok z a b c d ->
  seg_pose z a b c (fst b) = seg_pose a b c d (fst b) /\ seg_vel z a b c (fst b) = seg_vel a b c d (fst b) /\
  seg_acc z a b c (fst b) = seg_acc a b c d (fst b).
Proof.
  intros Hab (HD & Hz & Hl & _). unfold seg_pose, seg_vel, seg_acc. rewrite <- HD.
  replace ((fst b - fst a) / (fst b - fst a)) with 1 by (field; lra).
  replace ((fst b - fst b) / (fst b - fst a)) with 0 by (field; lra).
  apply knot_agree; [lra|]. apply seg_joined; auto.
Qed.

Lemma velocity_knot l z a b c d t Rf pf old ok R p w v :
  by_time l -> knot t l z a b c d -> knot_ok z a b c d -> pose_curve l Rf pf ->
  get_velocity l t old = Ok (ok, (R, p), (w, v)) ->
  ok = true /\ R = Rf t /\ p = pf t /\ v3_derive pf t v /\
  is_rot R /\ m3_derive (fun s => m3tr (Rf s)) t (m3mul (m3tr R) (skew_x w)).
Proof.
  intros Hs Hk Ho Hp Hv. destruct (knot_sides t l z a b c d Hs Hk) as (Ha & Hab & Hbc & L).
  assert (Eb : fst b = t) by (destruct Hk as (? & ? & _ & Q); exact Q).
  destruct (knot_values z a b c d Hab Ho) as (V1 & V2 & _).
  pose proof Ho as (HD & Hz & Hl & C1 & C2). rewrite Eb in V1, V2, C1, C2.
  rewrite (get_velocity_around l t old a b c d Hs Ha) in Hv.
  apply ok_inj in Hv. apply pair_inj in Hv as (Hv & Hw). apply pair_inj in Hv as (<- & Hv). apply pair_inj in Hv as (<- & <-). apply pair_inj in Hw as (<- & <-).
  assert (Hq : forall s a b c d, around s l a b c d -> Rf s = m3tr (m4R (seg_pose a b c d s)) /\ pf s = m4t (seg_pose a b c d s)).
  { intros s a0 b0 c0 d0 Hq. destruct (Hp s) as (ok' & E). rewrite (get_pose_around l s a0 b0 c0 d0 Hs Hq) in E.
    apply ok_inj in E. apply pair_inj in E as (_ & E). apply pair_inj in E as (<- & <-). auto. }
  destruct (seg_pose_derive z a b c t Hab C1) as (D1 & D2 & _).
  destruct (seg_pose_derive a b c d t Hbc C2) as (F1 & F2 & _). rewrite V2 in D1, D2.
  destruct (Hq t a b c d Ha) as (E1 & E2).
  assert (Hrz : is_rot (m4R (seg_pose a b c d t))).
  { rewrite <- V1. apply (interp_vel_skew _ _ _ _ 1 _ Hz C1). }
  assert (Hrate : m4R (seg_vel a b c d t) = m3mul (m4R (seg_pose a b c d t)) (skew_x (vee (m3mul (m3tr (m4R (seg_pose a b c d t))) (m4R (seg_vel a b c d t)))))).
  { rewrite <- V1, <- V2. apply (interp_rate _ _ _ _ _ _ Hz C1). }
  split; [reflexivity|]. split; [auto|]. split; [auto|]. split; [|split].
  - eapply glue_v3; [exact D2|exact F2|cbv beta; rewrite V1; reflexivity|].
    eapply filter_imp; [|exact L]. intros s (L1 & L2). split; intros Q; [exact (proj2 (Hq s _ _ _ _ (L1 Q)))|exact (proj2 (Hq s _ _ _ _ (L2 Q)))].
  - apply is_rot_tr. exact Hrz.
  - rewrite m3tr_tr. rewrite Hrate in D1, F1. eapply glue_m3; [exact D1|exact F1|cbv beta; rewrite V1; reflexivity|].
    eapply filter_imp; [|exact L]. intros s (L1 & L2). split; intros Q.
    + rewrite (proj1 (Hq s _ _ _ _ (L1 Q))), m3tr_tr. reflexivity.
    + rewrite (proj1 (Hq s _ _ _ _ (L2 Q))), m3tr_tr. reflexivity.
Qed.

Lemma acceleration_knot l z a b c d t wf vf old oldv ok rp w v al ac :
  by_time l -> knot t l z a b c d -> knot_ok z a b c d -> is_rot (seR (snd a)) -> rate_curve l old wf vf ->
  get_acceleration l t old oldv = Ok (ok, rp, (w, v), (al, ac)) ->
  ok = true /\ get_velocity l t old = Ok (true, rp, (w, v)) /\ v = vf t /\ w = wf t /\
  v3_derive vf t ac /\ v3_derive wf t al.
Proof.
  intros Hs Hk Ho Hra Hp Hv. destruct (knot_sides t l z a b c d Hs Hk) as (Ha & Hab & Hbc & L).
  assert (Eb : fst b = t) by (destruct Hk as (? & ? & _ & Q); exact Q).
  destruct (knot_values z a b c d Hab Ho) as (V1 & V2 & V3).
  pose proof Ho as (HD & Hz & Hl & C1 & C2). rewrite Eb in V1, V2, V3, C1, C2.
  rewrite (get_acceleration_around l t old oldv a b c d Hs Ha) in Hv.
  apply ok_inj in Hv. apply pair_inj in Hv as (Hv & Hx). apply pair_inj in Hv as (Hv & Hw). apply pair_inj in Hv as (<- & <-).
  apply pair_inj in Hw as (<- & <-). apply pair_inj in Hx as (<- & <-).
  assert (Hq : forall s a b c d, around s l a b c d ->
     wf s = vee (m3mul (m3tr (m4R (seg_pose a b c d s))) (m4R (seg_vel a b c d s))) /\ vf s = m4t (seg_vel a b c d s)).
  { intros s a0 b0 c0 d0 Hq. destruct (Hp s) as (ok' & rp' & E). rewrite (get_velocity_around l s old a0 b0 c0 d0 Hs Hq) in E.
    apply ok_inj in E. apply pair_inj in E as (_ & E). apply pair_inj in E as (<- & <-). auto. }
  destruct (seg_vel_derive z a b c t Hab C1) as (_ & D2 & _).
  destruct (seg_vel_derive a b c d t Hbc C2) as (_ & F2 & _). rewrite V3 in D2.
  destruct (Hq t a b c d Ha) as (E1 & E2).
  split; [reflexivity|]. split; [apply (get_velocity_around l t old a b c d Hs Ha)|]. split; [auto|]. split; [auto|]. split.
  - eapply glue_v3; [exact D2|exact F2|cbv beta; rewrite V2; reflexivity|].
    eapply filter_imp; [|exact L]. intros s (L1 & L2). split; intros Q; [exact (proj2 (Hq s _ _ _ _ (L1 Q)))|exact (proj2 (Hq s _ _ _ _ (L2 Q)))].
  - assert (G1 : v3_derive (fun s => vee (m3mul (m3tr (m4R (seg_pose z a b c s))) (m4R (seg_vel z a b c s)))) t
       (vee (m3mul (m3tr (m4R (seg_pose z a b c t))) (m3sub (m4R (seg_acc z a b c t)) (m3mul (m4R (seg_vel z a b c t)) (m3mul (m3tr (m4R (seg_pose z a b c t))) (m4R (seg_vel z a b c t)))))))).
    { unfold seg_pose, seg_vel, seg_acc. refine (interp_rate_derive _ _ _ _ (fst a) (fst b - fst a) t _ Hz C1). lra. }
    assert (G2 : v3_derive (fun s => vee (m3mul (m3tr (m4R (seg_pose a b c d s))) (m4R (seg_vel a b c d s)))) t
       (vee (m3mul (m3tr (m4R (seg_pose a b c d t))) (m3sub (m4R (seg_acc a b c d t)) (m3mul (m4R (seg_vel a b c d t)) (m3mul (m3tr (m4R (seg_pose a b c d t))) (m4R (seg_vel a b c d t)))))))).
    { unfold seg_pose, seg_vel, seg_acc. refine (interp_rate_derive _ _ _ _ (fst b) (fst c - fst b) t _ Hra C2). lra. }
    rewrite V1, V2, V3 in G1.
    eapply glue_v3; [exact G1|exact G2|cbv beta; rewrite V1, V2; reflexivity|].
    eapply filter_imp; [|exact L]. intros s (L1 & L2). split; intros Q; [exact (proj1 (Hq s _ _ _ _ (L1 Q)))|exact (proj1 (Hq s _ _ _ _ (L2 Q)))].
Qed.
