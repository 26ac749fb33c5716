(** The error metrics as angles and distances, and the alignments that use one pose. *)
From Coq Require Import Reals List Arith Bool Lia Lra Sorted Permutation.
From Verif Require Import RBool Outcome GeoModel GeoSpec GeoProofs ExpProofs GeoMore EulerProofs InitModel InitSpec EvalModel EvalSpec EvalProofs EvalStats EvalAlign EvalAlign2 EvalThms.
Import ListNotations.
Open Scope R_scope.

Lemma cos_small_inv x t : 0 <= x <= PI -> 0 < t <= 1 -> 1 - t * t / 4 <= cos x -> x <= t.
Proof.
  intros Hx Ht Hc. destruct (Rle_or_lt x t) as [L|L]; [exact L|]. exfalso.
  pose proof PI2_1. assert (cos x < cos t) by (apply cos_decreasing_1; lra). pose proof (cos_upper t ltac:(lra)).
  assert (t * t * t * t <= t * t) by (replace (t * t * t * t) with ((t * t) * (t * t)) by ring; assert (0 < t * t <= 1) by nra; nra).
  assert (0 < t * t) by nra. lra.
Qed.
Lemma row_norm a b c : a * a + b * b + c * c = 1 -> 0 < 1 + c -> v3norm (v3scal (PI / sqrt (2 + 2 * c)) (V3 a b (1 + c))) = PI.
Proof.
  intros H Hc. rewrite v3norm_scal. unfold v3norm at 1, v3dot. cbn [vx vy vz].
  replace (a * a + b * b + (1 + c) * (1 + c)) with (2 + 2 * c) by lra.
  assert (S : 0 < sqrt (2 + 2 * c)) by (apply sqrt_lt_R0; lra). pose proof PI_RGT_0.
  rewrite Rabs_right by (apply Rle_ge, Rlt_le, Rdiv_lt_0_compat; lra). field. lra.
Qed.
Lemma norm_perm1 k a b c : v3norm (v3scal k (V3 a b c)) = v3norm (v3scal k (V3 a c b)).
Proof. unfold v3norm, v3dot, v3scal. cbn. f_equal. ring. Qed.
Lemma norm_perm2 k a b c : v3norm (v3scal k (V3 a b c)) = v3norm (v3scal k (V3 b c a)).
Proof. unfold v3norm, v3dot, v3scal. cbn. f_equal. ring. Qed.

Lemma log_norm r : is_rot r ->
  let th := acos ((m3trace r - 1) / 2) in
  Rabs (v3norm (log_so3 r) - th) <= 2 / 10 ^ 5 /\
  (m3trace r < 3 - 1 / 10 ^ 7 -> 1 / 10 ^ 10 - 1 <= m3trace r -> v3norm (log_so3 r) = th).
Proof.
  intros H th. pose proof (rot_trace_bounds r H) as TB.
  assert (EX : m3trace r < 3 - 1 / 10 ^ 7 -> 1 / 10 ^ 10 - 1 <= m3trace r -> v3norm (log_so3 r) = th).
  { intros A B. apply (exp_log_so3 r H); lra. }
  split; [|exact EX].
  pose proof (acos_bound ((m3trace r - 1) / 2)) as AB. fold th in AB.
  assert (C : cos th = (m3trace r - 1) / 2) by (apply cos_acos; lra).
  destruct (Rlt_or_le (m3trace r + 1) (1 / 10 ^ 10)) as [L|L].
  - assert (N : v3norm (log_so3 r) = PI).
    { unfold log_so3. destruct (Rltb_spec (m3trace r + 1) (1 / 10 ^ 10)); [|lra].
      pose proof H as (RR & RL & _). 
      assert (C2 : m02 r * m02 r + m12 r * m12 r + m22 r * m22 r = 1) by (apply (f_equal m22) in RL; cbn in RL; lra).
      assert (C1 : m01 r * m01 r + m21 r * m21 r + m11 r * m11 r = 1) by (apply (f_equal m11) in RL; cbn in RL; lra).
      assert (C0 : m10 r * m10 r + m20 r * m20 r + m00 r * m00 r = 1) by (apply (f_equal m00) in RL; cbn in RL; lra).
      unfold m3trace in *.
      destruct (Rltb_spec (1 / 10 ^ 5) (Rabs (m22 r + 1))) as [G|G].
      - apply row_norm; [lra|]. assert (-1 <= m22 r) by nra. rewrite Rabs_right in G by lra. lra.
      - destruct (Rltb_spec (1 / 10 ^ 5) (Rabs (m11 r + 1))) as [G1|G1].
        + rewrite norm_perm1. apply row_norm; [lra|]. assert (-1 <= m11 r) by nra. rewrite Rabs_right in G1 by lra. lra.
        + rewrite norm_perm2. apply row_norm; [lra|]. pose proof (Rle_abs (m22 r + 1)). pose proof (Rle_abs (m11 r + 1)). lra. }
    rewrite N. assert (X : PI - th <= 2 / 10 ^ 5).
    { apply cos_small_inv; try lra. replace (PI - th) with (- th + PI) by ring. rewrite neg_cos, cos_neg. lra. }
    rewrite Rabs_right; lra.
  - destruct (Rlt_or_le (m3trace r) (3 - 1 / 10 ^ 7)) as [G|G]; [rewrite EX by lra; rewrite Rminus_diag_eq by reflexivity; rewrite Rabs_R0; lra|].
    assert (T : th <= 1 / 10 ^ 3) by (apply cos_small_inv; try lra).
    assert (N : v3norm (log_so3 r) = sin th * (1 + (1 - cos th) / 3)).
    { unfold log_so3. destruct (Rltb_spec (m3trace r + 1) (1 / 10 ^ 10)); [lra|]. destruct (Rltb_spec (m3trace r - 3) (- (1 / 10 ^ 7))); [lra|].
      set (d := V3 (m21 r - m12 r) (m02 r - m20 r) (m10 r - m01 r)).
      assert (Hs : 0 <= sin th) by (apply sin_ge_0; lra).
      pose proof (sin2_cos2 th) as SC. unfold Rsqr in SC.
      pose proof (rot_products r H) as P. cbv zeta in P. destruct P as ((P1 & P2 & P3) & (D1 & D2 & D3) & _).
      assert (ND : v3dot d d = 4 * (sin th * sin th)).
      { replace (sin th * sin th) with (1 - cos th * cos th) by lra. rewrite C. unfold v3dot, d, m3trace; cbn [vx vy vz]. lra. }
      rewrite v3norm_scal. unfold v3norm. rewrite ND. replace (4 * (sin th * sin th)) with (Rsqr (2 * sin th)) by (unfold Rsqr; ring).
      rewrite sqrt_Rsqr by lra. rewrite Rabs_right by lra. rewrite C. field. }
    rewrite N. destruct (Req_dec th 0) as [Z|Z].
    + rewrite Z, sin_0, Rmult_0_l, Rminus_0_r, Rabs_R0. lra.
    + pose proof (taylor_factor th ltac:(lra)) as TF.
      replace (sin th * (1 + (1 - cos th) / 3)) with (th * (sin th / th * (1 + (1 - cos th) / 3))) by (field; exact Z).
      set (k := sin th / th * (1 + (1 - cos th) / 3)) in *. assert (th * th * th * th / 24 <= 1 / 100).
      { assert (0 < th * th <= 1) by nra. assert (th * th * (th * th) <= 1) by nra. replace (th * th * th * th) with (th * th * (th * th)) by ring.
        assert (th * th <= 1 / 10 ^ 6) by nra. nra. }
      apply Rabs_le. split; [|nra]. assert (th * (1 - k) <= 1 / 10 ^ 3 * (1 / 100)) by (apply Rmult_le_compat; lra). lra.
Qed.

Lemma inner_trace A B : inner A B = m3trace (m3mul (m3tr A) B).
Proof. unfold inner, m3trace. destruct A, B. cbn. ring. Qed.
Lemma inner_trace' A B : inner A B = m3trace (m3mul A (m3tr B)).
Proof. unfold inner, m3trace. destruct A, B. cbn. ring. Qed.
Lemma apart_log A B r : is_rot r -> m3trace r = inner A B -> apart A B (180 / PI * v3norm (log_so3 r)).
Proof.
  intros H E. pose proof PI_RGT_0. destruct (log_norm r H) as (N1 & N2). unfold apart. rewrite E in *.
  replace (180 / PI * v3norm (log_so3 r) * PI / 180) with (v3norm (log_so3 r)) by (field; lra).
  split; [|split; [exact N1|exact N2]]. apply Rmult_le_pos; [apply Rlt_le, Rdiv_lt_0_compat; lra|apply sqrt_pos].
Qed.
Lemma dist_norm a b : dist a b = v3norm (v3sub a b).
Proof. reflexivity. Qed.
Lemma dist_sym a b : dist a b = dist b a.
Proof. unfold dist. f_equal. ring. Qed.

Lemma ate_spec e g : unit_q (po_q e) -> unit_q (po_q g) -> apart (att e) (att g) (fst (ate_one e g)) /\ snd (ate_one e g) = dist (po_p e) (po_p g).
Proof.
  intros U V. unfold ate_one. cbn [fst snd]. split; [|rewrite dist_sym; reflexivity]. apply apart_log.
  - apply is_rot_mul; [apply is_rot_tr|]; apply quat_2_Rot_is_rot; assumption.
  - rewrite inner_trace'. unfold att. rewrite m3tr_tr. reflexivity.
Qed.
Lemma rpe_spec c1 c2 g1 g2 : unit_q (po_q c1) -> unit_q (po_q c2) -> unit_q (po_q g1) -> unit_q (po_q g2) ->
  apart (rel_R g1 g2) (rel_R c1 c2) (fst (rpe_one c1 c2 g1 g2)) /\ snd (rpe_one c1 c2 g1 g2) = dist (rel_p c1 c2) (rel_p g1 g2).
Proof.
  intros U1 U2 V1 V2.
  assert (A : forall p q, seR (se3mul (Inv_se3 (pose_se3 p)) (pose_se3 q)) = rel_R p q) by reflexivity.
  assert (B : forall p q, set_ (se3mul (Inv_se3 (pose_se3 p)) (pose_se3 q)) = rel_p p q).
  { intros p q. unfold se3mul, Inv_se3, pose_se3, rel_p, att. cbn [seR set_]. set (M := m3tr (m3tr (quat_2_Rot (po_q p)))). destruct M, (po_p p), (po_p q). m3simp. f_equal; ring. }
  assert (RR : forall p q, unit_q (po_q p) -> unit_q (po_q q) -> is_rot (rel_R p q)).
  { intros p q Hp Hq. apply is_rot_mul; [apply is_rot_tr|]; apply pose_se3_rot; assumption. }
  split.
  - unfold rpe_one. cbn [fst]. pose proof (pose_se3_rot c2 U2) as RC. set (C := seR (pose_se3 c2)) in *.
    set (T := se3mul (Inv_se3 (pose_se3 c1)) (pose_se3 c2)) in *. set (M := se3mul (Inv_se3 (pose_se3 g1)) (pose_se3 g2)) in *.
    assert (ET : seR T = rel_R c1 c2) by reflexivity. assert (EM : seR M = rel_R g1 g2) by reflexivity.
    apply apart_log.
    + unfold se3mul, Inv_se3. cbn [seR]. rewrite ET, EM. apply is_rot_mul; [|apply is_rot_tr, RC]. apply is_rot_mul; [exact RC|]. apply is_rot_mul; [apply is_rot_tr|]; apply RR; assumption.
    + unfold se3mul, Inv_se3. cbn [seR]. rewrite ET, EM, inner_trace. set (X := m3mul (m3tr (rel_R g1 g2)) (rel_R c1 c2)). clearbody X. destruct RC as (R1 & R2 & _).
      assert (CY : forall P Q, m3trace (m3mul P Q) = m3trace (m3mul Q P)) by (intros P Q; destruct P, Q; unfold m3trace; cbn; ring).
      rewrite CY, <- m3mul_assoc, R2, m3mul_id_l. reflexivity.
  - rewrite rpe_pos_eq by exact U2. set (T := se3mul (Inv_se3 (pose_se3 c1)) (pose_se3 c2)) in *. set (M := se3mul (Inv_se3 (pose_se3 g1)) (pose_se3 g2)) in *.
    assert (ET : set_ T = rel_p c1 c2) by apply B. assert (EM : set_ M = rel_p g1 g2) by apply B.
    assert (RM : is_rot (m3tr (seR M))) by (apply is_rot_tr; exact (RR g1 g2 V1 V2)).
    rewrite dist_norm, <- ET, <- EM. rewrite <- (norm_rot (m3tr (seR M)) (v3sub (set_ T) (set_ M)) RM). f_equal.
    unfold se3mul, Inv_se3. cbn [seR set_]. destruct (m3tr (seR M)), (set_ T), (set_ M). m3simp. f_equal; ring.
Qed.

(** ** alignments *)
Lemma rotz_rot a : is_rot (rot_z a).
Proof. unfold rot_z. pose proof (sin2_cos2 a) as T. unfold Rsqr in T. split; [|split]; [apply m3_ext; simpl; lra|apply m3_ext; simpl; lra|unfold m3det; simpl; lra]. Qed.
Lemma single_spec svd e es g gs a m : unit_q (po_q e) -> unit_q (po_q g) -> m = Se3Single \/ m = PosyawSingle ->
  align_trajectory svd (e :: es) (g :: gs) m = Ok a ->
  exists Rm t, a = (Rm, t, 1) /\ is_rot Rm /\ po_p (apply_align a e) = po_p g /\ att (apply_align a e) = m3mul Rm (att e) /\
    (m = Se3Single -> att (apply_align a e) = att g) /\
    (m = PosyawSingle -> exists th, Rm = rot_z th /\ forall th', inner (m3mul (rot_z th') (att e)) (att g) <= inner (att (apply_align a e)) (att g)).
Proof.
  intros U V Hm H.
  assert (Q : exists Rm, is_rot Rm /\ a = (Rm, v3sub (po_p g) (m3v Rm (po_p e)), 1) /\
     (m = Se3Single -> Rm = m3mul (att g) (m3tr (att e))) /\ (m = PosyawSingle -> Rm = rot_z (get_best_yaw (m3mul (att e) (m3tr (att g)))))).
  { destruct Hm as [->| ->]; unfold align_trajectory in H; destruct (prefix_pos (e :: es) (g :: gs)); unfold align_se3_single, align_posyaw_single in H; cbn [vat nth_error obind] in H.
    - exists (m3mul (att g) (m3tr (att e))). split; [apply is_rot_mul; [|apply is_rot_tr]; apply is_rot_tr, quat_2_Rot_is_rot; assumption|].
      split; [injection H as <-; reflexivity|]. split; [reflexivity|discriminate].
    - exists (rot_z (get_best_yaw (m3mul (att e) (m3tr (att g))))). split; [apply rotz_rot|]. split; [injection H as <-; reflexivity|]. split; [discriminate|reflexivity]. }
  destruct Q as (Rm & RR & -> & Q1 & Q2). exists Rm, (v3sub (po_p g) (m3v Rm (po_p e))).
  destruct (apply_align_spec Rm (v3sub (po_p g) (m3v Rm (po_p e))) 1 e RR U) as (P1 & P2 & P3).
  assert (AT : att (apply_align (Rm, v3sub (po_p g) (m3v Rm (po_p e)), 1) e) = m3mul Rm (att e)) by exact P3.
  split; [reflexivity|]. split; [exact RR|]. split; [rewrite P1; destruct (m3v Rm (po_p e)), (po_p g); m3simp; f_equal; ring|]. split; [exact AT|]. rewrite AT. split.
  - intros E. rewrite (Q1 E), m3mul_assoc. unfold att. rewrite m3tr_tr. destruct (quat_2_Rot_is_rot _ U) as (R1 & R2 & _). rewrite R1 || rewrite R2. apply m3mul_id_r.
  - intros E. specialize (Q2 E). exists (get_best_yaw (m3mul (att e) (m3tr (att g)))). split; [exact Q2|]. intros th'. rewrite Q2.
    set (K := m3mul (att g) (m3tr (att e))). assert (EK : m3mul (att e) (m3tr (att g)) = m3tr K) by (unfold K; rewrite m3tr_mul, m3tr_tr; reflexivity). rewrite EK.
    assert (F : forall Z, inner (m3mul Z (att e)) (att g) = frob Z K).
    { intros Z. unfold inner, frob, K, m3trace. destruct Z, (att e), (att g). cbn. ring. }
    rewrite !F. apply yaw_opt.
Qed.
Lemma m3det_tr A : m3det (m3tr A) = m3det A.
Proof. destruct A; unfold m3det; cbn; ring. Qed.
Lemma m3det_mul A B : m3det (m3mul A B) = m3det A * m3det B.
Proof. destruct A, B; unfold m3det; cbn; ring. Qed.
Lemma orth_det A : orth A -> m3det A * m3det A = 1.
Proof. intros [H _]. apply (f_equal m3det) in H. rewrite m3det_mul, m3det_tr in H. rewrite H. unfold m3det, m3id; cbn; ring. Qed.
Lemma usv_rot U V : orth U -> orth V -> is_rot (m3mul (m3mul U (if Rltb (m3det U * m3det V) 0 then M3 1 0 0  0 1 0  0 0 (-1) else m3id)) (m3tr V)).
Proof.
  intros HU HV. pose proof (orth_det U HU) as DU. pose proof (orth_det V HV) as DV. set (S := if Rltb _ _ then _ else _).
  assert (SS : m3mul S (m3tr S) = m3id /\ m3mul (m3tr S) S = m3id).
  { unfold S. destruct (Rltb _ _); split; apply m3_ext; cbn; ring. }
  assert (DS : m3det U * m3det S * m3det V = 1).
  { unfold S. assert (P : (m3det U * m3det V) * (m3det U * m3det V) = 1) by (replace (m3det U * m3det V * (m3det U * m3det V)) with ((m3det U * m3det U) * (m3det V * m3det V)) by ring; rewrite DU, DV; ring).
    set (x := m3det U) in *. set (y := m3det V) in *. assert (Z : (x * y - 1) * (x * y + 1) = 0) by lra.
    destruct (Rltb_spec (x * y) 0) as [L|L]; unfold m3det, m3id; cbn; apply Rmult_integral in Z; destruct Z; nra. }
  clearbody S. destruct HU as [U1 U2], HV as [V1 V2], SS as [S1 S2]. split; [|split].
  - rewrite !m3tr_mul, m3tr_tr, !m3mul_assoc, <- (m3mul_assoc (m3tr V)), V2, m3mul_id_l, <- (m3mul_assoc S), S1, m3mul_id_l. exact U1.
  - rewrite !m3tr_mul, m3tr_tr, !m3mul_assoc, <- (m3mul_assoc (m3tr U)), U2, m3mul_id_l, <- (m3mul_assoc (m3tr S)), S2, m3mul_id_l. exact V1.
  - rewrite !m3det_mul, m3det_tr. exact DS.
Qed.
Lemma umeyama_rot svd data model ks yo Rm t s : orth_svd svd -> align_umeyama svd data model ks yo = Ok (Rm, t, s) -> is_rot Rm.
Proof.
  intros O H. unfold align_umeyama in H. apply guard_ok in H; [|discriminate]. destruct H as [_ H]. apply guard_ok in H; [|discriminate]. destruct H as [_ H]. cbv zeta in H.
  match type of H with (let '(_, _) := svd ?C in _) = _ => pose proof (O C) as OC; set (c := svd C) in * end. destruct c as [[U D] V]. destruct OC as [OU OV].
  match type of H with obind ?e _ = _ => destruct e as [s0| |]; cbn [obind] in H; try discriminate end.
  match type of H with Ok (?a, ?b, ?c) = _ => assert (E : a = Rm) by (injection H; auto) end. rewrite <- E. destruct yo; [apply rotz_rot|apply usv_rot; assumption].
Qed.
Lemma align_rot svd es gt m Rm t s : orth_svd svd -> (forall p, In p es -> unit_q (po_q p)) -> (forall p, In p gt -> unit_q (po_q p)) ->
  align_trajectory svd es gt m = Ok (Rm, t, s) -> is_rot Rm.
Proof.
  intros O U V H. destruct m; unfold align_trajectory in H; destruct (prefix_pos es gt) as [de dg] eqn:E.
  - destruct (align_umeyama svd de dg true true) as [[[a b] c]| |] eqn:Q; cbn [obind fst] in H; try discriminate. injection H as <- <- <-. eapply umeyama_rot; eauto.
  - unfold align_posyaw_single in H. destruct (vat es 0); try discriminate. destruct (vat gt 0); try discriminate. cbn [obind] in H. injection H as <- _ _. apply rotz_rot.
  - destruct (align_umeyama svd de dg true false) as [[[a b] c]| |] eqn:Q; cbn [obind fst] in H; try discriminate. injection H as <- <- <-. eapply umeyama_rot; eauto.
  - unfold align_se3_single in H. destruct es as [|e es]; [discriminate|]. destruct gt as [|g gt]; [discriminate|]. cbn [vat nth_error obind] in H. injection H as <- _ _.
    apply is_rot_mul; [|apply is_rot_tr]; apply is_rot_tr, quat_2_Rot_is_rot; [apply V|apply U]; left; reflexivity.
  - eapply umeyama_rot; eauto.
  - injection H as <- _ _. split; [|split]; [apply m3_ext; cbn; ring|apply m3_ext; cbn; ring|unfold m3det; cbn; ring].
  - discriminate.
Qed.

Lemma picks_in {A} (src : list A) idx l x : picks src idx l -> In x l -> In x src.
Proof. induction 1 as [|i y idx l H F IH]; intros I; [destruct I|]. destruct I as [<-|I]; [eapply nth_error_In; eauto|auto]. Qed.
Lemma result_units svd est gt m r : traj_wf est -> traj_wf gt -> unit_traj est -> unit_traj gt -> orth_svd svd -> result_new svd est gt m = Ok r ->
  (forall p, In p (r_est2gt r) -> unit_q (po_q p)) /\ (forall p, In p (t_poses (r_gt r)) -> unit_q (po_q p)).
Proof.
  intros WE WG UE UG O H. destruct (result_new_spec svd est gt m r WE WG H) as (a1 & a2 & A1 & A2 & E1 & _ & L3 & L1 & L2 & PA).
  assert (Q : (forall p, In p (t_poses (r_est r)) -> unit_q (po_q p)) /\ (forall p, In p (t_poses (r_gt r)) -> unit_q (po_q p))).
  { destruct (association_spec 0 0.02 est gt WE WG) as (pairs & _ & _ & _ & A). destruct (Nat.ltb (length (t_times est)) 3).
    - rewrite PA in A. injection A as A A'. rewrite A, A'. auto.
    - destruct A as (e & g & E & _ & _ & P1 & P2 & _). rewrite PA in E. injection E as E E'. rewrite E, E'.
      split; intros p I; [apply UE|apply UG]; eapply picks_in; eauto. }
  destruct Q as [Q1 Q2]. split; [|exact Q2]. intros p I. rewrite E1 in I. apply in_map_iff in I. destruct I as (x & <- & I). destruct a1 as [[Rm t] s].
  apply (apply_align_spec Rm t s x (align_rot _ _ _ _ _ _ _ O Q1 Q2 A1) (Q1 x I)).
Qed.

Lemma push_all l : forall st, s_values (fold_left stats_push l st) = s_values st ++ l /\ s_rmse (fold_left stats_push l st) = s_rmse st.
Proof. induction l as [|x l IH]; intros st; cbn [fold_left]; [rewrite app_nil_r; auto|]. destruct (IH (stats_push st x)) as [E1 E2]. rewrite E1, E2. cbn. rewrite <- app_assoc. auto. Qed.
Lemma stats_spec st l : 0 <= s_rmse st -> l <> [] -> calc_facts st (stats_of_values st l) l.
Proof.
  intros H N. unfold stats_of_values. destruct (push_all l (stats_clear st)) as [E1 E2]. set (s := fold_left stats_push l (stats_clear st)) in *. cbn in E1, E2.
  pose proof (calculate_spec s ltac:(congruence) ltac:(rewrite E2; exact H)) as F. rewrite E1 in F. unfold calc_facts in *. rewrite E2 in F. exact F.
Qed.

Lemma absolute_thm svd est gt m r ori pos : traj_wf est -> traj_wf gt -> unit_traj est -> unit_traj gt -> orth_svd svd -> result_new svd est gt m = Ok r ->
  0 <= s_rmse ori -> 0 <= s_rmse pos ->
  exists l o p, ate_errors r = Ok l /\ Forall2 abs_error l (combine (r_est2gt r) (t_poses (r_gt r))) /\ length l = length (t_poses (r_est r)) /\
    calculate_ate r ori pos = Ok (o, p) /\ calc_facts ori o (map fst l) /\ calc_facts pos p (map snd l).
Proof.
  intros WE WG UE UG O H HO HP. destruct (result_new_spec svd est gt m r WE WG H) as (a1 & a2 & _ & _ & E1 & _ & L3 & L1 & L2 & _).
  assert (L : length (r_est2gt r) = length (t_poses (r_est r))) by (rewrite E1, map_length; reflexivity).
  destruct (result_units svd est gt m r WE WG UE UG O H) as [Q1 Q2].
  assert (E : ate_errors r = Ok (map (fun p => ate_one (fst p) (snd p)) (combine (r_est2gt r) (t_poses (r_gt r))))) by (apply ate_errors_ok; congruence).
  set (c := combine (r_est2gt r) (t_poses (r_gt r))) in *.
  assert (Lc : length c = length (t_poses (r_est r))) by (unfold c; rewrite combine_length; lia).
  exists (map (fun p => ate_one (fst p) (snd p)) c), (stats_of_values ori (map fst (map (fun p => ate_one (fst p) (snd p)) c))), (stats_of_values pos (map snd (map (fun p => ate_one (fst p) (snd p)) c))).
  split; [exact E|]. split.
  { assert (Hc : forall x, In x c -> unit_q (po_q (fst x)) /\ unit_q (po_q (snd x))).
    { intros [x y] I. split; [apply Q1; eapply in_combine_l; exact I|apply Q2; eapply in_combine_r; exact I]. }
    clear - Hc. induction c as [|x c IH]; cbn [map]; constructor.
    - destruct (Hc x (or_introl eq_refl)) as [A B]. exact (ate_spec (fst x) (snd x) A B).
    - apply IH. intros y I. apply Hc. right; exact I. }
  split; [rewrite map_length; exact Lc|]. split; [unfold calculate_ate; rewrite E; reflexivity|].
  assert (N : c <> []) by (destruct c; [simpl in Lc; lia|discriminate]).
  split; apply stats_spec; auto; destruct c; cbn; congruence.
Qed.

Lemma relative_thm svd est gt m r dst : traj_wf est -> traj_wf gt -> unit_traj est -> unit_traj gt -> orth_svd svd -> result_new svd est gt m = Ok r ->
  exists acc l o p, accum_distances (t_poses (r_gt r)) = Ok acc /\ rpe_errors r dst = Ok l /\
    (forall e, In e l -> exists i j c1 c2 g1 g2 di, nth_error acc i = Some di /\ nearest_from acc (di + dst) 0.5 i (Some j) /\
      nth_error (r_est2gt r) i = Some c1 /\ nth_error (r_est2gt r) j = Some c2 /\ nth_error (t_poses (r_gt r)) i = Some g1 /\ nth_error (t_poses (r_gt r)) j = Some g2 /\
      apart (rel_R g1 g2) (rel_R c1 c2) (fst e) /\ snd e = EvalSpec.dist (rel_p c1 c2) (rel_p g1 g2)) /\
    (forall i j di, nth_error acc i = Some di -> nearest_from acc (di + dst) 0.5 i (Some j) -> exists e c1 c2 g1 g2, In e l /\
      nth_error (r_est2gt r) i = Some c1 /\ nth_error (r_est2gt r) j = Some c2 /\ nth_error (t_poses (r_gt r)) i = Some g1 /\ nth_error (t_poses (r_gt r)) j = Some g2 /\
      apart (rel_R g1 g2) (rel_R c1 c2) (fst e) /\ snd e = EvalSpec.dist (rel_p c1 c2) (rel_p g1 g2)) /\
    calculate_rpe r [dst] = Ok [(dst, (o, p))] /\ (l <> [] -> calc_facts stats_new o (map fst l) /\ calc_facts stats_new p (map snd l)).
Proof.
  intros WE WG UE UG O H. destruct (result_new_spec svd est gt m r WE WG H) as (a1 & a2 & _ & _ & E1 & _ & L3 & L1 & L2 & _).
  assert (L : length (r_est2gt r) = length (t_poses (r_est r))) by (rewrite E1, map_length; reflexivity).
  destruct (result_units svd est gt m r WE WG UE UG O H) as [Q1 Q2].
  destruct (rpe_errors_ok r dst) as (acc & l & EA & EL & S); [congruence|congruence|destruct (t_poses (r_gt r)); simpl in *; [lia|discriminate]|].
  assert (U : forall c1 c2 g1 g2 i j, nth_error (r_est2gt r) i = Some c1 -> nth_error (r_est2gt r) j = Some c2 -> nth_error (t_poses (r_gt r)) i = Some g1 -> nth_error (t_poses (r_gt r)) j = Some g2 ->
     apart (rel_R g1 g2) (rel_R c1 c2) (fst (rpe_one c1 c2 g1 g2)) /\ snd (rpe_one c1 c2 g1 g2) = EvalSpec.dist (rel_p c1 c2) (rel_p g1 g2)).
  { intros c1 c2 g1 g2 i j N1 N2 N3 N4. apply rpe_spec; [apply Q1|apply Q1|apply Q2|apply Q2]; eapply nth_error_In; eassumption. }
  exists acc, l, (stats_of_values stats_new (map fst l)), (stats_of_values stats_new (map snd l)). split; [exact EA|]. split; [exact EL|]. split; [|split; [|split]].
  - intros e I. apply S in I. destruct I as (i & j & c1 & c2 & g1 & g2 & di & A & B & N1 & N2 & N3 & N4 & ->). exists i, j, c1, c2, g1, g2, di.
    destruct (U c1 c2 g1 g2 i j N1 N2 N3 N4). auto 10.
  - intros i j di A B.
    assert (La : length acc = length (t_poses (r_gt r))).
    { unfold accum_distances in EA. destruct (t_poses (r_gt r)) as [|p0 l0]; [discriminate|]. injection EA as <-. simpl. rewrite accum_from_length. reflexivity. }
    assert (Li : (i < length acc)%nat) by (apply nth_error_Some; congruence).
    assert (Lj : (j < length acc)%nat) by (destruct B as (_ & d & B & _); apply nth_error_Some; congruence).
    assert (Gi : forall {A} (l : list A) i, (i < length l)%nat -> exists x, nth_error l i = Some x).
    { intros T l' i' Hl. destruct (nth_error l' i') eqn:E; [eauto|]. apply nth_error_None in E. lia. }
    destruct (Gi _ (r_est2gt r) i) as (c1 & N1); [congruence|]. destruct (Gi _ (r_est2gt r) j) as (c2 & N2); [congruence|].
    destruct (Gi _ (t_poses (r_gt r)) i) as (g1 & N3); [congruence|]. destruct (Gi _ (t_poses (r_gt r)) j) as (g2 & N4); [congruence|].
    exists (rpe_one c1 c2 g1 g2), c1, c2, g1, g2. split; [apply S; exists i, j, c1, c2, g1, g2, di; auto 10|]. destruct (U c1 c2 g1 g2 i j N1 N2 N3 N4). auto 10.
  - unfold calculate_rpe. cbn [omap]. rewrite EL. reflexivity.
  - intros N. split; apply stats_spec; try (destruct l; cbn; congruence); cbn; lra.
Qed.
