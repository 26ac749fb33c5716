(** Properties C48-C51, C66, C67: trajectory evaluation. *)
From Coq Require Import Reals List Arith Bool Lia Lra Sorted Permutation.
From Verif Require Import RBool Outcome GeoModel GeoSpec GeoProofs InitModel InitSpec EvalModel EvalSpec EvalProofs EvalStats EvalAlign EvalAlign2 EvalThms EvalErr.
Import ListNotations.
Open Scope R_scope.

Ltac rb := repeat (first [match goal with |- context [Rltb ?a ?b] => destruct (Rltb_spec a b) end | match goal with |- context [Rleb ?a ?b] => destruct (Rleb_spec a b) end];
  try (exfalso; unfold Rabs in *; repeat destruct (Rcase_abs _); lra); cbn).

(** C48 *)
Theorem C48_association : forall off maxd est gt, traj_wf est -> traj_wf gt ->
  exists pairs, StronglySorted lt2 pairs /\ Forall (near off maxd (t_times est) (t_times gt)) pairs /\
    pairs = assoc_loop off maxd 0 (t_times est) (indexed 0 (t_times gt)) /\
    (if (length (t_times est) <? 3)%nat then perform_association off maxd est gt = Ok (est, gt)
     else exists e g, perform_association off maxd est gt = Ok (e, g) /\
       t_times e = t_times g /\ picks (t_times gt) (map snd pairs) (t_times g) /\
       picks (t_poses est) (map fst pairs) (t_poses e) /\ picks (t_poses gt) (map snd pairs) (t_poses g) /\
       (t_co est = [] -> t_co e = [] /\ t_cp e = [] /\ t_co g = [] /\ t_cp g = []) /\
       (t_co est <> [] -> picks (t_co est) (map fst pairs) (t_co e) /\ picks (t_cp est) (map fst pairs) (t_cp e) /\
          (t_co gt = [] -> t_co g = repeat m3zero (length pairs) /\ t_cp g = repeat m3zero (length pairs)) /\
          (t_co gt <> [] -> picks (t_co gt) (map snd pairs) (t_co g) /\ picks (t_cp gt) (map snd pairs) (t_cp g)))).
Proof. exact association_spec. Qed.
Print Assumptions C48_association.
(** for ordered times, none exactly at the tolerance, the pairs are the greedy nearest neighbours *)
Theorem C48_nearest : forall off maxd est gt, StronglySorted Rlt gt -> StronglySorted Rle est ->
  (forall e g, In e est -> In g gt -> Rabs (g - (e + off)) <> maxd) ->
  greedy_match off maxd gt 0 0 est (assoc_loop off maxd 0 est (indexed 0 gt)).
Proof. intros off maxd est gt SG SE NB. apply (assoc_greedy off maxd gt SG est 0 gt [] 0 []); auto. intros e g _ []. Qed.
Print Assumptions C48_nearest.
(** an entry exactly at the tolerance blocks a perfect match behind it *)
Theorem C48_nearest_at_tolerance_refuted : exists off maxd est gt, StronglySorted Rlt gt /\ StronglySorted Rle est /\ 0 < maxd /\
  ~ greedy_match off maxd gt 0 0 est (assoc_loop off maxd 0 est (indexed 0 gt)).
Proof.
  exists 0, 1, [1], [0; 1]. split; [repeat constructor; lra|]. split; [repeat constructor|]. split; [lra|].
  assert (E : assoc_loop 0 1 0 [1] (indexed 0 [0; 1]) = []). { cbn. rb. reflexivity. }
  rewrite E. intros H. inversion H; subst. specialize (H4 1%nat 1 ltac:(lia) eq_refl). unfold Rabs in H4. destruct (Rcase_abs _); lra.
Qed.
Print Assumptions C48_nearest_at_tolerance_refuted.
Example C48_ex : assoc_loop 0 (1 / 2) 0 [0; 1; 5; 6] (indexed 0 [1 / 10; 1; 2; 3; 6]) = [(0, 0); (1, 1); (3, 4)]%nat.
Proof. cbn. rb. reflexivity. Qed.

(** C49 *)
Theorem C49_calculate : forall st, s_values st <> [] -> 0 <= s_rmse st -> calc_facts st (calculate st) (s_values st).
Proof. exact calculate_spec. Qed.
Print Assumptions C49_calculate.
Theorem C49_order_independent : forall st st', Permutation (s_values st) (s_values st') -> s_values st <> [] -> s_rmse st = s_rmse st' ->
  let a := calculate st in let b := calculate st' in
  s_mean a = s_mean b /\ s_median a = s_median b /\ s_std a = s_std b /\ s_rmse a = s_rmse b /\ s_min a = s_min b /\ s_max a = s_max b /\ s_99 a = s_99 b.
Proof. exact calculate_permut. Qed.
Print Assumptions C49_order_independent.
(** rmse is not reset: it grows on a second call, and survives clear() into the next use *)
Theorem C49_second_call_refuted : exists st, s_values st <> [] /\ s_rmse st = 0 /\
  s_rmse (calculate (calculate st)) <> s_rmse (calculate st) /\
  s_rmse (calculate (stats_push (stats_clear (calculate st)) 1)) <> s_rmse (calculate (stats_push stats_new 1)).
Proof.
  exists (stats_push stats_new 1). cbn [stats_push stats_new s_values s_rmse app].
  split; [discriminate|]. split; [reflexivity|]. unfold calculate, stats_clear, stats_push. cbn. 
  replace ((0 + 1 * 1) / 1) with 1 by field. rewrite sqrt_1.
  assert (H : sqrt ((1 + 1 * 1) / 1) <> 1). { intros H. assert (X : sqrt ((1 + 1 * 1) / 1) * sqrt ((1 + 1 * 1) / 1) = (1 + 1 * 1) / 1) by (apply sqrt_sqrt; lra). rewrite H in X. lra. }
  split; exact H.
Qed.
Print Assumptions C49_second_call_refuted.
Example C49_ex : s_values (stats_push (stats_push stats_new 4) 2) = [4; 2] /\ s_rmse (stats_push (stats_push stats_new 4) 2) = 0.
Proof. split; reflexivity. Qed.

(** C50 *)
Theorem C50_yaw_alignment_optimal : forall svd data model, length model = length data -> model <> [] ->
  exists th t, align_umeyama svd data model true true = Ok (rot_z th, t, 1) /\
    forall th' t', cost (rot_z th) t 1 (combine data model) <= cost (rot_z th') t' 1 (combine data model).
Proof. exact yaw_alignment. Qed.
Print Assumptions C50_yaw_alignment_optimal.
(** a yaw-and-translation difference is removed completely *)
Theorem C50_exact_alignment : forall svd data model th0 t0, length model = length data -> model <> [] ->
  (forall d m, In (d, m) (combine data model) -> m = v3add (m3v (rot_z th0) d) t0) ->
  exists Rm t, align_umeyama svd data model true true = Ok (Rm, t, 1) /\
    forall d m, In (d, m) (combine data model) -> m = v3add (v3scal 1 (m3v Rm d)) t.
Proof.
  intros svd data model th0 t0 HL Ne H. destruct (yaw_alignment svd data model HL Ne) as (th & t & E & O). exists (rot_z th), t. split; [exact E|].
  assert (Z : cost (rot_z th0) t0 1 (combine data model) = 0).
  { apply cost_exact. intros [d m] I. rewrite (H d m I). cbn [fst snd]. f_equal. destruct (m3v (rot_z th0) d). unfold v3scal. cbn. f_equal; ring. }
  specialize (O th0 t0). rewrite Z in O. intros d m I. exact (cost_zero_iff _ _ _ _ O (d, m) I).
Qed.
Print Assumptions C50_exact_alignment.
(** the alignments by one pose: the first poses coincide in position; with the rigid one also in attitude,
    with the yaw one up to the smallest angle that a yaw can leave *)
Theorem C50_single_pose : forall svd e es g gs a m, unit_q (po_q e) -> unit_q (po_q g) -> m = Se3Single \/ m = PosyawSingle ->
  align_trajectory svd (e :: es) (g :: gs) m = Ok a ->
  exists Rm t, a = (Rm, t, 1) /\ is_rot Rm /\ po_p (apply_align a e) = po_p g /\ att (apply_align a e) = m3mul Rm (att e) /\
    (m = Se3Single -> att (apply_align a e) = att g) /\
    (m = PosyawSingle -> exists th, Rm = rot_z th /\ forall th', inner (m3mul (rot_z th') (att e)) (att g) <= inner (att (apply_align a e)) (att g)).
Proof. exact single_spec. Qed.
Print Assumptions C50_single_pose.
Example C50_single_ex : forall svd, let p := mkPose (V3 1 2 3) (Q4 0 (3 / 5) 0 (4 / 5)) in let q := mkPose (V3 0 1 0) (Q4 0 0 0 1) in
  unit_q (po_q p) /\ unit_q (po_q q) /\ (exists a, align_trajectory svd [p] [q] Se3Single = Ok a) /\ exists a, align_trajectory svd [p] [q] PosyawSingle = Ok a.
Proof.
  intros svd p q. split; [unfold unit_q; cbn; field|]. split; [unfold unit_q; cbn; ring|]. split; eexists; reflexivity.
Qed.
Example C50_ex : let data := [V3 0 0 0; V3 1 0 1] in let model := [V3 1 2 3; V3 1 3 4] in
  length model = length data /\ forall d m, In (d, m) (combine data model) -> m = v3add (m3v (rot_z (PI / 2)) d) (V3 1 2 3).
Proof.
  cbv zeta. split; [reflexivity|]. intros d m [E|[E|[]]]; injection E as <- <-; unfold rot_z; rewrite cos_PI2, sin_PI2; apply v3_ext; simpl; ring.
Qed.

(** C51 *)
Theorem C51_segments : forall ds dist maxd, length (compute_comparison_indices_length ds dist maxd) = length ds /\
  forall i r, nth_error (compute_comparison_indices_length ds dist maxd) i = Some r ->
    exists d, nth_error ds i = Some d /\ nearest_from ds (d + dist) maxd i r.
Proof. intros ds dist maxd. split; [apply seg_all_length|]. intros i r E. exact (seg_all_spec dist maxd ds [] i r E). Qed.
Print Assumptions C51_segments.
(** the distances are non-decreasing and end with the trajectory length *)
Theorem C51_distances : forall p l, exists acc, accum_distances (p :: l) = Ok acc /\ length acc = length (p :: l) /\ StronglySorted Rle acc /\
  hd_error acc = Some 0 /\ last acc 0 = get_total_length (p :: l).
Proof.
  intros p l. exists (0 :: accum_from 0 (po_p p) l). split; [reflexivity|]. split; [simpl; rewrite accum_from_length; reflexivity|].
  split; [apply accum_mono|]. split; [reflexivity|]. exact (accum_last l 0 (po_p p)).
Qed.
Print Assumptions C51_distances.
Example C51_ex : compute_comparison_indices_length [0; 1; 2; 4] 2 (1 / 2) = [Some 2%nat; None; Some 3%nat; None].
Proof. cbn. rb. reflexivity. Qed.

(** C66: the singular value decomposition is external; its contract is the hypothesis *)
Theorem C66_se3_alignment_optimal : forall svd data model, length model = length data -> model <> [] ->
  svd_of (correlation (combine data model)) (svd (correlation (combine data model))) ->
  exists Rm t, align_umeyama svd data model true false = Ok (Rm, t, 1) /\ is_rot Rm /\
    forall Q t', is_rot Q -> cost Rm t 1 (combine data model) <= cost Q t' 1 (combine data model).
Proof. exact se3_alignment. Qed.
Print Assumptions C66_se3_alignment_optimal.
Theorem C66_sim3_alignment_optimal : forall svd data model, length model = length data -> model <> [] ->
  svd_of (correlation (combine data model)) (svd (correlation (combine data model))) ->
  (exists a b, In a data /\ In b data /\ a <> b) ->
  exists Rm t s, align_umeyama svd data model false false = Ok (Rm, t, s) /\ is_rot Rm /\ 0 <= s /\
    forall Q t' s', is_rot Q -> 0 <= s' -> cost Rm t s (combine data model) <= cost Q t' s' (combine data model).
Proof. exact sim3_alignment. Qed.
Print Assumptions C66_sim3_alignment_optimal.
Example C66_ex : let pts := [V3 1 0 0; V3 (-1) 0 0; V3 0 1 0; V3 0 (-1) 0] in
  svd_of (correlation (combine pts pts)) (m3id, V3 (1 / 2) (1 / 2) 0, m3id).
Proof.
  cbv zeta. unfold svd_of. cbn [vx vy vz].
  assert (O : orth m3id) by (split; apply m3_ext; simpl; ring).
  split; [exact O|]. split; [exact O|]. split; [lra|]. split; [lra|]. split; [lra|].
  apply m3_ext; unfold correlation; simpl; field.
Qed.

(** C67 *)
Theorem C67_construction : forall svd est gt m r, traj_wf est -> traj_wf gt -> result_new svd est gt m = Ok r ->
  exists a1 a2, align_trajectory svd (t_poses (r_est r)) (t_poses (r_gt r)) m = Ok a1 /\ align_trajectory svd (t_poses (r_gt r)) (t_poses (r_est r)) m = Ok a2 /\
    r_est2gt r = map (apply_align a1) (t_poses (r_est r)) /\ r_gt2est r = map (apply_align a2) (t_poses (r_gt r)) /\
    (3 <= length (t_poses (r_est r)))%nat /\ length (t_poses (r_gt r)) = length (t_poses (r_est r)) /\ length (t_times (r_est r)) = length (t_poses (r_est r)) /\
    perform_association 0 0.02 est gt = Ok (r_est r, r_gt r).
Proof. exact result_new_spec. Qed.
Print Assumptions C67_construction.
Theorem C67_aligned_pose : forall Rm t s p, is_rot Rm -> unit_q (po_q p) ->
  let p' := apply_align (Rm, t, s) p in
  po_p p' = v3add (v3scal s (m3v Rm (po_p p))) t /\ unit_q (po_q p') /\
  m3tr (quat_2_Rot (po_q p')) = m3mul Rm (m3tr (quat_2_Rot (po_q p))).
Proof. exact apply_align_spec. Qed.
Print Assumptions C67_aligned_pose.
(** no out-of-range access; the relative errors are those of the segments of C51, as angles and distances between the relative poses *)
Theorem C67_relative_errors : forall svd est gt m r dst, traj_wf est -> traj_wf gt -> unit_traj est -> unit_traj gt -> orth_svd svd -> result_new svd est gt m = Ok r ->
  exists acc l o p, accum_distances (t_poses (r_gt r)) = Ok acc /\ rpe_errors r dst = Ok l /\
    (forall e, In e l -> exists i j c1 c2 g1 g2 di, nth_error acc i = Some di /\ nearest_from acc (di + dst) 0.5 i (Some j) /\
      nth_error (r_est2gt r) i = Some c1 /\ nth_error (r_est2gt r) j = Some c2 /\ nth_error (t_poses (r_gt r)) i = Some g1 /\ nth_error (t_poses (r_gt r)) j = Some g2 /\
      apart (rel_R g1 g2) (rel_R c1 c2) (fst e) /\ snd e = EvalSpec.dist (rel_p c1 c2) (rel_p g1 g2)) /\
    (forall i j di, nth_error acc i = Some di -> nearest_from acc (di + dst) 0.5 i (Some j) -> exists e c1 c2 g1 g2, In e l /\
      nth_error (r_est2gt r) i = Some c1 /\ nth_error (r_est2gt r) j = Some c2 /\ nth_error (t_poses (r_gt r)) i = Some g1 /\ nth_error (t_poses (r_gt r)) j = Some g2 /\
      apart (rel_R g1 g2) (rel_R c1 c2) (fst e) /\ snd e = EvalSpec.dist (rel_p c1 c2) (rel_p g1 g2)) /\
    calculate_rpe r [dst] = Ok [(dst, (o, p))] /\ (l <> [] -> calc_facts stats_new o (map fst l) /\ calc_facts stats_new p (map snd l)).
Proof. exact relative_thm. Qed.
Print Assumptions C67_relative_errors.
(** the absolute errors are the angle and the distance between aligned estimate and groundtruth; the statistics are those of these numbers alone,
    whatever the objects passed in held before (apart from the old rmse, see C49) *)
Theorem C67_absolute_errors : forall svd est gt m r ori pos, traj_wf est -> traj_wf gt -> unit_traj est -> unit_traj gt -> orth_svd svd -> result_new svd est gt m = Ok r ->
  0 <= s_rmse ori -> 0 <= s_rmse pos ->
  exists l o p, ate_errors r = Ok l /\ Forall2 abs_error l (combine (r_est2gt r) (t_poses (r_gt r))) /\ length l = length (t_poses (r_est r)) /\
    calculate_ate r ori pos = Ok (o, p) /\ calc_facts ori o (map fst l) /\ calc_facts pos p (map snd l).
Proof. exact absolute_thm. Qed.
Print Assumptions C67_absolute_errors.
(** a trajectory that differs from the groundtruth by a rigid motion has zero relative error,
    and relative position errors do not depend on the frame of the estimate *)
Theorem C67_relative_error_of_moved : forall Rm t c1 c2 g1 g2, is_rot Rm -> unit_q (po_q c2) -> unit_q (po_q g1) -> unit_q (po_q g2) ->
  moves Rm t g1 c1 -> moves Rm t g2 c2 -> rpe_one c1 c2 g1 g2 = (0, 0).
Proof. exact rpe_zero. Qed.
Print Assumptions C67_relative_error_of_moved.
Theorem C67_relative_error_frame_free : forall Rm t c1 c2 c1' c2' g1 g2, is_rot Rm -> unit_q (po_q c2) -> unit_q (po_q c2') ->
  moves Rm t c1 c1' -> moves Rm t c2 c2' -> snd (rpe_one c1' c2' g1 g2) = snd (rpe_one c1 c2 g1 g2).
Proof. exact rpe_moved. Qed.
Print Assumptions C67_relative_error_frame_free.
Example C67_ex : exists r, let T := mkT [0; 1; 2] [mkPose v3zero (Q4 0 0 0 1); mkPose (V3 1 0 0) (Q4 0 0 0 1); mkPose (V3 2 0 0) (Q4 0 0 0 1)] [] [] in
  traj_wf T /\ unit_traj T /\ orth_svd (fun _ => (m3id, v3zero, m3id)) /\ result_new (fun _ => (m3id, v3zero, m3id)) T T NoAlign = Ok r.
Proof.
  eexists. cbv zeta. split; [split; [reflexivity|left; reflexivity]|].
  split; [intros p H; cbn in H; repeat (destruct H as [<-|H]; [unfold unit_q; cbn; ring|]); destruct H|].
  split; [intros C; split; split; apply m3_ext; cbn; ring|]. unfold result_new, perform_association.
  replace (assoc_loop 0 0.02 0 _ _) with [(0, 0); (1, 1); (2, 2)]%nat by (cbn; rb; reflexivity). cbn. reflexivity.
Qed.
