(** C100, C101, C102: the constructor of the simulator. *)
From Coq Require Import Reals Lra Lia List Arith ZArith Bool.
From Verif Require Import Outcome GeoModel GeoSpec DbModel BsplModel BsplSpec BsplThms BsplCtrl SimModel SimSpec SimsModel SimsSpec SimsProofs SimsMap SimsThms SimsFed SimsEx.
Import ListNotations.
Open Scope R_scope.

(** The hypotheses [uniform], start [tmin + 2 dt] of the theorems below hold of every trajectory of at
    least two lines. *)
Theorem C100_fed p0 p1 rest : exists sp tmin dt n, feed_trajectory (p0 :: p1 :: rest) [] = Ok sp /\
  uniform (BsplModel.sp_ctrl sp) tmin dt n /\ BsplModel.sp_start sp = Some (tmin + 2 * dt) /\
  exists Rf pf, pose_curve (BsplModel.sp_ctrl sp) Rf pf.
Proof. exact (fed p0 p1 rest). Qed.
Print Assumptions C100_fed.
(** The simulation starts, with all its clocks equal and a bias history of zeros, at the first camera
    tick by which the way along the ticks exceeds the threshold. *)
Theorem C100_start dist und b mind th pert w u l tmin dt n Rf pf h o m : uniform l tmin dt n -> pose_curve l Rf pf -> 0 < sp_fc b ->
  sim_new dist und b mind th pert w u l (Some (tmin + 2 * dt)) h o = Ok m ->
  exists k, let t0 := tmin + 2 * dt + INR k * (1 / sp_fc b) in
    first_beyond pf (tmin + 2 * dt) (1 / sp_fc b) th k /\ t0 < finish tmin dt n /\ md_sim m = sim_init (md_par m) t0 v3zero v3zero.
Proof. exact (new_start dist und b mind th pert w u l tmin dt n Rf pf h o m). Qed.
Print Assumptions C100_start.
(** A trajectory which stays within the threshold ends the program, and so does one too short to give a
    start time. *)
Theorem C100_exit dist und b mind th pert w u l tmin dt n Rf pf h o : uniform l tmin dt n -> pose_curve l Rf pf -> 0 < sp_fc b -> pointers_ok h o ->
  (forall k, tmin + 2 * dt + INR k * (1 / sp_fc b) < finish tmin dt n -> walked pf (tmin + 2 * dt) (1 / sp_fc b) k <= th) ->
  sim_new dist und b mind th pert w u l (Some (tmin + 2 * dt)) h o = Exit.
Proof. exact (new_still dist und b mind th pert w u l tmin dt n Rf pf h o). Qed.
Print Assumptions C100_exit.
Theorem C100_nan dist und b mind th pert w u l h o : pointers_ok h o -> sim_new dist und b mind th pert w u l None h o = Exit.
Proof. exact (new_nan dist und b mind th pert w u l h o). Qed.
Print Assumptions C100_nan.
(** Otherwise, with a calibration for every camera, the constructor ends regularly. *)
Theorem C100_defined dist und b mind th pert w u l tmin dt n Rf pf h o k : uniform l tmin dt n -> pose_curve l Rf pf -> 0 < sp_fc b -> pointers_ok h o -> calibrated h o ->
  first_beyond pf (tmin + 2 * dt) (1 / sp_fc b) th k -> tmin + 2 * dt + INR k * (1 / sp_fc b) < finish tmin dt n ->
  exists m, sim_new dist und b mind th pert w u l (Some (tmin + 2 * dt)) h o = Ok m.
Proof. exact (new_defined dist und b mind th pert w u l tmin dt n Rf pf h o k). Qed.
Print Assumptions C100_defined.
(** case: seven lines of a trajectory at rest until 2 s; the way exceeds 1 cm at 2.5 s, third tick *)
Example C100_ex : (exists sp, feed_trajectory sx_pts [] = Ok sp /\ BsplModel.sp_ctrl sp = sx_l /\ BsplModel.sp_start sp = Some (0 + 2 * 1)) /\
  uniform sx_l 0 1 5 /\ pointers_ok sx_h (sx_o 2) /\ calibrated sx_h (sx_o 2) /\
  exists m, sim_new sx_dist sx_und sx_b (1 / 10) (1 / 100) false (fun _ => 0) sx_u sx_l (Some 2) sx_h (sx_o 2) = Ok m /\ sm_t (md_sim m) = 5 / 2.
Proof.
  split; [destruct sx_feed as (sp & A & B & C); exists sp; replace (0 + 2 * 1) with 2 by ring; auto|]. split; [exact sx_uniform|]. split; [apply sx_pointers|]. split; [apply sx_calibrated; lia|].
  eexists; split; [apply sx_new2|reflexivity].
Qed.

(** ** C101 *)
(** In every synthetic frame, four per second, every camera sees at least num_pts map points. *)
Theorem C101_enough dist und b mind th pert w u l tmin dt n Rf pf h o m : uniform l tmin dt n -> pose_curve l Rf pf ->
  sim_new dist und b mind th pert w u l (Some (tmin + 2 * dt)) h o = Ok m ->
  forall i k, (i < vo_ncam o)%nat -> tmin + 2 * dt + INR k * (1 / 4) < finish tmin dt n ->
  (forall j, tmin + 2 * dt + INR j * (1 / 4) < finish tmin dt n -> is_rot (Rf (tmin + 2 * dt + INR j * (1 / 4)))) ->
  unit_q (fst (sp_ext (md_par m) i)) -> 1 / 10 <= mind <= sp_maxd b ->
  0 <= fst (sp_size (md_par m) i) -> 0 <= snd (sp_size (md_par m) i) ->
  (forall uv, in_image (md_par m) i uv -> sp_distort (md_par m) i (sp_undistort (md_par m) i uv) = uv) ->
  (forall j, 0 <= fst (fst (u j)) <= 1 /\ 0 <= snd (fst (u j)) <= 1 /\ 0 <= snd (u j) <= 1) ->
  exists ids, sees (md_par m) i (Rf (tmin + 2 * dt + INR k * (1 / 4))) (pf (tmin + 2 * dt + INR k * (1 / 4))) (md_map m) ids /\ (sp_npts b <= length ids)%nat.
Proof. exact (map_enough dist und b mind th pert w u l tmin dt n Rf pf h o m). Qed.
Print Assumptions C101_enough.
(** Every map point was made because some camera saw too few at some synthetic frame; it lies on the ray
    of its pixel there, at its depth. *)
Theorem C101_points dist und b mind th pert w u l tmin dt n Rf pf h o m : uniform l tmin dt n -> pose_curve l Rf pf ->
  sim_new dist und b mind th pert w u l (Some (tmin + 2 * dt)) h o = Ok m ->
  forall pre id f post, md_map m = pre ++ (id, f) :: post ->
  (forall j, tmin + 2 * dt + INR j * (1 / 4) < finish tmin dt n -> is_rot (Rf (tmin + 2 * dt + INR j * (1 / 4)))) ->
  (forall i, (i < vo_ncam o)%nat -> unit_q (fst (sp_ext (md_par m) i))) ->
  id = length pre /\ exists i k ids, (i < vo_ncam o)%nat /\ tmin + 2 * dt + INR k * (1 / 4) < finish tmin dt n /\
    on_ray (md_par m) i (Rf (tmin + 2 * dt + INR k * (1 / 4))) (pf (tmin + 2 * dt + INR k * (1 / 4))) f
      (fst (fst (u id)) * fst (sp_size (md_par m) i), snd (fst (u id)) * snd (sp_size (md_par m) i)) (mind + snd (u id) * (sp_maxd b - mind)) /\
    sees (md_par m) i (Rf (tmin + 2 * dt + INR k * (1 / 4))) (pf (tmin + 2 * dt + INR k * (1 / 4))) pre ids /\ (length ids < sp_npts b)%nat.
Proof. exact (map_points dist und b mind th pert w u l tmin dt n Rf pf h o m). Qed.
Print Assumptions C101_points.
(** The ids are consecutive; with more cameras the map only gets longer at its end. *)
Theorem C101_ids dist und b mind th pert w u l tmin dt n Rf pf h o m : uniform l tmin dt n -> pose_curve l Rf pf ->
  sim_new dist und b mind th pert w u l (Some (tmin + 2 * dt)) h o = Ok m ->
  map fst (md_map m) = seq 0 (length (md_map m)) /\ md_id m = length (md_map m).
Proof. exact (map_ids_ok dist und b mind th pert w u l tmin dt n Rf pf h o m). Qed.
Print Assumptions C101_ids.
Theorem C101_prefix dist und b mind th pert w u l st h o n' m m' : (vo_ncam o <= n')%nat ->
  sim_new dist und b mind th pert w u l st h o = Ok m -> sim_new dist und b mind th pert w u l st h (with_cams o n') = Ok m' ->
  (exists tmin dt n Rf pf, uniform l tmin dt n /\ pose_curve l Rf pf /\ st = Some (tmin + 2 * dt)) ->
  exists more, md_map m' = md_map m ++ more.
Proof. exact (map_prefix dist und b mind th pert w u l st h o n' m m'). Qed.
Print Assumptions C101_prefix.
(** Two wider claims are false.  A camera frame between the synthetic ones may see fewer than num_pts
    points; and the measurements of the first camera may change when a second one is added. *)
Theorem C101_between_refuted : exists l st h o b n' i t Q x m m',
  (exists pts sp, feed_trajectory pts [] = Ok sp /\ BsplModel.sp_ctrl sp = l /\ BsplModel.sp_start sp = st) /\
  sim_new sx_dist sx_und b (1 / 10) (1 / 100) false (fun _ => 0) sx_u l st h o = Ok m /\
  sim_new sx_dist sx_und b (1 / 10) (1 / 100) false (fun _ => 0) sx_u l st h (with_cams o n') = Ok m' /\
  (i < vo_ncam o < n')%nat /\ get_pose l t = Ok (true, (Q, x)) /\
  (length (project_pointcloud (md_par m) Q x i (md_map m)) < sp_npts b)%nat /\
  forall nz, cam_feats (md_par m') Q x (md_map m') nz i <> cam_feats (md_par m) Q x (md_map m) nz i.
Proof. exact sx_between_ex. Qed.
Print Assumptions C101_between_refuted.
(** case: the maps of one and of two cameras, four frames each *)
Example C101_ex : (exists m, sx_new false (fun _ => 0) 1 = Ok m /\ md_map m = sx_map0) /\
  (exists m, sx_new false (fun _ => 0) 2 = Ok m /\ md_map m = sx_map0 ++ sx_map1 /\
     unit_q (fst (sp_ext (md_par m) 1)) /\ forall uv, sp_distort (md_par m) 1 (sp_undistort (md_par m) 1 uv) = uv).
Proof.
  split; [eexists; split; [apply sx_new1|reflexivity]|]. eexists; split; [apply sx_new2|]. split; [reflexivity|]. split.
  - unfold unit_q. cbn. ring.
  - intros [x y]. cbn [sx_made md_par sx_par spar_of sp_distort sp_undistort]. cbn. unfold sx_dist, sx_und; cbn [fst snd]. f_equal; field.
Qed.

(** ** C102 *)
(** The simulator measures with the values it was given: its own copy of the options has them, with
    camera objects no option of the caller points to, whether or not the caller's are perturbed. *)
Theorem C102_truth dist und b mind th pert w u l st h o m : sim_new dist und b mind th pert w u l st h o = Ok m ->
  md_true m = set_cams o (vo_cams (md_true m)) /\
  (forall i, alook (vo_cams o) i = None <-> alook (vo_cams (md_true m)) i = None) /\
  (forall i a c, alook (vo_cams o) i = Some a -> nth_error h a = Some c -> exists a', alook (vo_cams (md_true m)) i = Some a' /\
     nth_error (md_heap m) a' = Some c /\ (forall j, alook (vo_cams (md_user m)) j <> Some a') /\
     sp_distort (md_par m) i = dist c /\ sp_undistort (md_par m) i = und c /\ sp_size (md_par m) i = (co_w c, co_h c)) /\
  (forall i e, alook (vo_ext o) i = Some e -> sp_ext (md_par m) i = e) /\ sp_dt (md_par m) = vo_dt o.
Proof. exact (truth_kept dist und b mind th pert w u l st h o m). Qed.
Print Assumptions C102_truth.
(** The caller's options: each calibration value is the one given plus the stated multiple of a normal
    value of its own, everything else unchanged. *)
Theorem C102_perturbed dist und b mind th w u l st h o m : no_sharing o -> sim_new dist und b mind th true w u l st h o = Ok m ->
  exists h2, (forall a c, nth_error h a = Some c -> nth_error h2 a = Some c) /\ perturbed w h2 o (md_heap m) (md_user m).
Proof. exact (new_perturbed dist und b mind th w u l st h o m). Qed.
Print Assumptions C102_perturbed.
Theorem C102_independent o p q : valid o p -> valid o q -> src o p = src o q -> p = q.
Proof. exact (src_inj o p q). Qed.
Print Assumptions C102_independent.
(** Without perturbation the caller's options and camera objects stay as they are. *)
Theorem C102_off dist und b mind th w u l st h o m : sim_new dist und b mind th false w u l st h o = Ok m ->
  md_user m = o /\ forall a c, nth_error h a = Some c -> nth_error (md_heap m) a = Some c.
Proof. exact (new_off dist und b mind th w u l st h o m). Qed.
Print Assumptions C102_off.
(** The cameras' generators do not give independent noise: they all start from the same seed, so equally
    placed measurements of two cameras are off by the same amount. *)
Theorem C102_noise_refuted : ~ exists strm sigma seed o i j si sj k m,
  i <> j /\ nth_error (snd (meas_seeds seed o)) i = Some si /\ nth_error (snd (meas_seeds seed o)) j = Some sj /\
  px_noise strm sigma si k m <> px_noise strm sigma sj k m.
Proof. exact same_noise. Qed.
Print Assumptions C102_noise_refuted.
(** two cameras do have generators *)
Example C102_noise_ex : snd (meas_seeds 7 (sx_o 2)) = [7; 7]%Z.
Proof. reflexivity. Qed.
(** case: the normal values are 1, 2, 3, ...; second camera, first row of the intrinsics, and clock offset *)
Example C102_ex : no_sharing (sx_o 2) /\ exists m c, sx_new true (fun k => INR (S k)) 2 = Ok m /\
  alook (vo_cams (md_user m)) 1 = Some 1%nat /\ nth_error (md_heap m) 1 = Some c /\ co_val c 0 = 90 + INR 16 /\ vo_dt (md_user m) = 1 / 100 /\
  sp_dt (md_par m) = 0 /\ exists e, alook (vo_ext (md_user m)) 1 = Some e /\ snd e = V3 (1 / 100 * INR 27) (1 / 100 * INR 28) (- 12 / 1000 + 1 / 100 * INR 29).
Proof. exact pert_ex. Qed.
