(** Properties C54, C73, C74: the simulator. *)
From Coq Require Import Reals Lra Lia List Arith Bool Sorting.Sorted.
From Verif Require Import Outcome GeoModel GeoSpec GeoProofs ImuModel PropModel SimModel SimSpec SimProofs SimThms.
Import ListNotations.
Open Scope R_scope.

(** ** C54 *)
Theorem C54_progress : forall p w d s, sm_run s = true -> let '(s', es) := poll p w d s in es <> [] \/ sm_run s' = false.
Proof. exact poll_progress. Qed.
Print Assumptions C54_progress.
Theorem C54_time_order : forall p w, rates_ok p -> forall d n t0 bg ba, StronglySorted Rle (map ev_time (snd (run p w d n (sim_init p t0 bg ba)))).
Proof.
  intros p w H d n t0 bg ba. pose proof (run_sorted p w H d n (sim_init p t0 bg ba)) as R.
  destruct (run p w d n (sim_init p t0 bg ba)). apply R.
Qed.
Print Assumptions C54_time_order.
(** no measurement is skipped or repeated: each sensor ticks at its rate from the start time *)
Theorem C54_rates : forall p w d n t0 bg ba, exists a b,
  imu_times (snd (run p w d n (sim_init p t0 bg ba))) = ticks t0 (1 / sp_fi p) a /\
  cam_times (snd (run p w d n (sim_init p t0 bg ba))) = ticks t0 (1 / sp_fc p) b /\
  (sm_run (fst (run p w d n (sim_init p t0 bg ba))) = true -> (n <= a + b)%nat).
Proof.
  intros p w d n t0 bg ba. pose proof (run_emitted p w d n (sim_init p t0 bg ba) eq_refl) as R.
  destruct (run p w d n (sim_init p t0 bg ba)). destruct R as (a & b & (R1 & R2 & _) & _ & R3). exists a, b. auto.
Qed.
Print Assumptions C54_rates.
(** a finite trajectory ends the simulation *)
Theorem C54_stops : forall p w T d n t0 bg ba, rates_ok p -> (forall t, wo_acc w t <> None -> t <= T) -> (forall t, wo_pose w t <> None -> t <= T) ->
  t0 <= T -> (T - t0) * sp_fi p + (T - t0) * sp_fc p < INR n -> sm_run (fst (run p w d n (sim_init p t0 bg ba))) = false.
Proof. intros p w T d n t0 bg ba H HA HP Ht Hn. apply (run_stops p w H T); auto. Qed.
Print Assumptions C54_stops.

Definition ex_par : spar :=
  mkSpar 400 20 9 m3id m3id (m3scal 0 m3id) (Q4 0 0 0 1) (Q4 0 0 0 1) 0 10 false 2 7
    (fun i => (Q4 0 0 0 1, V3 (INR i) 0 0)) (fun _ q => (100 * fst q + 50, 100 * snd q + 50)) (fun _ q => ((fst q - 50) / 100, (snd q - 50) / 100)) (fun _ => (100, 100)).
Definition ex_world : world :=
  mkWorld (fun t => if Rle_dec t 10 then Some (m3id, v3zero, v3zero) else None) (fun t => if Rle_dec t 10 then Some (m3id, v3zero) else None) [(0%nat, V3 0 0 2)].
Example C54_ex : rates_ok ex_par /\ spline_interval 0 ex_world /\ sp_fc ex_par <= sp_fi ex_par /\
  (forall t, wo_acc ex_world t <> None -> t <= 10) /\ (forall t, wo_pose ex_world t <> None -> t <= 10) /\
  exists m fs, run ex_par ex_world (fun _ => mkDraws v3zero v3zero v3zero v3zero (fun _ _ => (0, 0))) 1 (sim_init ex_par 0 v3zero v3zero) =
    (mkSim (0 + 1 / 400) (0 + 1 / 400) 0 true (sm_hist (sim_init ex_par 0 v3zero v3zero)) v3zero v3zero true, [EImu m]) /\ i_t m = 0 + 1 / 400 /\ fs = [m].
Proof.
  split; [split; simpl; lra|]. split.
  { intros t t' H HP. simpl in *. destruct (Rle_dec t' 10); [|congruence]. destruct (Rle_dec t 10); [discriminate|lra]. }
  split; [simpl; lra|].
  split. { intros t. simpl. destruct (Rle_dec t 10); [auto|congruence]. }
  split. { intros t. simpl. destruct (Rle_dec t 10); [auto|congruence]. }
  do 2 eexists. split; [|split; [|reflexivity]].
  - unfold run, poll, get_next_imu, get_next_cam, sim_init. cbn -[RBool.Rltb sim_reading Rdiv Rplus].
    rewrite (proj2 (RBool.Rltb_false _ _)) by lra. destruct (Rle_dec (0 + 1 / 400) 10) as [|n]; [|exfalso; apply n; lra].
    unfold sim_reading. cbn -[RBool.Rltb Rdiv Rplus]. rewrite (proj2 (RBool.Rltb_true _ _)) by lra. reflexivity.
  - reflexivity.
Qed.

(** ** C73: ground truth and hand-over *)
Theorem C73_truth_bias : forall p w, rates_ok p -> forall d n t0 bg ba vel,
  let '(s', es) := run p w d n (sim_init p t0 bg ba) in
  forall m, In (EImu m) es ->
    exists b k Q wi ai, (k < n)%nat /\ wo_acc w (i_t m) = Some (Q, wi, ai) /\
      (i_w m, i_a m) = sim_reading (sp_Tw p) (sp_Ta p) (sp_Tg p) (sp_qw p) (sp_qa p) wi (m3v Q (v3add ai (V3 0 0 (sp_grav p))))
         (v3add (fst b) (dr_w (d k))) (v3add (snd b) (dr_a (d k))) /\
      forall Q' x v, vel (i_t m) = Some (Q', x, v) -> get_state vel s' (i_t m) = Ok (Some (i_t m, rot_2_quat Q', x, v, fst b, snd b)).
Proof.
  intros p w H d n t0 bg ba vel. pose proof (truth_bias p w H d n t0 bg ba vel) as T. destruct (run p w d n (sim_init p t0 bg ba)) as [s' es].
  intros m Hm. destruct (T m Hm) as (b & (k & Q & wi & ai & M1 & M2 & M3) & T2). exists b, k, Q, wi, ai. auto.
Qed.
Print Assumptions C73_truth_bias.
Theorem C73_truth_defined : forall p w, rates_ok p -> forall d n t0 bg ba vel,
  let '(s', es) := run p w d n (sim_init p t0 bg ba) in
  forall m t, In (EImu m) es -> t0 - 1 / sp_fi p < t <= i_t m -> vel t <> None -> exists x, get_state vel s' t = Ok (Some x).
Proof. exact truth_defined. Qed.
Print Assumptions C73_truth_defined.
Theorem C73_covered : forall p w d n t0 bg ba pre tc fs post, rates_ok p -> sp_fc p <= sp_fi p -> spline_interval t0 w ->
  feeds (-1) [] (snd (run p w d n (sim_init p t0 bg ba))) = pre ++ FCam tc fs :: post ->
  exists m, In m (fed_imu pre) /\ tc + sp_dt p <= i_t m.
Proof. exact covered. Qed.
Print Assumptions C73_covered.
Theorem C73_all_but_last : forall l, (forall f, In f (cam_frames l) -> fst f <> -1) ->
  fed_frames (feeds (-1) [] l) = removelast (cam_frames l).
Proof. intros l H. apply feeds_frames; auto. Qed.
Print Assumptions C73_all_but_last.
(** a frame stamped exactly -1 is mistaken for the empty buffer and lost *)
Theorem C73_minus_one_refuted : exists l, fed_frames (feeds (-1) [] l) <> removelast (cam_frames l).
Proof.
  exists [ECam 0 (-1) []; ECam 1 0 []]. cbn. destruct (RBool.Reqb (-1) (-1)) eqn:E; [|apply RBool.Reqb_false in E; lra]. cbn. discriminate.
Qed.
Print Assumptions C73_minus_one_refuted.
Example C73_ex : fed_frames (feeds (-1) [] [ECam 1 1 []; EImu (mkImu 2 v3zero v3zero); ECam 3 3 []]) = [(1, [])].
Proof. rewrite feeds_frames; [reflexivity|]. cbn. intros f [<-|[<-|[]]]; cbn; lra. Qed.

(** ** C74: simulated pixels *)
Theorem C74_pixels : forall p Q t feats nz i id uv, In (id, uv) (cam_feats p Q t feats nz i) ->
  exists fid pf uv0 j, In (fid, pf) feats /\ id = (if sp_stereo p then fid else fid + i * length feats)%nat /\
    true_pixel p i Q t pf uv0 /\ in_image p i uv0 /\ (j < sp_npts p)%nat /\ uv = (fst uv0 + fst (nz j), snd uv0 + snd (nz j)).
Proof. exact cam_feats_spec. Qed.
Print Assumptions C74_pixels.
(** projection keeps exactly the visible points *)
Theorem C74_visible : forall p i Q t feats id uv, In (id, uv) (project_pointcloud p Q t i feats) <->
  exists pf, In (id, pf) feats /\ true_pixel p i Q t pf uv /\ in_image p i uv.
Proof. exact project_spec. Qed.
Print Assumptions C74_visible.
Theorem C74_ids : forall p Q t feats nz i, map_ids feats ->
  (length (cam_feats p Q t feats nz i) <= sp_npts p)%nat /\ NoDup (map fst (cam_feats p Q t feats nz i)) /\
  forall nz' j id, sp_stereo p = false -> i <> j ->
    In id (map fst (cam_feats p Q t feats nz i)) -> ~ In id (map fst (cam_feats p Q t feats nz' j)).
Proof.
  intros p Q t feats nz i H. split; [apply cam_feats_len|]. split; [apply cam_feats_nodup; auto|].
  intros nz' j id Hs Hij H1 H2. exact (cams_disjoint p Q t feats nz nz' i j id H Hs Hij H1 H2).
Qed.
Print Assumptions C74_ids.
Theorem C74_generated_ids : forall p i Q t ds feats, map_ids feats ->
  let '(id', feats') := generate_points p i Q t ds (length feats) feats in map_ids feats' /\ id' = length feats' /\
    length feats' = (length feats + length ds)%nat /\ exists new, feats' = feats ++ new.
Proof. intros p i Q t ds feats H. exact (generate_ids p i Q t ds (length feats) feats H eq_refl). Qed.
Print Assumptions C74_generated_ids.
(** a generated point is seen at the pixel it was drawn for *)
Theorem C74_generated_visible : forall p i Q t uv depth id, is_rot Q -> unit_q (fst (sp_ext p i)) -> 1 / 10 <= depth <= sp_maxd p ->
  sp_distort p i (sp_undistort p i uv) = uv -> in_image p i uv ->
  In (id, uv) (project_pointcloud p Q t i [(id, gen_point p i Q t (uv, depth))]).
Proof.
  intros p i Q t uv depth id H1 H2 H3 H4 H5. unfold project_pointcloud. cbn [flat_map]. rewrite app_nil_r. apply gen_reprojects; auto.
Qed.
Print Assumptions C74_generated_visible.
Example C74_ex : is_rot m3id /\ unit_q (fst (sp_ext ex_par 1)) /\ 1 / 10 <= 3 <= sp_maxd ex_par /\
  sp_distort ex_par 1 (sp_undistort ex_par 1 (20, 30)) = (20, 30) /\ in_image ex_par 1 (20, 30) /\ map_ids [(0%nat, v3zero); (1%nat, v3zero)].
Proof.
  split; [apply is_rot_id|]. split; [unfold unit_q; simpl; ring|]. split; [simpl; lra|].
  split; [simpl; f_equal; field|]. split; [unfold in_image; simpl; lra|reflexivity].
Qed.
