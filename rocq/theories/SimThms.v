(** Simulator: what the estimator is fed, and the simulated pixels. *)
From Coq Require Import Reals Lra Lia List Arith Bool Sorting.Sorted FinFun.
From Verif Require Import Outcome RBool GeoModel GeoSpec GeoProofs ImuModel PropModel SimModel SimSpec SimProofs.
Import ListNotations.
Open Scope R_scope.

Definition imus (l : list event) : list imu := flat_map (fun e => match e with EImu m => [m] | _ => [] end) l.
Lemma imu_times_imus l : imu_times l = map i_t (imus l).
Proof. induction l as [|[m|t tc fs] l IH]; cbn; [reflexivity|f_equal; exact IH|exact IH]. Qed.
Lemma feeds_imu l : forall bt b, fed_imu (feeds bt b l) = imus l.
Proof.
  induction l as [|[m|t tc fs] l IH]; intros bt b; cbn [feeds imus flat_map]; [reflexivity| |].
  - cbn. f_equal. apply IH.
  - unfold fed_imu. rewrite flat_map_app. destruct (Reqb bt (-1)); cbn; apply IH.
Qed.
Lemma feeds_frames_buf l : forall bt b, bt <> -1 -> (forall f, In f (cam_frames l) -> fst f <> -1) ->
  fed_frames (feeds bt b l) = removelast ((bt, b) :: cam_frames l).
Proof.
  induction l as [|[m|t tc fs] l IH]; intros bt b Hb Hl; cbn [feeds cam_frames flat_map app]; [reflexivity| |].
  - cbn. apply IH; auto.
  - destruct (Reqb bt (-1)) eqn:E; [apply Reqb_true in E; congruence|].
    cbn [app]. change (fed_frames (FCam bt b :: feeds tc fs l)) with ((bt, b) :: fed_frames (feeds tc fs l)). rewrite IH.
    + reflexivity.
    + apply (Hl (tc, fs)). cbn. auto.
    + intros f Hf. apply Hl. cbn. auto.
Qed.
Lemma feeds_frames l : (forall f, In f (cam_frames l) -> fst f <> -1) -> forall b, fed_frames (feeds (-1) b l) = removelast (cam_frames l).
Proof.
  induction l as [|[m|t tc fs] l IH]; intros Hl b; cbn [feeds cam_frames flat_map app]; [reflexivity| |].
  - cbn. apply IH; auto.
  - destruct (Reqb (-1) (-1)) eqn:E; [|apply Reqb_false in E; congruence].
    cbn [app]. apply feeds_frames_buf; [apply (Hl (tc, fs)); cbn; auto|]. intros f Hf. apply Hl. cbn. auto.
Qed.
Lemma feeds_split l : forall bt b pre tc fs post, feeds bt b l = pre ++ FCam tc fs :: post ->
  exists epre T' tc' fs' epost, l = epre ++ ECam T' tc' fs' :: epost /\ fed_imu pre = imus epre /\
    tc = last (map fst (cam_frames epre)) bt /\ tc <> -1.
Proof.
  induction l as [|[m|t tc0 fs0] l IH]; intros bt b pre tc fs post E; cbn [feeds] in E; [destruct pre; discriminate| |].
  - destruct pre as [|x pre]; [discriminate|]. injection E as <- E. destruct (IH _ _ _ _ _ _ E) as (epre & T' & tc' & fs' & epost & -> & H2 & H3).
    exists (EImu m :: epre), T', tc', fs', epost. split; [reflexivity|]. split; [cbn; f_equal; exact H2|exact H3].
  - destruct (Reqb bt (-1)) eqn:Eb; cbn [app] in E.
    + destruct (IH _ _ _ _ _ _ E) as (epre & T' & tc' & fs' & epost & -> & H2 & H3 & H4).
      exists (ECam t tc0 fs0 :: epre), T', tc', fs', epost. split; [reflexivity|]. split; [exact H2|]. split; [|exact H4].
      rewrite H3. cbn. symmetry. apply (last_cons).
    + destruct pre as [|x pre].
      * injection E as -> -> _. exists [], t, tc0, fs0, l. split; [reflexivity|]. split; [reflexivity|]. split; [reflexivity|]. apply Reqb_false in Eb. exact Eb.
      * injection E as <- E. destruct (IH _ _ _ _ _ _ E) as (epre & T' & tc' & fs' & epost & -> & H2 & H3 & H4).
        exists (ECam t tc0 fs0 :: epre), T', tc', fs', epost. split; [reflexivity|]. split; [exact H2|]. split; [|exact H4].
        rewrite H3. cbn. symmetry. apply (last_cons).
Qed.
Lemma ticks_next x y z : forall a d n, x ++ y :: z = ticks a d n -> y = last x a + d.
Proof.
  induction x as [|x0 x IH]; intros a d n E; (destruct n as [|n]; [try discriminate; cbn in E; discriminate|]); rewrite ticks_S in E.
  - injection E as -> _. reflexivity.
  - injection E as -> E. rewrite last_cons. apply (IH _ _ _ E).
Qed.
Lemma ticks_ge a d n x : 0 < d -> In x (ticks a d n) -> a < x.
Proof. intros Hd H. apply in_map_iff in H. destruct H as (k & <- & Hk). apply in_seq in Hk. assert (0 < INR k) by (apply lt_0_INR; lia). nra. Qed.

Lemma stamps p w d n : forall s, let '(s', es) := run p w d n s in map fst (cam_frames es) = map (fun t => t - sp_dt p) (cam_times es).
Proof.
  induction n as [|n IH]; intros s; cbn [run]; [reflexivity|]. destruct (sm_run s); [|reflexivity].
  assert (P : let '(s', es) := poll p w (d n) s in map fst (cam_frames es) = map (fun t => t - sp_dt p) (cam_times es)).
  { unfold poll. destruct (get_next_imu _ _ _ _ _ _ _) as [s1 ei].
    pose proof (cam_cases p w (dr_px (d n)) s1) as HC. destruct (get_next_cam p (wo_pose w) (wo_map w) (dr_px (d n)) s1) as [s2 ec].
    destruct HC as [(_ & -> & _)|(_ & _ & _ & J3 & _ & _ & _ & _ & [(_ & _ & ->)|(Q & t & _ & _ & ->)])]; destruct ei; cbn; try reflexivity; rewrite J3; reflexivity. }
  destruct (poll p w (d n) s) as [s1 e1]. specialize (IH s1). destruct (run p w d n s1) as [s2 e2].
  unfold cam_frames, cam_times in *. rewrite !flat_map_app, !map_app, P, IH. reflexivity.
Qed.

Lemma last_in (l : list R) a : l = [] \/ In (last l a) l.
Proof.
  induction l as [|x l IH]; [auto|]. right. destruct l as [|y l]; [left; reflexivity|]. right. destruct IH as [IH|IH]; [discriminate|].
  rewrite last_cons. rewrite last_cons in IH. rewrite last_cons. exact IH.
Qed.
Lemma last_map0 (f : R -> R) l : forall a, last (map f l) (f a) = f (last l a).
Proof. induction l as [|x l IH]; intros a; [reflexivity|]. cbn [map]. rewrite !last_cons. apply IH. Qed.
Lemma last_map (f : R -> R) l a b : l <> [] -> last (map f l) b = f (last l a).
Proof. intros H. destruct l as [|x l]; [congruence|]. cbn [map]. rewrite !last_cons. apply last_map0. Qed.

(** when a camera frame is handed over, an inertial reading at or after its true time has been *)
Lemma covered p w d n t0 bg ba pre tc fs post : rates_ok p -> sp_fc p <= sp_fi p -> spline_interval t0 w ->
  feeds (-1) [] (snd (run p w d n (sim_init p t0 bg ba))) = pre ++ FCam tc fs :: post ->
  exists m, In m (fed_imu pre) /\ tc + sp_dt p <= i_t m.
Proof.
  intros Hp Hf HS E. pose proof (di_pos p Hp) as Di. pose proof (dc_pos p Hp) as Dc.
  pose proof (run_sees p w Hp t0 d n HS (sim_init p t0 bg ba) (Rle_refl _) eq_refl) as RS.
  pose proof (run_emitted p w d n (sim_init p t0 bg ba) eq_refl) as RE.
  pose proof (stamps p w d n (sim_init p t0 bg ba)) as ST.
  destruct (run p w d n (sim_init p t0 bg ba)) as [s' es]. cbn [snd] in E.
  destruct (feeds_split _ _ _ _ _ _ _ E) as (epre & T' & tc' & fs' & epost & -> & H2 & H3 & H4).
  destruct RS as [_ RS]. specialize (RS epre (ECam T' tc' fs') epost eq_refl). cbn [sees sim_init sm_imu] in RS.
  destruct RE as (a & b & (_ & RC & _) & _). cbn [sim_init sm_cam] in RC.
  unfold cam_times in RC, ST. unfold cam_frames in ST. rewrite flat_map_app in RC. cbn [flat_map app] in RC. pose proof (ticks_next _ _ _ _ _ _ RC) as HT.
  rewrite !flat_map_app, !map_app in ST. 
  assert (ST' : map fst (cam_frames epre) = map (fun t => t - sp_dt p) (cam_times epre)).
  { assert (LL : length (map fst (cam_frames epre)) = length (map (fun t => t - sp_dt p) (cam_times epre))).
    { rewrite !map_length. unfold cam_frames, cam_times. clear. induction epre as [|[m|t tc fs] l IH]; cbn; auto. }
    apply (f_equal (firstn (length (map fst (cam_frames epre))))) in ST. 
    rewrite firstn_app, LL in ST. unfold cam_frames in LL. rewrite <- LL in ST at 2. rewrite Nat.sub_diag, firstn_O, app_nil_r in ST.
    rewrite <- LL in ST at 1. rewrite firstn_all in ST. rewrite firstn_app in ST. unfold cam_times in ST. rewrite Nat.sub_diag, firstn_O, app_nil_r, firstn_all in ST. exact ST. }
  fold (cam_times epre) in *.
  destruct (list_eq_dec Req_EM_T (cam_times epre) []) as [En|En].
  { rewrite ST', En in H3. cbn in H3. congruence. }
  rewrite ST', (last_map _ _ t0) in H3 by auto.
  set (T := last (cam_times epre) t0) in *.
  assert (LT : t0 < T).
  { apply (ticks_ge _ _ b _ Dc). rewrite <- RC. apply in_or_app. left. destruct (last_in (cam_times epre) t0) as [|Hin]; [congruence|exact Hin]. }
  assert (DD : 1 / sp_fi p <= 1 / sp_fc p). { destruct Hp. unfold Rdiv. apply Rmult_le_compat_l; [lra|]. apply Rinv_le_contravar; lra. }
  assert (LL : T <= last_of t0 epre) by lra.
  destruct (last_in (imu_times epre) t0) as [E0|E0].
  { exfalso. unfold last_of in LL. rewrite E0 in LL. cbn in LL. lra. }
  fold (last_of t0 epre) in E0. rewrite imu_times_imus in E0. apply in_map_iff in E0. destruct E0 as (m & Em & Hm).
  exists m. rewrite H2. split; [exact Hm|]. rewrite Em. lra.
Qed.

(** ** pixels *)
Lemma project_one_spec p i Q t f id uv : In (id, uv) (project_one p i Q t f) <-> id = fst f /\ true_pixel p i Q t (snd f) uv /\ in_image p i uv.
Proof.
  unfold project_one, true_pixel, in_image, to_cam. cbv zeta.
  set (c := v3add (m3v (quat_2_Rot (fst (sp_ext p i))) (m3v Q (v3sub (snd f) t))) (snd (sp_ext p i))).
  split.
  - destruct (Rltb_spec (sp_maxd p) (vz c)); [intros []|]. destruct (Rltb_spec (vz c) (1 / 10)); [intros []|]. cbn [orb].
    set (q := sp_distort p i (vx c / vz c, vy c / vz c)).
    destruct (Rltb_spec (fst q) 0); [intros []|]. destruct (Rltb_spec (fst (sp_size p i)) (fst q)); [intros []|].
    destruct (Rltb_spec (snd q) 0); [intros []|]. destruct (Rltb_spec (snd (sp_size p i)) (snd q)); [intros []|]. cbn [orb].
    intros [E|[]]. injection E as <- <-. split; [reflexivity|]. split; [exists c; split; [reflexivity|split; [lra|reflexivity]]|lra].
  - intros (-> & (c' & -> & Hz & ->) & Hi). fold c in Hz, Hi |- *.
    destruct (Rltb_spec (sp_maxd p) (vz c)); [lra|]. destruct (Rltb_spec (vz c) (1 / 10)); [lra|]. cbn [orb].
    set (q := sp_distort p i (vx c / vz c, vy c / vz c)) in *.
    destruct (Rltb_spec (fst q) 0); [lra|]. destruct (Rltb_spec (fst (sp_size p i)) (fst q)); [lra|].
    destruct (Rltb_spec (snd q) 0); [lra|]. destruct (Rltb_spec (snd (sp_size p i)) (snd q)); [lra|]. cbn [orb]. left. reflexivity.
Qed.
Lemma project_spec p i Q t feats id uv : In (id, uv) (project_pointcloud p Q t i feats) <->
  exists pf, In (id, pf) feats /\ true_pixel p i Q t pf uv /\ in_image p i uv.
Proof.
  unfold project_pointcloud. rewrite in_flat_map. split.
  - intros ([fid pf] & Hf & H). apply project_one_spec in H. destruct H as (-> & H). cbn in *. eauto.
  - intros (pf & Hf & H). exists (id, pf). split; [exact Hf|]. apply project_one_spec. split; [reflexivity|exact H].
Qed.
Lemma project_ids p i Q t feats : NoDup (map fst feats) -> NoDup (map fst (project_pointcloud p Q t i feats)).
Proof.
  induction feats as [|f feats IH]; intros H; [constructor|]. cbn in H. inversion H as [|x l N1 N2]; subst.
  unfold project_pointcloud. cbn [flat_map]. fold (project_pointcloud p Q t i feats). rewrite map_app.
  assert (S1 : project_one p i Q t f = [] \/ exists uv, project_one p i Q t f = [(fst f, uv)]).
  { unfold project_one. cbv zeta. destruct (_ || _); [auto|]. destruct (_ || _); eauto. }
  destruct S1 as [-> |(uv & ->)]; cbn; [auto|]. constructor; [|auto].
  intros Hin. apply in_map_iff in Hin. destruct Hin as ([id uv'] & E & Hin). apply project_spec in Hin. destruct Hin as (pf & Hf & _).
  cbn in E. subst id. apply N1. apply (in_map fst) in Hf. exact Hf.
Qed.

Lemma combine_seq_in {A} (l : list A) : forall k j (a : A), In (j, a) (combine (seq k (length l)) l) -> In a l /\ (k <= j < k + length l)%nat.
Proof.
  induction l as [|x l IH]; intros k j a H; [destruct H|]. cbn in H. destruct H as [H|H].
  - injection H as <- <-. split; [left; reflexivity|cbn; lia].
  - apply IH in H. split; [right; apply H|cbn; lia].
Qed.
Lemma cam_feats_ids p Q t feats nz i : map fst (cam_feats p Q t feats nz i) =
  map (fun f => if sp_stereo p then f else f + i * length feats)%nat (map fst (firstn (sp_npts p) (project_pointcloud p Q t i feats))).
Proof.
  unfold cam_feats. cbv zeta. set (l := firstn (sp_npts p) (project_pointcloud p Q t i feats)). rewrite map_map.
  set (l' := map _ l). transitivity (map fst l').
  - clearbody l'. generalize 0%nat. induction l' as [|x r IH]; intros k; [reflexivity|]. cbn. f_equal. apply IH.
  - unfold l'. rewrite !map_map. reflexivity.
Qed.
Lemma firstn_in {A} n (l : list A) x : In x (firstn n l) -> In x l.
Proof. revert l; induction n as [|n IH]; intros [|y l] H; cbn in *; try tauto. destruct H; auto. Qed.
Lemma firstn_NoDup {A} n (l : list A) : NoDup l -> NoDup (firstn n l).
Proof.
  revert l; induction n as [|n IH]; intros [|y l] H; cbn; try constructor; inversion H; subst; auto.
  intros Hin. apply firstn_in in Hin. auto.
Qed.
Lemma cam_feats_spec p Q t feats nz i id uv : In (id, uv) (cam_feats p Q t feats nz i) ->
  exists fid pf uv0 j, In (fid, pf) feats /\ id = (if sp_stereo p then fid else fid + i * length feats)%nat /\
    true_pixel p i Q t pf uv0 /\ in_image p i uv0 /\ (j < sp_npts p)%nat /\ uv = (fst uv0 + fst (nz j), snd uv0 + snd (nz j)).
Proof.
  unfold cam_feats. cbv zeta. intros H. apply in_map_iff in H. destruct H as ([j [f q]] & E & H). injection E as <- <-.
  apply combine_seq_in in H. destruct H as [H Hj]. rewrite map_length in Hj. apply in_map_iff in H. destruct H as ([fid uv0] & E & H). injection E as <- <-.
  apply firstn_in in H. apply project_spec in H. destruct H as (pf & Hf & H1 & H2). exists fid, pf, uv0, j.
  split; [exact Hf|]. split; [reflexivity|]. split; [exact H1|]. split; [exact H2|]. split; [|reflexivity].
  rewrite firstn_length in Hj. lia.
Qed.
Lemma cam_feats_len p Q t feats nz i : (length (cam_feats p Q t feats nz i) <= sp_npts p)%nat.
Proof. rewrite <- (map_length fst), cam_feats_ids, !map_length, firstn_length. lia. Qed.
Lemma map_ids_nodup feats : map_ids feats -> NoDup (map fst feats) /\ forall f, In f feats -> (fst f < length feats)%nat.
Proof.
  intros H. unfold map_ids in H. split; [rewrite H; apply seq_NoDup|]. intros f Hf. apply (in_map fst) in Hf. rewrite H in Hf. apply in_seq in Hf. lia.
Qed.
Lemma cam_feats_nodup p Q t feats nz i : map_ids feats -> NoDup (map fst (cam_feats p Q t feats nz i)).
Proof.
  intros H. rewrite cam_feats_ids. rewrite <- firstn_map. apply map_ids_nodup in H. destruct H as [H _].
  apply FinFun.Injective_map_NoDup; [intros x y E; destruct (sp_stereo p); lia|]. apply firstn_NoDup. apply project_ids; auto.
Qed.
Lemma cams_disjoint p Q t feats nz nz' i j id : map_ids feats -> sp_stereo p = false -> i <> j ->
  In id (map fst (cam_feats p Q t feats nz i)) -> In id (map fst (cam_feats p Q t feats nz' j)) -> False.
Proof.
  intros H Hs Hij H1 H2. apply map_ids_nodup in H. destruct H as [_ H].
  apply in_map_iff in H1. destruct H1 as ([id1 uv1] & <- & H1). apply in_map_iff in H2. destruct H2 as ([id2 uv2] & E & H2).
  apply cam_feats_spec in H1. apply cam_feats_spec in H2. destruct H1 as (f1 & q1 & _ & _ & I1 & E1 & _), H2 as (f2 & q2 & _ & _ & I2 & E2 & _).
  rewrite Hs in E1, E2. cbn in E. apply H in I1. apply H in I2. cbn in I1, I2.
  assert (X : (f1 + i * length feats = f2 + j * length feats)%nat) by lia. 
  assert (f1 / 1 = f1)%nat by apply Nat.div_1_r.
  apply Hij. 
  assert (D1 : ((f1 + i * length feats) / length feats = i)%nat) by (rewrite Nat.div_add, Nat.div_small by lia; reflexivity).
  assert (D2 : ((f2 + j * length feats) / length feats = j)%nat) by (rewrite Nat.div_add, Nat.div_small by lia; reflexivity).
  rewrite <- D1, <- D2, X. reflexivity.
Qed.

(** ** generated points *)
Lemma generate_ids p i Q t ds : forall id feats, map_ids feats -> id = length feats ->
  let '(id', feats') := generate_points p i Q t ds id feats in map_ids feats' /\ id' = length feats' /\ length feats' = (length feats + length ds)%nat /\
    exists new, feats' = feats ++ new.
Proof.
  induction ds as [|d ds IH]; intros id feats H E; cbn [generate_points].
  { split; [exact H|]. split; [exact E|]. split; [cbn; lia|]. exists []. rewrite app_nil_r. reflexivity. }
  specialize (IH (S id) (feats ++ [(id, gen_point p i Q t d)])).
  destruct (generate_points p i Q t ds (S id) (feats ++ [(id, gen_point p i Q t d)])) as [id' feats'].
  destruct IH as (I1 & I2 & I3 & (new & I4)).
  - unfold map_ids in *. rewrite map_app, app_length, H. cbn. rewrite Nat.add_1_r, seq_S. cbn. congruence.
  - rewrite app_length. cbn. lia.
  - split; [exact I1|]. split; [exact I2|]. split; [rewrite I3, app_length; cbn; lia|]. exists ([(id, gen_point p i Q t d)] ++ new). rewrite I4, app_assoc. reflexivity.
Qed.
Lemma gen_reprojects p i Q t uv depth id : is_rot Q -> unit_q (fst (sp_ext p i)) -> 1 / 10 <= depth <= sp_maxd p ->
  sp_distort p i (sp_undistort p i uv) = uv -> in_image p i uv ->
  In (id, uv) (project_one p i Q t (id, gen_point p i Q t (uv, depth))).
Proof.
  intros HQ Hq Hd Hu Hi. apply project_one_spec. split; [reflexivity|]. split; [|exact Hi].
  cbn [snd]. eexists. split; [reflexivity|].
  assert (HC : is_rot (quat_2_Rot (fst (sp_ext p i)))) by (apply quat_2_Rot_is_rot; auto).
  unfold gen_point. cbv zeta. cbn [fst snd]. set (q := sp_undistort p i uv) in *.
  set (pc := v3scal depth (V3 (fst q) (snd q) 1)). set (C := quat_2_Rot (fst (sp_ext p i))) in *. set (x := snd (sp_ext p i)).
  replace (v3sub (v3add (m3v (m3tr Q) (m3v (m3tr C) (v3sub pc x))) t) t) with (m3v (m3tr Q) (m3v (m3tr C) (v3sub pc x)))
    by (generalize (m3v (m3tr Q) (m3v (m3tr C) (v3sub pc x))); intros u; apply v3_ext; simpl; ring).
  assert (CQ : forall M u, is_rot M -> m3v M (m3v (m3tr M) u) = u).
  { intros M u HM. rewrite <- m3v_mul. assert (E : m3mul M (m3tr M) = m3id) by apply HM. rewrite E. apply m3v_id. }
  rewrite !CQ by auto. replace (v3add (v3sub pc x) x) with pc by (apply v3_ext; simpl; ring).
  unfold pc; cbn [v3scal vx vy vz]. split; [lra|].
  replace (depth * fst q / (depth * 1)) with (fst q) by (field; lra). replace (depth * snd q / (depth * 1)) with (snd q) by (field; lra).
  rewrite <- surjective_pairing, Hu. reflexivity.
Qed.
