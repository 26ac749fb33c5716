(** Camera frames with zero-velocity updates (C76), and the run of a resting sensor used as example. *)
From Coq Require Import Reals List Arith Lia Lra Bool ZArith.
From Verif Require Import RBool Outcome Lin GeoModel GeoSpec GeoProofs TypesModel GivensModel GivensSpec StateModel StateSpec
  StateOps StateOps2 StateOps3 StateInit ReachModel ReachSpec StateReach StateFrame StateThms StateEx ManifoldSpec
  DbModel DbSpec InitModel InitSpec UpdSpec ImuModel ImuSpec ImuProofs PropModel PropSpec
  ZuptModel ZuptSpec ZuptProofs ZuptThms.
Import ListNotations.
Open Scope R_scope.

(** one image fits the manager's state: not older than the state, the propagation and the updates are as in
    C52, the data of the updater are in order and its interval is not empty *)
Record fits (chi2q : nat -> R) (cal : state -> pst * R) (m : vio) (f : frame) : Prop := mkFits
  { ft_time : s_time (vm_st m) <= fr_t f;
    ft_frame : frame_ok chi2q (vm_st m) (fr_t f) (fr_prop f) (fr_mid f);
    ft_db : db_ok (fr_db f) /\ single_obs (fr_db f);
    ft_imu : chrono (fr_imu f);
    ft_int : s_time (vm_st m) < fr_t f ->
      s_time (vm_st m) + (if z_have (vm_z m) then z_off (vm_z m) else snd (cal (vm_st m))) < fr_t f + snd (cal (vm_st m)) }.
Definition vio_ok (chi2q : nat -> R) (m : vio) : Prop :=
  reach chi2q (vm_st m) /\ window_ok (vm_st m) /\ (1 <= o_max_clones (s_opts (vm_st m)))%Z.

Lemma shape_window a b : same_shape a b -> window_ok a -> s_time a <= s_time b -> window_ok b.
Proof.
  intros (O & _ & _ & _ & _ & C & _) (W1 & W2 & W3) T. unfold window_ok, last_le in *. rewrite C, O. split; [exact W1|]. split; [|exact W3].
  intros t Ht. specialize (W2 t Ht). lra.
Qed.

Lemma vio_step chi2q zo cal once m f : zopts_ok zo -> vio_ok chi2q m -> fits chi2q cal m f ->
  exists m', vio_frame chi2q zo cal once m f = Ok m' /\ vio_ok chi2q m' /\ s_time (vm_st m') = fr_t f /\ s_opts (vm_st m') = s_opts (vm_st m) /\
    ((vm_did m' = true /\ s_time (vm_st m) < fr_t f /\ (once = false \/ vm_moved m = false)) -> s_clones (vm_st m') = s_clones (vm_st m)).
Proof.
  intros HZ (HR & HW & HO) [T F [Hd Hs] C I]. set (st := vm_st m) in *. set (t := fr_t f) in *.
  assert (Normal : forall z did, exists m', (do st' <- do_feature_propagate_update chi2q st t (fr_prop f) (fr_mid f);
      do st1 <- (if Rltb t (s_time st) then Ok st else if Reqb (s_time st) t then Ok st else propagate_and_clone st t (fr_prop f));
      Ok (mkVio st' z did (vm_moved m || sets_moved st st1 t))) = Ok m' /\ vio_ok chi2q m' /\ s_time (vm_st m') = t /\ s_opts (vm_st m') = s_opts st /\ vm_did m' = did).
  { intros z did. destruct (frame_step chi2q st t _ _ HR HW HO F) as (st' & E & HR' & HW' & O' & T' & _). rewrite E. cbn [obind].
    assert (X : exists st1, (if Rltb t (s_time st) then Ok st else if Reqb (s_time st) t then Ok st else propagate_and_clone st t (fr_prop f)) = Ok st1).
    { destruct (Rltb_spec t (s_time st)); [eauto|]. destruct (Reqb_spec (s_time st) t) as [Q|Q]; [eauto|].
      destruct (prop_clone_total chi2q st t (fr_prop f) HR (proj1 (proj2 HW))) as (st1 & p & E1 & _); [lra|apply F|eauto]. }
    destruct X as (st1 & E1). rewrite E1. cbn [obind]. eexists. split; [reflexivity|]. cbn [vm_st vm_did].
    split; [unfold vio_ok; cbn [vm_st]; rewrite O'; auto|]. split; [rewrite T'; apply Rmax_right; exact T|auto]. }
  unfold vio_frame. fold st t. cbv zeta.
  destruct (negb once || negb (vm_moved m))%bool eqn:Eo.
  2:{ destruct (Normal (mkZ (fr_imu f) (z_off (vm_z m)) (z_have (vm_z m)) (z_time (vm_z m)) (z_count (vm_z m))) (vm_did m)) as (m' & E & A & B & C' & D).
      exists m'. split; [exact E|]. split; [exact A|]. split; [exact B|]. split; [exact C'|]. intros (_ & _ & K). exfalso.
      apply orb_false_iff in Eo. destruct Eo as [E1 E2]. apply negb_false_iff in E1, E2. destruct K; congruence. }
  destruct (Reqb_spec (s_time st) t) as [Q|Q].
  - cbn [obind]. destruct (vm_did m).
    + destruct (Reqb_spec (s_time st) t); [|contradiction]. cbn [guard]. eexists. split; [reflexivity|]. cbn [vm_st]. split; [split; auto|]. split; [exact Q|]. auto.
    + destruct (Normal (mkZ (fr_imu f) (z_off (vm_z m)) (z_have (vm_z m)) (z_time (vm_z m)) (z_count (vm_z m))) false) as (m' & E & A & B & C' & D).
      exists m'. split; [exact E|]. split; [exact A|]. split; [exact B|]. split; [exact C'|]. intros (K & _). congruence.
  - destruct (returns_thm chi2q zo (fst (cal st)) (snd (cal st)) (mkZ (fr_imu f) (z_off (vm_z m)) (z_have (vm_z m)) (z_time (vm_z m)) (z_count (vm_z m)))
       (fr_db f) st t HR HZ Hd Hs) as (b & z' & d' & st' & E & HR' & Sh & _ & T'); [exact C|cbn; apply I; lra|].
    rewrite E. cbn [obind]. destruct b.
    + destruct (Reqb_spec (s_time st') t); [|contradiction]. cbn [guard]. eexists. split; [reflexivity|]. cbn [vm_st].
      assert (W : window_ok st') by (apply (shape_window st); [exact Sh|exact HW|rewrite T'; exact T]).
      destruct Sh as (O & _ & _ & _ & _ & Cl & _). split; [split; [exact HR'|split; [exact W|cbn; rewrite O; exact HO]]|]. auto.
    + destruct (reject_thm _ _ _ _ _ _ _ _ _ _ _ E) as (-> & _).
      destruct (Normal z' false) as (m' & E' & A & B & C' & D).
      exists m'. split; [exact E'|]. split; [exact A|]. split; [exact B|]. split; [exact C'|]. intros (K & _). congruence.
Qed.

(** the manager after initialization, then images *)
Inductive vio_state (chi2q : nat -> R) (zo : zopts) (cal : state -> pst * R) (once : bool) : vio -> Prop :=
| vs_start st z did moved : reach chi2q st -> s_clones st = [] -> (1 <= o_max_clones (s_opts st))%Z ->
    vio_state chi2q zo cal once (mkVio st z did moved)
| vs_frame m f m' : vio_state chi2q zo cal once m -> fits chi2q cal m f -> vio_frame chi2q zo cal once m f = Ok m' ->
    vio_state chi2q zo cal once m'.
Lemma vio_state_ok chi2q zo cal once m : zopts_ok zo -> vio_state chi2q zo cal once m -> vio_ok chi2q m.
Proof.
  intros HZ. induction 1 as [st z did moved HR HC HO|m f m' _ IH F E].
  - split; [exact HR|]. split; [|exact HO]. cbn [vm_st]. unfold window_ok, last_le. rewrite HC. cbn. split; [exact I|]. split; [intros t []|lia].
  - destruct (vio_step chi2q zo cal once m f HZ IH F) as (m1 & E1 & A & _). congruence.
Qed.
Lemma vio_thm chi2q zo cal once m f : zopts_ok zo -> vio_state chi2q zo cal once m -> fits chi2q cal m f ->
  exists m', vio_frame chi2q zo cal once m f = Ok m' /\ s_time (vm_st m') = fr_t f /\ s_time (vm_st m) <= s_time (vm_st m') /\
    increasing (map fst (s_clones (vm_st m'))) /\ (forall c, In c (s_clones (vm_st m')) -> fst c <= s_time (vm_st m')) /\
    (Z.of_nat (length (s_clones (vm_st m'))) <= o_max_clones (s_opts (vm_st m')))%Z /\
    ((vm_did m' = true /\ s_time (vm_st m) < fr_t f /\ (once = false \/ vm_moved m = false)) -> s_clones (vm_st m') = s_clones (vm_st m)).
Proof.
  intros HZ HV F. destruct (vio_step chi2q zo cal once m f HZ (vio_state_ok _ _ _ _ _ HZ HV) F) as (m' & E & (_ & (W1 & W2 & W3) & _) & T & O & K).
  exists m'. split; [exact E|]. split; [exact T|]. split; [rewrite T; apply F|]. split; [exact W1|]. split; [|split; [exact W3|exact K]].
  intros c Hc. apply W2. apply in_map. exact Hc.
Qed.

(** ** a resting sensor *)
Lemma new_vars o cams st : new_state o cams = Ok st -> s_vars st = fst (build_vars o).
Proof.
  unfold new_state. destruct (build_vars o) as [vars n]. intros E. repeat (apply obind_ok in E; destruct E as (? & _ & E)). injection E as <-. reflexivity.
Qed.
Definition rest_x : pst := mkPst KALIBR false false false (IVal (Q4 0 0 0 1) v3zero v3zero v3zero v3zero) (IVal (Q4 0 0 0 1) v3zero v3zero v3zero v3zero)
  (fun i => nth i [1; 0; 0; 1; 0; 1] 0) (fun i => nth i [1; 0; 0; 1; 0; 1] 0) (fun _ => 0) (Q4 0 0 0 1) (Q4 0 0 0 1).
Definition rest_zo : zopts := mkZO 1 (mkNoise 1 1 1 1) 9 1 1 1.
Definition rest_data : list imu := map (fun t => mkImu t v3zero (V3 0 0 9)) [0; 1; 2; 3].
Definition resting (o : imuobj) : Prop :=
  qo_R (po_q (io_pose o)) = m3id /\ wo_val (io_bg o) = v3zero /\ wo_val (io_ba o) = v3zero /\ wo_val (io_v o) = v3zero.
Lemma rest_zok : zopts_ok rest_zo.
Proof. constructor; cbn; lra. Qed.
Lemma empty_db : db_ok [] /\ single_obs [].
Proof. split; [split; [constructor|intros ? ? H; destruct H]|intros id f cam H; discriminate]. Qed.
Lemma q_id : quat_2_Rot (Q4 0 0 0 1) = m3id.
Proof. apply m3_ext; cbn; ring. Qed.
Lemma rest_zero m : i_w m = v3zero -> i_a m = V3 0 0 9 -> rest_rate rest_x v3zero v3zero m = v3zero /\ rest_force rest_x m3id v3zero 9 m = v3zero.
Proof.
  intros W A. unfold rest_rate, rest_force. rewrite W, A. cbn [rest_x ps_qw ps_qa ps_model ps_dw ps_da ps_tg]. rewrite q_id.
  split; apply v3_ext; cbn; ring.
Qed.
Lemma rest_accept st t m p : reach ex_chi2 st -> (forall o, In (TImu o) (s_vars st) -> resting o) -> s_time st <> t ->
  select_imu_readings rest_data (s_time st) t = Ok [m; p] -> i_t m <= i_t p -> i_w m = v3zero -> i_a m = V3 0 0 9 ->
  exists z' d' st', try_update ex_chi2 rest_zo rest_x 0 (mkZ rest_data 0 true 0 0) [] st t = Ok (true, z', d', st') /\
    s_time st' = t /\ same_shape st st' /\ reach ex_chi2 st'.
Proof.
  intros HR Rs Ht El Le Wm Am. destruct empty_db as [Hd Hs].
  destruct (zupt_run ex_chi2 rest_zo rest_x 0 (mkZ rest_data 0 true 0 0) [] st t [m; p] HR rest_zok Hd Hs) as
    (o & H0 & res0 & H & res & chi2 & ds & d1 & s1 & X); [discriminate|exact Ht|cbn [z_imu z_have z_off]; rewrite !Rplus_0_r; exact El|cbn; lia|cbn; auto|].
  cbv zeta in X. destruct X as (Io & Stk & Ec & Dn & Ma & _ & _ & _ & HR1 & T1 & Sh & _ & Q).
  destruct (Rs o Io) as (Rq & Bg & Ba & Vv). cbn [length Nat.sub Nat.mul Nat.add] in *.
  destruct (compress_thm _ _ _ _ Ec eq_refl) as (_ & _ & _ & Same & _). cbn [dr dc] in Same. destruct Same as [_ Er]; [lia|]. subst res. cbn [dn dv] in *.
  assert (Z : forall r, (r < 6)%nat -> res0 r = 0).
  { intros r Hr. destruct (Stk 0%nat m p r eq_refl eq_refl Hr) as [_ E]. cbn [Nat.add Nat.mul] in E. rewrite E.
    rewrite Bg, Ba, Rq. cbn [rest_zo zo_grav]. destruct (rest_zero m Wm Am) as [E1 E2]. rewrite E1, E2.
    assert (V : forall k, vnth v3zero k = 0) by (intros [|[|[|k]]]; reflexivity). destruct (r <? 3)%nat; rewrite V; ring. }
  assert (C0 : chi2 = 0).
  { destruct Ma as (w & _ & ->). unfold dot. rewrite (sumn_ext 6 _ (fun _ => 0)); [cbn; ring|]. intros i Hi. rewrite Z by auto. ring. }
  rewrite Q, C0, Vv. cbn [rest_zo zo_mult zo_vmax].
  assert (NV : v3norm v3zero = 0) .
  { unfold v3norm.  assert (X : v3dot v3zero v3zero = 0) by (unfold v3dot, v3zero; cbn [vx vy vz]; ring). rewrite X. apply sqrt_0. }
  rewrite NV.
  destruct (Rltb_spec (1 * ex_chi2 6) 0) as [L|_]; [unfold ex_chi2 in L; cbn in L; lra|]. destruct (Rltb_spec 1 0) as [L|_]; [lra|].
  match goal with |- context [if ?c then Ok (true, _, _, _) else _] => replace c with true by (cbn [negb andb]; destruct (z_disparity rest_zo ds); reflexivity) end.
  eexists _, _, _. split; [reflexivity|]. auto.
Qed.

Lemma sel_back : exists p, select_imu_readings rest_data (5 / 2) (3 / 2) = Ok [mkImu 1 v3zero (V3 0 0 9); p] /\ i_t p = 3 / 2.
Proof.
  exists (interpolate_data (mkImu 1 v3zero (V3 0 0 9)) (mkImu 2 v3zero (V3 0 0 9)) (3 / 2)). split; [|reflexivity].
  unfold select_imu_readings, rest_data. cbn [map]. rewrite sel_eq. cbn [i_t].
  rewrite (proj2 (Rltb_false (5 / 2) 1)), (proj2 (Rleb_false (5 / 2) 0)), (proj2 (Rltb_false (3 / 2) 1)) by lra. cbn [andb].
  rewrite sel_eq. cbn [i_t].
  rewrite (proj2 (Rltb_false (5 / 2) 2)), (proj2 (Rleb_false (5 / 2) 1)), (proj2 (Rltb_true (3 / 2) 2)), (proj2 (Rltb_false (3 / 2) 1)) by lra. cbn [andb i_t].
  destruct (Reqb_spec 1 (3 / 2)) as [?|_]; [exfalso; lra|]. cbn [obind app last i_t interpolate_data]. destruct (Reqb_spec (3 / 2) (3 / 2)) as [_|N]; [|congruence].
  unfold compact. match goal with |- context [Rltb (Rabs ?a) ?b] => destruct (Rltb_spec (Rabs a) b) as [L|_] end; [|reflexivity].
  exfalso. cbn [i_t interpolate_data] in L. rewrite Rabs_right in L by lra. cbn [pow] in L. lra.
Qed.
Lemma sel_fwd : exists m p, select_imu_readings rest_data (5 / 2) (11 / 4) = Ok [m; p] /\ i_t m = 5 / 2 /\ i_t p = 11 / 4 /\ i_w m = v3zero /\ i_a m = V3 0 0 9.
Proof.
  exists (interpolate_data (mkImu 2 v3zero (V3 0 0 9)) (mkImu 3 v3zero (V3 0 0 9)) (5 / 2)).
  exists (interpolate_data (mkImu 2 v3zero (V3 0 0 9)) (mkImu 3 v3zero (V3 0 0 9)) (11 / 4)).
  split; [|split; [reflexivity|split; [reflexivity|split; apply v3_ext; cbn; lra]]].
  unfold select_imu_readings, rest_data. cbn [map]. rewrite sel_eq. cbn [i_t].
  rewrite (proj2 (Rltb_false (5 / 2) 1)), (proj2 (Rleb_false (5 / 2) 0)), (proj2 (Rltb_false (11 / 4) 1)) by lra. cbn [andb].
  rewrite sel_eq. cbn [i_t].
  rewrite (proj2 (Rltb_false (5 / 2) 2)), (proj2 (Rleb_false (5 / 2) 1)), (proj2 (Rltb_false (11 / 4) 2)) by lra. cbn [andb].
  rewrite sel_eq. cbn [i_t].
  rewrite (proj2 (Rltb_true (5 / 2) 3)), (proj2 (Rltb_true 2 (5 / 2))) by lra. cbn [andb sel_loop obind app last i_t interpolate_data last_two].
  destruct (Reqb_spec (5 / 2) (11 / 4)) as [?|_]; [exfalso; lra|].
  unfold compact. match goal with |- context [Rltb (Rabs ?a) ?b] => destruct (Rltb_spec (Rabs a) b) as [L|_] end; [|reflexivity].
  exfalso. cbn [i_t interpolate_data] in L. rewrite Rabs_right in L by lra. cbn [pow] in L. lra.
Qed.
Lemma rest_data_chrono : chrono rest_data.
Proof. cbn. repeat match goal with |- _ /\ _ => split | |- True => exact I end; intros b Hb; repeat (destruct Hb as [<-|Hb]; [cbn; lra|]); destruct Hb. Qed.

(** a freshly constructed filter at time 5/2 with a clone there *)
Lemma rest_state : exists st p, reach ex_chi2 st /\ s_time st = 5 / 2 /\ s_clones st = [(5 / 2, p)] /\ window_ok st /\ s_opts st = ex_opts /\
  (forall o, In (TImu o) (s_vars st) -> resting o).
Proof.
  destruct ex_new as (st0 & E0 & R0 & C0 & _ & O0 & _).
  assert (R1 : reach ex_chi2 (set_time st0 (5 / 2))) by (apply (reach_step ex_chi2 st0 (OTime (5 / 2))); [exact R0|exact I|reflexivity]).
  destruct (reach_progress _ _ (OAugment (V3 0 0 0)) R1) as (st & E & R2). { cbn [allowed set_time s_clones s_time]. rewrite C0. intros []. }
  cbn [exec] in E. destruct (augment_thm _ _ _ (proj1 (reach_inv _ _ R1)) E) as (_ & imu & loc & pose & _ & _ & _ & V & _ & _ & Cl & _).
  cbn [set_time s_vars s_clones s_time] in V, Cl. rewrite C0 in Cl. cbn [app] in Cl.
  assert (Fr : s_time st = 5 / 2 /\ s_opts st = ex_opts).
  { destruct (augment_inv _ _ _ (proj1 (reach_inv _ _ R1)) E) as (_ & imu' & loc' & pose' & st5 & _ & _ & _ & _ & _ & _ & _ & _ & _ & _ & _ &
       _ & _ & _ & G1 & G2 & _). rewrite G1, G2. auto. }
  destruct Fr as [Ft Fo]. exists st, (po_ptr pose). split; [exact R2|]. split; [exact Ft|]. split; [exact Cl|]. split.
  { unfold window_ok, last_le. rewrite Cl, Ft, Fo. cbn. split; [exact I|]. split; [intros t [<-|[]]; lra|lia]. }
  split; [exact Fo|].
  intros o Ho. rewrite V in Ho. apply in_app_or in Ho. destruct Ho as [Ho|[Ho|[]]]; [|discriminate].
  rewrite (new_vars _ _ _ E0) in Ho. cbn in Ho. repeat (destruct Ho as [Ho|Ho]; [try discriminate|]); try contradiction.
  injection Ho as <-. unfold resting. cbn. split; [|auto]. apply m3_ext; cbn; ring.
Qed.

Lemma backwards : exists st t z' d' st', reach ex_chi2 st /\ chrono rest_data /\ t < s_time st /\
  try_update ex_chi2 rest_zo rest_x 0 (mkZ rest_data 0 true 0 0) [] st t = Ok (true, z', d', st') /\
  s_time st' < s_time st /\ exists c, In c (s_clones st') /\ s_time st' < fst c.
Proof.
  destruct rest_state as (st & p & HR & Ht & Cl & _ & _ & Rs). destruct sel_back as (q & Es & Eq).
  destruct (rest_accept st (3 / 2) (mkImu 1 v3zero (V3 0 0 9)) q HR Rs) as (z' & d' & st' & E & T & Sh & _);
    [rewrite Ht; lra|rewrite Ht; exact Es|rewrite Eq; cbn; lra|reflexivity|reflexivity|].
  exists st, (3 / 2), z', d', st'. split; [exact HR|]. split; [exact rest_data_chrono|]. split; [rewrite Ht; lra|]. split; [exact E|].
  split; [rewrite T, Ht; lra|]. exists (5 / 2, p). destruct Sh as (_ & _ & _ & _ & _ & C & _). rewrite C, Cl, T. split; [left; reflexivity|cbn; lra].
Qed.
Lemma forwards : exists st t z' d' st', reach ex_chi2 st /\ chrono rest_data /\ s_time st < t /\ length (s_clones st) = 1%nat /\
  try_update ex_chi2 rest_zo rest_x 0 (mkZ rest_data 0 true 0 0) [] st t = Ok (true, z', d', st') /\ s_time st' = t.
Proof.
  destruct rest_state as (st & p & HR & Ht & Cl & _ & _ & Rs). destruct sel_fwd as (m & q & Es & Em & Eq & W & A).
  destruct (rest_accept st (11 / 4) m q HR Rs) as (z' & d' & st' & E & T & _);
    [rewrite Ht; lra|rewrite Ht; exact Es|rewrite Em, Eq; lra|exact W|exact A|].
  exists st, (11 / 4), z', d', st'. split; [exact HR|]. split; [exact rest_data_chrono|]. split; [rewrite Ht; lra|]. split; [rewrite Cl; reflexivity|].
  split; [exact E|exact T].
Qed.

(** an image from the past accepted as at rest, then a repeated image time *)
Lemma past_image : exists m m' f g, vio_ok ex_chi2 m /\ chrono (fr_imu f) /\ chrono (fr_imu g) /\
  fr_t f < s_time (vm_st m) /\ fr_t g = s_time (vm_st m) /\
  frame_ok ex_chi2 (vm_st m) (fr_t f) (fr_prop f) (fr_mid f) /\ frame_ok ex_chi2 (vm_st m') (fr_t g) (fr_prop g) (fr_mid g) /\
  vio_frame ex_chi2 rest_zo (fun _ => (rest_x, 0)) false m f = Ok m' /\ s_time (vm_st m') = fr_t f /\
  vio_frame ex_chi2 rest_zo (fun _ => (rest_x, 0)) false m' g = Exit.
Proof.
  destruct rest_state as (st & p & HR & Ht & Cl & HW & HO & Rs). destruct sel_back as (q & Es & Eq).
  destruct (rest_accept st (3 / 2) (mkImu 1 v3zero (V3 0 0 9)) q HR Rs) as (z' & d' & st' & E & T & Sh & HR');
    [rewrite Ht; lra|rewrite Ht; exact Es|rewrite Eq; cbn; lra|reflexivity|reflexivity|].
  assert (O' : s_opts st' = ex_opts /\ s_clones st' = s_clones st) by (destruct Sh as (O & _ & _ & _ & _ & C & _); rewrite O, C; auto). destruct O' as [O' C'].
  set (m := mkVio st (mkZ [] 0 true 0 0) false false). set (m' := mkVio st' z' true false).
  set (f := mkFrame (3 / 2) rest_data [] (ex_prop ex_opts) ex_mid). set (g := mkFrame (5 / 2) [] [] (ex_prop ex_opts) ex_mid).
  exists m, m', f, g. cbn [m m' f g vm_st fr_t fr_imu fr_prop fr_mid].
  split; [split; [exact HR|split; [exact HW|cbn; rewrite HO; cbn; lia]]|]. split; [exact rest_data_chrono|]. split; [exact I|].
  split; [rewrite Ht; lra|]. split; [auto|]. split; [rewrite <- HO at 1; apply ex_frame_ok|]. split; [rewrite <- O' at 1; apply ex_frame_ok|].
  split.
  { unfold vio_frame, m, m', f. cbn [vm_st fr_t fr_imu vm_z z_off z_have z_time z_count vm_moved vm_did negb orb fr_db fst snd]. cbv zeta.
    destruct (Reqb_spec (s_time st) (3 / 2)) as [?|_]; [exfalso; lra|]. rewrite E. cbn [obind]. rewrite T.
    destruct (Reqb_spec (3 / 2) (3 / 2)) as [_|N]; [reflexivity|congruence]. }
  split; [exact T|].
  unfold vio_frame, m', g. cbn [vm_st fr_t fr_imu vm_z z_off z_have z_time z_count vm_moved vm_did negb orb fr_db fst snd fr_prop fr_mid]. cbv zeta.
  destruct (Reqb_spec (s_time st') (5 / 2)) as [?|_]; [exfalso; lra|]. unfold try_update. cbn [z_imu obind].
  unfold do_feature_propagate_update. destruct (Rltb_spec (5 / 2) (s_time st')) as [?|_]; [exfalso; lra|].
  destruct (Reqb_spec (s_time st') (5 / 2)) as [?|_]; [exfalso; lra|].
  assert (X : propagate_and_clone st' (5 / 2) (ex_prop ex_opts) = Exit); [|rewrite X; reflexivity].
  unfold propagate_and_clone. destruct (Reqb_spec (s_time st') (5 / 2)) as [?|_]; [exfalso; lra|]. destruct (Rltb_spec (5 / 2) (s_time st')) as [?|_]; [exfalso; lra|].
  destruct (ex_prop_ok ex_opts) as [K1 [K2a K2b] [K3a K3b] K4].
  destruct (reach_progress ex_chi2 st' (OSetImu (pi_x (ex_prop ex_opts)) (pi_x (ex_prop ex_opts))) HR' K1) as (st1 & E1 & HR1). cbn [exec] in E1.
  rewrite E1. cbn [obind]. destruct (set_imu_frame _ _ _ _ E1) as (O1 & C1 & T1). destruct (reach_inv _ _ HR1) as (Hok1 & HP1 & HM1).
  rewrite (phi_order st1 Hok1 HM1). destruct (phi_refs_facts (s_opts st1)) as (N & Cg & Ln). rewrite O1, O' in *.
  assert (HA : allowed st1 (OProp (phi_refs ex_opts) (phi_refs ex_opts) (pi_Phi (ex_prop ex_opts)) (pi_Q (ex_prop ex_opts)))).
  { unfold allowed. pose proof (phi_in_cov st1 Hok1 HM1) as IC. rewrite O1 in IC.
    rewrite Ln, K2a, K2b, K3a, K3b. do 9 (split; [auto; fail|]). auto. }
  destruct (reach_progress ex_chi2 st1 _ HR1 HA) as (st2 & E2 & HR2). cbn [exec] in E2. rewrite E2. cbn [obind].
  destruct (propagation_inv _ _ _ _ _ _ E2 (proj1 HP1)) as (_ & _ & _ & _ & _ & _ & _ & _ & s0 & C & _ & _ & Est2 & _).
  apply augment_twice. rewrite Est2. cbn. rewrite C1, C', Cl. left. reflexivity.
Qed.

(** a run: one normal image, then one at rest *)
Lemma vio_run_ex : exists m f m', vio_state ex_chi2 rest_zo (fun _ => (rest_x, 0)) false m /\ s_clones (vm_st m) <> [] /\
  fits ex_chi2 (fun _ => (rest_x, 0)) m f /\ s_time (vm_st m) < fr_t f /\ vio_frame ex_chi2 rest_zo (fun _ => (rest_x, 0)) false m f = Ok m'.
Proof.
  destruct ex_new as (st0 & E0 & R0 & C0 & _ & O0 & _).
  assert (S0 : vio_state ex_chi2 rest_zo (fun _ => (rest_x, 0)) false (mkVio st0 (mkZ [] 0 true 0 0) false false)) by (apply vs_start; [exact R0|exact C0|rewrite O0; cbn; lia]).
  assert (Ft : forall m t, 0 <= t -> s_time (vm_st m) < t -> s_opts (vm_st m) = ex_opts -> z_off (vm_z m) = 0 -> z_have (vm_z m) = true ->
     fits ex_chi2 (fun _ => (rest_x, 0)) m (mkFrame t [] [] (ex_prop ex_opts) ex_mid)).
  { intros m t _ L O Zo Zh. destruct empty_db as [D1 D2]. constructor; cbn [fr_t fr_prop fr_mid fr_db fr_imu snd]; [lra| |auto|exact I|rewrite Zo, Zh; lra].
    rewrite <- O at 1. apply ex_frame_ok. }
  pose proof (Ft (mkVio st0 (mkZ [] 0 true 0 0) false false) (Rmax 0 (s_time st0) + 1)) as F1.
  pose proof (Rmax_l 0 (s_time st0)). pose proof (Rmax_r 0 (s_time st0)).
  specialize (F1 ltac:(lra)). cbn [vm_st vm_z z_off z_have] in F1. specialize (F1 ltac:(lra) O0 eq_refl eq_refl).
  destruct (vio_step ex_chi2 rest_zo _ false _ _ rest_zok (vio_state_ok _ _ _ _ _ rest_zok S0) F1) as (m1 & E1 & V1 & T1 & O1 & _).
  set (t1 := Rmax 0 (s_time st0) + 1) in *. cbn [fr_t vm_st] in T1, O1.
  assert (X : z_off (vm_z m1) = 0 /\ z_have (vm_z m1) = true /\ s_clones (vm_st m1) <> []).
  { assert (E := E1). unfold vio_frame in E. cbn [vm_st fr_t fr_imu vm_z z_off z_have z_time z_count vm_moved vm_did negb orb fr_db fst snd fr_prop fr_mid] in E. cbv zeta in E.
    destruct (Reqb_spec (s_time st0) t1) as [?|_]; [exfalso; unfold t1 in *; lra|]. unfold try_update in E. cbn [z_imu obind] in E.
    apply obind_ok in E. destruct E as (st1 & E2 & E). apply obind_ok in E. destruct E as (st2 & _ & E). injection E as <-. cbn [vm_z vm_st no_time z_off z_have].
    split; [reflexivity|]. split; [reflexivity|].
    destruct (frame_step ex_chi2 st0 t1 (ex_prop ex_opts) ex_mid R0) as (st1' & E3 & _ & _ & _ & _ & _ & W).
    - unfold window_ok, last_le. rewrite C0, O0. cbn. split; [exact I|]. split; [intros ? []|lia].
    - rewrite O0. cbn. lia.
    - rewrite <- O0 at 1. apply ex_frame_ok.
    - assert (st1' = st1) by congruence. subst st1'. destruct W as (p & W); [unfold t1; lra|]. rewrite W, C0, O0. cbn. discriminate. }
  destruct X as (Z1 & Z2 & Cn).
  assert (S1 : vio_state ex_chi2 rest_zo (fun _ => (rest_x, 0)) false m1) by (eapply vs_frame; [exact S0|exact F1|exact E1]).
  pose proof (Ft m1 (t1 + 1)) as F2. specialize (F2 ltac:(unfold t1; lra) ltac:(lra) ltac:(congruence) Z1 Z2).
  destruct (vio_step ex_chi2 rest_zo _ false _ _ rest_zok V1 F2) as (m2 & E2 & _).
  exists m1, (mkFrame (t1 + 1) [] [] (ex_prop ex_opts) ex_mid), m2. split; [exact S1|]. split; [exact Cn|]. split; [exact F2|]. split; [cbn; lra|exact E2].
Qed.
