(** Properties C104-C106 (loading of the configuration). *)
From Coq Require Import Reals List Arith Bool ZArith String Ascii Lia Lra.
From Verif Require Import Outcome GeoModel GeoSpec Lin DbModel CamModel TypesModel ImuModel PropModel PropSpec PropThms CfgModel CfgSpec CfgProofs CfgThms CfgThms2 CfgEx.
Import ListNotations.
Open Scope R_scope.

(** ** C104: the parser *)
Theorem C104_success : forall P k v, load_all P k = Ok (v, true) -> ps_cfg P <> None ->
  (forall nm, In nm ["calib_imu_intrinsics"; "calib_imu_g_sensitivity"; "max_cameras"; "downsample_cameras"; "gravity_mag"; "use_mask"]%string -> given P nm) /\
  (forall i, (Z.of_nat i < vc_n v)%Z -> forall names, In names [["distortion_model"]; ["intrinsics"]; ["distortion_coeffs"]; ["resolution"]; ["T_imu_cam"; "T_cam_imu"]]%string ->
     given_in P "relative_config_imucam" (cam_name i) names) /\
  (forall nm, In nm ["model"; "Tw"; "Ta"; "R_IMUtoACC"; "R_IMUtoGYRO"; "Tg"]%string -> given_in P "relative_config_imu" "imu0" [nm]).
Proof. exact success_thm. Qed.
Print Assumptions C104_success.
Theorem C104_flag : forall P,
  (forall k v k', load_all P k = Ok (v, k') -> k' = true -> k = true) /\
  (forall k v k', load_all P k = Ok (v, k') -> exists k'', load_all P true = Ok (v, k'') /\ k' = (k && k'')%bool).
Proof. exact flag_thm. Qed.
Print Assumptions C104_flag.
Theorem C104_complete : forall P n down um ci cg g cams f, complete P n down um ci cg g cams f ->
  exists v, load_all P true = Ok (v, true) /\ vc_n v = Z.of_nat n /\ vc_down v = down /\ vc_grav v = g /\ vc_ci v = ci /\ vc_cg v = cg /\
    map fst (vc_masks v) = if um then seq 0 n else [].
Proof. exact complete_thm. Qed.
Print Assumptions C104_complete.
Theorem C104_sources :
  (forall P nm n v x r k, ps_ros P nm = Some n -> oc_real (ps_oc P) n = Some v -> cfg_real P nm x r k = Ok (v, k)) /\
  (forall P ext s nm n v x r k, ps_ros P (s ++ "_" ++ nm) = Some n -> oc_reals (ps_oc P) n = Some v -> ext_reals P ext s nm x r k = Ok (v, k)) /\
  (forall P nm n v x r k, quiet P -> faithful (ps_oc P) -> says P nm n -> num n = Some v -> cfg_real P nm x r k = Ok (v, k)) /\
  (forall P nm root x r k, quiet P -> ps_cfg P = Some root -> child root nm = None -> cfg_real P nm x r k = Ok (x, if r then false else k)).
Proof. exact (conj ros_thm (conj ros_external_thm (conj value_thm default_thm))). Qed.
Print Assumptions C104_sources.
Theorem C104_bool : forall P nm,
  (forall n b x k, quiet P -> faithful (ps_oc P) -> says P nm n -> bool_node n b -> cfg_bool P nm x true k = Ok (b, k)) /\
  (forall s b x r, quiet P -> faithful (ps_oc P) -> says P nm (NStr s) -> cfg_bool P nm x r true = Ok (b, true) ->
     exists u t, s = (u ++ t)%string /\ bool_text b u /\ comment t).
Proof. intros P nm. split; [apply bool_thm|apply bool_only_thm]. Qed.
Print Assumptions C104_bool.
Theorem C104_folder : forall P d, in_dir P d -> config_folder P = (d ++ "/")%string.
Proof. exact folder_thm. Qed.
Print Assumptions C104_folder.
Theorem C104_exit_file : forall P k root, quiet P -> ps_cfg P = Some root -> faithful (ps_oc P) ->
  (child root "relative_config_imu" = None \/ exists path, child root "relative_config_imu" = Some (NStr path) /\ ps_open P (config_folder P ++ path) = None) ->
  load_all P k = Exit.
Proof. exact exit_file. Qed.
Print Assumptions C104_exit_file.
Theorem C104_folder_refuted : exists P path f root k, quiet P /\ faithful (ps_oc P) /\ slash_free (ps_path P) /\ ps_cfg P = Some root /\
  child root "relative_config_imu" = Some (NStr path) /\ ps_open P path = Some f /\ load_all P k = Exit.
Proof. exact folder_refuted. Qed.
Print Assumptions C104_folder_refuted.
Theorem C104_matrix_refuted : exists P sec, quiet P /\ faithful (ps_oc P) /\ section P "relative_config_imucam" (cam_name 0) sec /\ child sec "T_imu_cam" = Some (NSeq []) /\
  forall k, external_m4 P "relative_config_imucam" (cam_name 0) "T_imu_cam" (SE3 turn v3zero) true k = Ok (SE3 m3id v3zero, k).
Proof. exact matrix_refuted. Qed.
Print Assumptions C104_matrix_refuted.
Theorem C104_nofile_refuted : exists P v, ps_cfg P = None /\ quiet P /\ load_all P true = Ok (v, true) /\ vc_n v = 1%Z.
Proof. exact nofile_refuted. Qed.
Print Assumptions C104_nofile_refuted.
Example C104_ex : complete (demo true true true cam7 imu_good) 1 true true false false (981 / 100) (fun _ => cam7) imu_good /\
  ps_cfg (demo true true true cam7 imu_good) <> None.
Proof. split; [apply demo_complete; [apply turn_rot|simpl; auto]|discriminate]. Qed.
Example C104_names : cam_name 0 = "cam0"%string /\ cam_name 7 = "cam7"%string /\ cam_name 10 = "cam10"%string /\ cam_name 123 = "cam123"%string.
Proof. repeat split; reflexivity. Qed.

(** ** C105: the cameras *)
Theorem C105_camera : forall P k v k' i sec c, load_all P k = Ok (v, k') -> quiet P -> faithful (ps_oc P) -> (Z.of_nat i < vc_n v)%Z ->
  section P "relative_config_imucam" (cam_name i) sec -> cam_section sec c ->
  exists o e, alook (ca_cams (vc_cal v)) i = Some o /\ alook (ca_ext (vc_cal v)) i = Some e /\
    cc_kind o = file_kind c /\ (cc_w o, cc_h o) = size_at (vc_down v) c /\
    (forall z j, (j < 2)%nat -> cam_distort (cc_kind o) (cc_val o) z j = scale2 (vc_down v) * file_pixel c z j) /\
    unit_q (fst e) /\ forall x, v3add (m3v (quat_2_Rot (fst e)) (v3add (m3v (seR (cf_T c)) x) (set_ (cf_T c)))) (snd e) = x.
Proof. exact cam_thm. Qed.
Print Assumptions C105_camera.
Theorem C105_agree : forall P k v k', load_all P k = Ok (v, k') ->
  ic_n (vc_init v) = vc_n v /\ ic_down (vc_init v) = vc_down v /\ ic_grav (vc_init v) = vc_grav v /\ ic_cal (vc_init v) = vc_cal v.
Proof. exact agree_thm. Qed.
Print Assumptions C105_agree.
Theorem C105_keys : forall P k v k', load_all P k = Ok (v, k') -> (0 <= vc_n v)%Z /\
  forall i, ((Z.of_nat i < vc_n v)%Z -> alook (ca_cams (vc_cal v)) i <> None /\ alook (ca_ext (vc_cal v)) i <> None) /\
            ((vc_n v <= Z.of_nat i)%Z -> alook (ca_cams (vc_cal v)) i = None /\ alook (ca_ext (vc_cal v)) i = None).
Proof. exact keys_thm. Qed.
Print Assumptions C105_keys.
Theorem C105_mask : forall P k v k', load_all P k = Ok (v, k') ->
  (vc_masks v = [] \/ map fst (vc_masks v) = seq 0 (Z.to_nat (vc_n v))) /\
  forall i s, In (i, s) (vc_masks v) -> exists o, alook (ca_cams (vc_cal v)) i = Some o /\ s = (cc_w o, cc_h o).
Proof. exact mask_thm. Qed.
Print Assumptions C105_mask.
Theorem C105_mask_size : forall P k v k' i s sec c, load_all P k = Ok (v, k') -> quiet P -> faithful (ps_oc P) -> (Z.of_nat i < vc_n v)%Z ->
  section P "relative_config_imucam" (cam_name i) sec -> cam_section sec c -> In (i, s) (vc_masks v) ->
  let mask := tracked_size (vc_down v) s in let img := tracked_size (vc_down v) (cf_w c, cf_h c) in
  (vc_down v = false -> mask = img) /\ (vc_down v = true -> (2 <= cf_w c)%Z -> (fst mask < fst img)%Z).
Proof. exact mask_size_thm. Qed.
Print Assumptions C105_mask_size.
Theorem C105_mask_refuted : exists P v c sec s, load_all P true = Ok (v, true) /\ quiet P /\ faithful (ps_oc P) /\ (0 < vc_n v)%Z /\
  section P "relative_config_imucam" (cam_name 0) sec /\ cam_section sec c /\ In (0%nat, s) (vc_masks v) /\
  tracked_size (vc_down v) s <> tracked_size (vc_down v) (cf_w c, cf_h c).
Proof. exact mask_refuted. Qed.
Print Assumptions C105_mask_refuted.
Example C105_ex : forall d u p, exists v, load_all (demo d u p cam7 imu_good) true = Ok (v, true) /\ vc_n v = 1%Z /\ vc_down v = d /\
  quiet (demo d u p cam7 imu_good) /\ faithful demo_ocv /\ section (demo d u p cam7 imu_good) "relative_config_imucam" (cam_name 0) (demo_cam p cam7) /\
  cam_section (demo_cam p cam7) cam7.
Proof.
  intros d u p. destruct (demo_loads d u p cam7 imu_good turn_rot ltac:(simpl; auto)) as (v & A & B & C & _). exists v.
  repeat split; auto; [apply demo_faithful|apply demo_faithful|apply demo_cam_sec|..]; apply (demo_cam_ok p cam7 turn_rot).
Qed.

(** ** C106: the IMU *)
Theorem C106_imu : forall P k v k' sec f x m p w1 a1 w2 a2, load_all P k = Ok (v, k') -> quiet P -> faithful (ps_oc P) -> solves P ->
  section P "relative_config_imu" "imu0" sec -> imu_section sec f ->
  m3det (if_Tw f) <> 0 -> m3det (if_Ta f) <> 0 -> is_rot (if_Rg f) -> is_rot (if_Ra f) ->
  triangular (if string_dec (if_model f) "rpng" then RPNG else KALIBR) (if_Tw f) -> triangular (if string_dec (if_model f) "rpng" then RPNG else KALIBR) (if_Ta f) ->
  unit_q (iv_q (ps_imu x)) -> let bg := iv_bg (ps_imu x) in let ba := iv_ba (ps_imu x) in
  i_w m = gyro f w1 a1 bg -> i_a m = accel f a1 ba -> i_w p = gyro f w2 a2 bg -> i_a p = accel f a2 ba ->
  let c := correct (with_imu x (vc_model v) (vc_imu v)) m p in
  c_w1 c = w1 /\ c_a1 c = a1 /\ c_w2 c = w2 /\ c_a2 c = a2.
Proof. exact imu_thm. Qed.
Print Assumptions C106_imu.
Theorem C106_exit_model : forall P k sec f n ci cg, quiet P -> faithful (ps_oc P) -> section P "relative_config_imu" "imu0" sec -> imu_section sec f ->
  says P "calib_imu_intrinsics" ci -> says P "calib_imu_g_sensitivity" cg -> says P "max_cameras" (NInt n) -> forall bi bg, bool_node ci bi -> bool_node cg bg ->
  ~ In (if_model f) ["kalibr"; "calibrated"; "rpng"]%string \/ (if_model f = "calibrated"%string /\ (bi = true \/ bg = true)) ->
  load_all P k = Exit.
Proof. exact exit_model. Qed.
Print Assumptions C106_exit_model.
Theorem C106_triangular_refuted : exists P v sec f x m w, load_all P true = Ok (v, true) /\ quiet P /\ faithful (ps_oc P) /\ solves P /\
  section P "relative_config_imu" "imu0" sec /\ imu_section sec f /\ m3det (if_Tw f) <> 0 /\ m3det (if_Ta f) <> 0 /\ is_rot (if_Rg f) /\ is_rot (if_Ra f) /\
  unit_q (iv_q (ps_imu x)) /\ i_w m = gyro f w v3zero (iv_bg (ps_imu x)) /\ i_a m = accel f v3zero (iv_ba (ps_imu x)) /\
  c_w1 (correct (with_imu x (vc_model v) (vc_imu v)) m m) <> w.
Proof. exact imu_refuted. Qed.
Print Assumptions C106_triangular_refuted.
Example C106_ex : exists v, load_all (demo false false false cam7 imu_good) true = Ok (v, true) /\ solves (demo false false false cam7 imu_good) /\
  section (demo false false false cam7 imu_good) "relative_config_imu" "imu0" (demo_imu imu_good) /\ imu_section (demo_imu imu_good) imu_good /\
  m3det (if_Tw imu_good) <> 0 /\ m3det (if_Ta imu_good) <> 0 /\ is_rot (if_Rg imu_good) /\ is_rot (if_Ra imu_good) /\
  triangular KALIBR (if_Tw imu_good) /\ triangular KALIBR (if_Ta imu_good).
Proof.
  destruct (demo_loads false false false cam7 imu_good turn_rot ltac:(simpl; auto)) as (v & A & _). exists v.
  split; [exact A|]. split; [apply demo_solves|]. split; [apply demo_imu_sec|]. split; [apply demo_imu_ok|].
  split; [unfold m3det; simpl; lra|]. split; [unfold m3det; simpl; lra|]. split; [apply turn_rot|]. split; [apply id_rot|]. split; repeat split.
Qed.
