(** Concrete configurations for C104-C106. *)
From Coq Require Import Reals List Arith Bool ZArith String Ascii Lia Lra.
From Verif Require Import Outcome RBool GeoModel GeoSpec GeoProofs Lin DbModel DbProofs FeatModel CamModel TypesModel ImuModel PropModel PropSpec PropThms DescProofs CfgModel CfgSpec CfgProofs CfgThms CfgThms2.
Import ListNotations.
Open Scope R_scope.

Fixpoint all_of {A} (rd : node -> option A) (l : list node) : option (list A) :=
  match l with [] => Some [] | n :: r => match rd n, all_of rd r with Some a, Some b => Some (a :: b) | _, _ => None end end.
Definition rd_int (n : node) : option Z := match n with NInt z => Some z | _ => None end.
Definition demo_ocv : ocv :=
  mkOcv num rd_int (fun n => match n with NStr s => Some s | _ => None end)
    (fun n => match n with NSeq l => all_of num l | _ => None end) (fun n => match n with NSeq l => all_of rd_int l | _ => None end).
Lemma demo_faithful : faithful demo_ocv.
Proof.
  repeat split; auto.
  - simpl. intros l. induction l as [|n l IH]; intros [|x xs] E; try discriminate; auto. simpl in *. injection E as E1 E2. now rewrite E1, (IH xs E2).
  - simpl. induction l as [|z l IH]; simpl; auto. now rewrite IH.
Qed.
Definition n3 (X : m3) : node :=
  NSeq [NSeq [NReal (m00 X); NReal (m01 X); NReal (m02 X)]; NSeq [NReal (m10 X); NReal (m11 X); NReal (m12 X)]; NSeq [NReal (m20 X); NReal (m21 X); NReal (m22 X)]].
Definition n4 (T : se3) : node :=
  NSeq [NSeq [NReal (m00 (seR T)); NReal (m01 (seR T)); NReal (m02 (seR T)); NReal (vx (set_ T))];
        NSeq [NReal (m10 (seR T)); NReal (m11 (seR T)); NReal (m12 (seR T)); NReal (vy (set_ T))];
        NSeq [NReal (m20 (seR T)); NReal (m21 (seR T)); NReal (m22 (seR T)); NReal (vz (set_ T))];
        NSeq [NInt 0; NInt 0; NInt 0; NInt 1]].
Definition cell_of (n : node) : mat := fun i j =>
  match nth_error (items n) i with Some r => match nth_error (items r) j with Some x => match num x with Some v => v | None => 0 end | None => 0 end | None => 0 end.
Lemma n3_matrix X : matrix_node 3 (n3 X) (cell_of (n3 X)) /\ block_of (cell_of (n3 X)) = X.
Proof.
  split; [|now destruct X]. eexists. split; [reflexivity|]. intros i Hi. destruct i as [|[|[|]]]; try lia; (eexists; split; [reflexivity|]);
  intros j Hj; destruct j as [|[|[|]]]; try lia; eexists; split; reflexivity.
Qed.
Lemma n4_matrix T : matrix_node 4 (n4 T) (cell_of (n4 T)) /\ pose_of (cell_of (n4 T)) = T.
Proof.
  split; [|destruct T as [X t]; destruct X, t; reflexivity]. eexists. split; [reflexivity|]. intros i Hi. destruct i as [|[|[|[|]]]]; try lia; (eexists; split; [reflexivity|]);
  intros j Hj; destruct j as [|[|[|[|]]]]; try lia; eexists; split; reflexivity.
Qed.
Definition nums (l : list R) : node := NSeq (map NReal l).
(** one camera; [flip]: its pose is given as T_cam_imu *)
Definition demo_cam (flip : bool) (c : camfile) : node :=
  NMap [("distortion_model", NStr (cf_model c)); ("intrinsics", nums (list4 (cf_f c))); ("distortion_coeffs", nums (list4 (cf_d c)));
        ("resolution", NSeq [NInt (cf_w c); NInt (cf_h c)]); if flip then ("T_cam_imu", n4 (Inv_se3 (cf_T c))) else ("T_imu_cam", n4 (cf_T c))]%string.
Definition demo_imu (f : imufile) : node :=
  NMap [("model", NStr (if_model f)); ("Tw", n3 (if_Tw f)); ("Ta", n3 (if_Ta f)); ("R_IMUtoACC", n3 (if_Ra f)); ("R_IMUtoGYRO", n3 (if_Rg f)); ("Tg", n3 (if_Tg f))]%string.
Definition nb (b : bool) : node := NInt (if b then 1 else 0)%Z.
Definition demo_root (down um : bool) : node :=
  NMap [("calib_imu_intrinsics", NInt 0); ("calib_imu_g_sensitivity", NStr "false # off"); ("max_cameras", NInt 1); ("downsample_cameras", nb down);
        ("use_mask", nb um); ("gravity_mag", NReal (981 / 100)); ("relative_config_imucam", NStr "cams.yaml"); ("relative_config_imu", NStr "imu.yaml"); ("mask0", NStr "mask.png")]%string.
Definition demo (down um flip : bool) (c : camfile) (f : imufile) : parser :=
  mkPs "/c/main.yaml" (Some (demo_root down um))
    (fun s => if String.eqb s "/c/cams.yaml" then Some (NMap [("cam0"%string, demo_cam flip c)]) else if String.eqb s "/c/imu.yaml" then Some (NMap [("imu0"%string, demo_imu f)]) else None)
    (fun _ => None) (fun s => if String.eqb s "/c/mask.png" then Some (size_at down c) else None) demo_ocv (fun X => m3scal (/ m3det X) (m3adj X)).
Lemma demo_quiet d u p c f : quiet (demo d u p c f). Proof. intros nm. reflexivity. Qed.
Lemma demo_solves d u p c f : solves (demo d u p c f).
Proof.
  intros X H. change (m3mul X (m3scal (/ m3det X) (m3adj X)) = m3id). transitivity (m3scal (/ m3det X) (m3mul X (m3adj X))); [apply m3_ext; simpl; ring|].
  rewrite adj_r. apply m3_ext; simpl; field; auto.
Qed.
Lemma demo_dir d u p c f : in_dir (demo d u p c f) "/c".
Proof. exists "main.yaml"%string. split; [reflexivity|]. simpl. repeat split; discriminate. Qed.
Lemma demo_cam_sec d u p c f : section (demo d u p c f) "relative_config_imucam" (cam_name 0) (demo_cam p c).
Proof. exists "/c"%string, "cams.yaml"%string, (NMap [("cam0"%string, demo_cam p c)]). split; [apply demo_dir|]. split; [eexists; split; reflexivity|]. split; reflexivity. Qed.
Lemma demo_imu_sec d u p c f : section (demo d u p c f) "relative_config_imu" "imu0" (demo_imu f).
Proof. exists "/c"%string, "imu.yaml"%string, (NMap [("imu0"%string, demo_imu f)]). split; [apply demo_dir|]. split; [eexists; split; reflexivity|]. split; reflexivity. Qed.
Lemma demo_cam_ok p c : is_rot (seR (cf_T c)) -> cam_section (demo_cam p c) c.
Proof.
  intros Rt. split; [destruct p; reflexivity|]. split; [exists (map NReal (list4 (cf_f c))); split; [destruct p; reflexivity|destruct (cf_f c) as [[[? ?] ?] ?]; reflexivity]|].
  split; [exists (map NReal (list4 (cf_d c))); split; [destruct p; reflexivity|destruct (cf_d c) as [[[? ?] ?] ?]; reflexivity]|].
  split; [destruct p; reflexivity|]. split; [exact Rt|]. destruct p.
  - right. split; [reflexivity|]. destruct (n4_matrix (Inv_se3 (cf_T c))) as (A & B). eexists _, _. split; [reflexivity|]. split; [exact A|]. rewrite B. cbn [Inv_se3 seR set_].
    split; [now apply rot_tr|]. intros x. destruct Rt as (_ & A2 & _).
    transitivity (m3v (m3mul (m3tr (seR (cf_T c))) (seR (cf_T c))) x); [rewrite m3v_mul; apply v3_ext; simpl; ring|]. rewrite A2. apply m3v_id.
  - left. destruct (n4_matrix (cf_T c)) as (A & B). eexists _, _. split; [reflexivity|]. split; [exact A|exact B].
Qed.
Lemma demo_imu_ok f : imu_section (demo_imu f) f.
Proof. split; [reflexivity|]. repeat split; (eexists _, _; split; [reflexivity|apply n3_matrix]). Qed.
Lemma demo_complete d u p c f : is_rot (seR (cf_T c)) -> In (if_model f) ["kalibr"; "calibrated"; "rpng"]%string ->
  complete (demo d u p c f) 1 d u false false (981 / 100) (fun _ => c) f.
Proof.
  intros Rt Hm. split; [apply demo_quiet|]. split; [apply demo_faithful|].
  split; [exists (NInt 0); split; [eexists; split; reflexivity|left; reflexivity]|].
  split; [exists (NStr "false # off"); split; [eexists; split; reflexivity|]|].
  { right. exists "false"%string, " # off"%string. split; [reflexivity|]. split; [unfold bool_text, no; simpl; tauto|simpl; auto]. }
  split; [exists (nb d); split; [eexists; split; reflexivity|left; reflexivity]|].
  split; [exists (nb u); split; [eexists; split; reflexivity|left; reflexivity]|].
  split; [eexists; split; reflexivity|]. split; [exists (NReal (981 / 100)); split; [eexists; split; reflexivity|reflexivity]|].
  split; [intros i Hi; assert (i = 0%nat) by lia; subst i; exists (demo_cam p c); split; [apply demo_cam_sec|now apply demo_cam_ok]|].
  split; [intros _ i Hi; assert (i = 0%nat) by lia; subst i; exists "/c"%string, "mask.png"%string; split; [apply demo_dir|]; split; [eexists; split; reflexivity|reflexivity]|].
  split; [exists (demo_imu f); split; [apply demo_imu_sec|apply demo_imu_ok]|]. simpl in Hm. decompose [or] Hm; try contradiction; auto.
Qed.

(** a camera turned by 90 degrees, seven by five pixels, and two sensors *)
Definition turn : m3 := M3 0 (-1) 0 1 0 0 0 0 1.
Lemma turn_rot : is_rot turn. Proof. split; [|split]; [apply m3_ext; simpl; ring|apply m3_ext; simpl; ring|unfold m3det; simpl; ring]. Qed.
Lemma id_rot : is_rot m3id. Proof. split; [|split]; [apply m3_ext; simpl; ring|apply m3_ext; simpl; ring|unfold m3det; simpl; ring]. Qed.
Definition cam7 : camfile := mkCf "equidistant" (400, 401, 3, 2) (1 / 10, 0, 0, 0) 7 5 (SE3 turn (V3 1 2 3)).
Definition imu_good : imufile := mkIf "kalibr" (M3 2 0 0 1 3 0 0 1 1) m3id m3id turn (M3 0 (1 / 10) 0 0 0 0 0 0 0).
Definition imu_shear : imufile := mkIf "kalibr" (M3 1 1 0 0 1 0 0 0 1) m3id m3id m3id (m3scal 0 m3id).
Definition zero_st : pst := scaled_state.

Lemma demo_loads d u p c f : is_rot (seR (cf_T c)) -> In (if_model f) ["kalibr"; "calibrated"; "rpng"]%string ->
  exists v, load_all (demo d u p c f) true = Ok (v, true) /\ vc_n v = 1%Z /\ vc_down v = d /\ map fst (vc_masks v) = if u then [0%nat] else [].
Proof. intros Rt Hm. destruct (complete_thm _ _ _ _ _ _ _ _ _ (demo_complete d u p c f Rt Hm)) as (v & A & B & C & _ & _ & _ & D). exists v. repeat split; auto. Qed.

Lemma mask_refuted : exists P v c sec s, load_all P true = Ok (v, true) /\ quiet P /\ faithful (ps_oc P) /\ (0 < vc_n v)%Z /\
  section P "relative_config_imucam" (cam_name 0) sec /\ cam_section sec c /\ In (0%nat, s) (vc_masks v) /\
  tracked_size (vc_down v) s <> tracked_size (vc_down v) (cf_w c, cf_h c).
Proof.
  destruct (demo_loads true true false cam7 imu_good turn_rot ltac:(simpl; auto)) as (v & A & B & C & D).
  destruct (vc_masks v) as [|[i s] ms] eqn:Em; [discriminate|]. simpl in D. injection D as -> _.
  assert (Hi : (Z.of_nat 0 < vc_n v)%Z) by (rewrite B; reflexivity).
  assert (Hs : In (0%nat, s) (vc_masks v)) by (rewrite Em; now left).
  exists (demo true true false cam7 imu_good), v, cam7, (demo_cam false cam7), s.
  destruct (mask_size_thm _ _ _ _ _ _ _ _ A (demo_quiet _ _ _ _ _) demo_faithful Hi (demo_cam_sec _ _ _ _ _) (demo_cam_ok false cam7 turn_rot) Hs) as (_ & M2).
  split; [exact A|]. split; [apply demo_quiet|]. split; [apply demo_faithful|]. split; [exact Hi|]. split; [apply demo_cam_sec|]. split; [apply demo_cam_ok, turn_rot|].
  split; [exact Hs|]. specialize (M2 C ltac:(simpl; lia)). intros E. rewrite E in M2. lia.
Qed.
Definition shear_reading : imu := mkImu 0 (gyro imu_shear (V3 0 1 0) v3zero (iv_bg (ps_imu zero_st))) (accel imu_shear v3zero (iv_ba (ps_imu zero_st))).
Lemma imu_refuted : exists P v sec f x m w, load_all P true = Ok (v, true) /\ quiet P /\ faithful (ps_oc P) /\ solves P /\
  section P "relative_config_imu" "imu0" sec /\ imu_section sec f /\ m3det (if_Tw f) <> 0 /\ m3det (if_Ta f) <> 0 /\ is_rot (if_Rg f) /\ is_rot (if_Ra f) /\
  unit_q (iv_q (ps_imu x)) /\ i_w m = gyro f w v3zero (iv_bg (ps_imu x)) /\ i_a m = accel f v3zero (iv_ba (ps_imu x)) /\
  c_w1 (correct (with_imu x (vc_model v) (vc_imu v)) m m) <> w.
Proof.
  destruct (demo_loads false false false cam7 imu_shear turn_rot ltac:(simpl; auto)) as (v & A & _).
  exists (demo false false false cam7 imu_shear), v, (demo_imu imu_shear), imu_shear, zero_st, shear_reading, (V3 0 1 0).
  destruct (imu_loaded _ _ _ _ _ _ A (demo_quiet _ _ _ _ _) demo_faithful (demo_imu_sec _ _ _ _ _) (demo_imu_ok imu_shear)) as (_ & Em & Ei).
  split; [exact A|]. split; [apply demo_quiet|]. split; [apply demo_faithful|]. split; [apply demo_solves|]. split; [apply demo_imu_sec|]. split; [apply demo_imu_ok|].
  split; [unfold m3det; simpl; lra|]. split; [unfold m3det; simpl; lra|]. split; [apply id_rot|]. split; [apply id_rot|].
  split; [apply sc_ok|]. split; [reflexivity|]. split; [reflexivity|].
  rewrite Ei, Em. change (model_of imu_shear) with KALIBR.
  assert (Tr : m3tr m3id = m3id) by (apply m3_ext; reflexivity).
  assert (Qi : quat_2_Rot (rot_2_quat m3id) = m3id) by apply (rot_2_quat_spec _ id_rot).
  assert (D1 : Dm KALIBR (load_D KALIBR (ps_solve (demo false false false cam7 imu_shear) (if_Tw imu_shear))) = m3id).
  { apply m3_ext; unfold load_D, vec_of; simpl; unfold m3det; simpl; field. }
  assert (D2 : Dm KALIBR (load_D KALIBR (ps_solve (demo false false false cam7 imu_shear) (if_Ta imu_shear))) = m3id).
  { apply m3_ext; unfold load_D, vec_of; simpl; unfold m3det; simpl; field. }
  unfold correct, with_imu, imu_of. cbn [ps_model ps_dw ps_da ps_tg ps_qw ps_qa ps_imu im_dw im_da im_tg im_qg im_qa c_w1]. rewrite D1, D2, load_Tg_thm.
  change (if_Ra imu_shear) with m3id. change (if_Rg imu_shear) with m3id. rewrite Tr, Qi.
  intros E. injection E as E _ _. revert E. unfold shear_reading, gyro, accel. simpl. intros E. lra.
Qed.
Lemma folder_refuted : exists P path f root k, quiet P /\ faithful (ps_oc P) /\ slash_free (ps_path P) /\ ps_cfg P = Some root /\
  child root "relative_config_imu" = Some (NStr path) /\ ps_open P path = Some f /\ load_all P k = Exit.
Proof.
  set (P := mkPs "main.yaml" (Some (demo_root false false)) (fun s => if String.eqb s "imu.yaml" then Some (NMap [("imu0"%string, demo_imu imu_good)]) else None)
              (fun _ => None) (fun _ => None) demo_ocv (fun X => X)).
  assert (Q : quiet P) by (intros nm; reflexivity).
  exists P, "imu.yaml"%string, (NMap [("imu0"%string, demo_imu imu_good)]), (demo_root false false), true.
  split; [exact Q|]. split; [apply demo_faithful|]. split; [simpl; repeat split; discriminate|]. split; [reflexivity|]. split; [reflexivity|]. split; [reflexivity|].
  apply (exit_file P true (demo_root false false)); auto; [apply demo_faithful|]. right. exists "imu.yaml"%string. split; reflexivity.
Qed.
(** a transform of which nothing is said is the identity *)
Lemma matrix_refuted : exists P sec, quiet P /\ faithful (ps_oc P) /\ section P "relative_config_imucam" (cam_name 0) sec /\ child sec "T_imu_cam" = Some (NSeq []) /\
  forall k, external_m4 P "relative_config_imucam" (cam_name 0) "T_imu_cam" (SE3 turn v3zero) true k = Ok (SE3 m3id v3zero, k).
Proof.
  set (sec := NMap [("T_imu_cam"%string, NSeq [])]).
  set (P := mkPs "/c/main.yaml" (Some (demo_root false false)) (fun s => if String.eqb s "/c/cams.yaml" then Some (NMap [("cam0"%string, sec)]) else None)
              (fun _ => None) (fun _ => None) demo_ocv (fun X => X)).
  exists P, sec. split; [intros nm; reflexivity|]. split; [apply demo_faithful|].
  split. { exists "/c"%string, "cams.yaml"%string, (NMap [("cam0"%string, sec)]). split; [exists "main.yaml"%string; split; [reflexivity|simpl; repeat split; discriminate]|].
    split; [eexists; split; reflexivity|]. split; reflexivity. }
  split; [reflexivity|]. intros k. destruct k; reflexivity.
Qed.
Lemma nofile_refuted : exists P v, ps_cfg P = None /\ quiet P /\ load_all P true = Ok (v, true) /\ vc_n v = 1%Z.
Proof.
  set (P := mkPs "main.yaml" None (fun _ => None) (fun _ => None) (fun _ => None) demo_ocv (fun X => X)).
  assert (R1 : forall i, exists r, gives (read_cam P false i) r true). { intros i. eexists. unfold read_cam. cbv zeta. eapply (bind_true _ _ "radtan"%string); [reflexivity|]. eapply (bind_true _ _ [1; 1; 0; 0]); [reflexivity|].
    eapply (bind_true _ _ [0; 0; 0; 0]); [reflexivity|]. eapply (bind_true _ _ (row8 (1 / 1) (1 / 1) (0 / 1) (0 / 1) 0 0 0 0)); [reflexivity|].
    eapply (bind_true _ _ [1%Z; 1%Z]); [reflexivity|]. eapply (bind_true _ _ 1%Z); [reflexivity|]. eapply (bind_true _ _ 1%Z); [reflexivity|].
    eapply (bind_true _ _ (SE3 m3id v3zero)); [reflexivity|]. reflexivity. }
  assert (C1 : exists c, gives (load_cams P false (mkCal 0 [] []) (seq 0 1)) c true).
  { destruct (R1 0%nat) as (r & G). cbn [seq load_cams]. eexists. eapply bind_true; [|reflexivity]. unfold load_cam.
    eapply (bind_true _ _ 0); [reflexivity|]. eapply bind_true; [exact G|]. reflexivity. }
  destruct C1 as (c & C1). destruct (fresh_cams _ _ _ _ _ C1) as (_ & _ & L1 & L2).
  assert (Ck : gives (check_sizes 1%Z c) tt true). { unfold check_sizes. rewrite L1, L2. reflexivity. }
  exists P, (mkVc KALIBR false false 1%Z (mkIc (981 / 100) 1%Z false c) false (981 / 100) c []
    (mkImuc (load_D KALIBR m3id) (load_D KALIBR m3id) (load_Tg (m3scal 0 m3id)) (rot_2_quat (m3tr m3id)) (rot_2_quat (m3tr m3id)))).
  split; [reflexivity|]. split; [intros nm; reflexivity|]. split; [|reflexivity].
  match goal with |- load_all P true = Ok (?x, true) => change (gives (load_all P) x true) end. unfold load_all.
  eapply (bind_true _ _ (KALIBR, false, false, 1%Z)); [reflexivity|].
  eapply (bind_true _ _ (mkIc (981 / 100) 1%Z false c)).
  { unfold load_init. eapply (bind_true _ _ (981 / 100)); [reflexivity|]. eapply (bind_true _ _ 1%Z); [reflexivity|]. eapply (bind_true _ _ false); [reflexivity|].
    eapply bind_true; [exact C1|]. eapply bind_true; [exact Ck|]. reflexivity. }
  eapply (bind_true _ _ false); [reflexivity|]. eapply (bind_true _ _ (981 / 100)); [reflexivity|].
  eapply bind_true; [exact C1|]. eapply (bind_true _ _ false); [reflexivity|]. eapply (bind_true _ _ []); [reflexivity|].
  eapply bind_true; [unfold load_imu; cbv zeta; do 4 (eapply (bind_true _ _ m3id); [reflexivity|]); eapply (bind_true _ _ (m3scal 0 m3id)); [reflexivity|]; reflexivity|].
  eapply bind_true; [exact Ck|]. reflexivity.
Qed.
