(** Vocabulary for the properties of the configuration loading (C104-C106), apart from the loading functions. *)
From Coq Require Import Reals List Arith Bool ZArith String Ascii.
From Verif Require Import Outcome GeoModel GeoSpec Lin CamModel PropModel CfgModel.
Import ListNotations.
Open Scope R_scope.

(** ** what well typed nodes say, and that OpenCV reads them so *)
Definition num (n : node) : option R := match n with NInt z => Some (IZR z) | NReal r => Some r | _ => None end.
Definition faithful (O : ocv) : Prop :=
  (forall z, oc_int O (NInt z) = Some z) /\ (forall n x, num n = Some x -> oc_real O n = Some x) /\
  (forall s, oc_str O (NStr s) = Some s) /\ (forall l xs, map num l = map Some xs -> oc_reals O (NSeq l) = Some xs) /\
  (forall l, oc_ints O (NSeq (map NInt l)) = Some l).
(** a node with the entries of the leading [d] x [d] block of a matrix *)
Definition matrix_node (d : nat) (n : node) (A : mat) : Prop :=
  exists rows, n = NSeq rows /\
    forall i, (i < d)%nat -> exists r, nth_error rows i = Some (NSeq r) /\
      forall j, (j < d)%nat -> exists x, nth_error r j = Some x /\ num x = Some (A i j).
(** the rotation and translation blocks of a transform *)
Definition block_of (A : mat) : m3 :=
  M3 (A 0%nat 0%nat) (A 0%nat 1%nat) (A 0%nat 2%nat) (A 1%nat 0%nat) (A 1%nat 1%nat) (A 1%nat 2%nat) (A 2%nat 0%nat) (A 2%nat 1%nat) (A 2%nat 2%nat).
Definition pose_of (A : mat) : se3 := SE3 (block_of A) (V3 (A 0%nat 3%nat) (A 1%nat 3%nat) (A 2%nat 3%nat)).
(** the texts of a boolean *)
Definition yes (s : string) : Prop := In s ["1"; "true"; "True"; "TRUE"]%string.
Definition no (s : string) : Prop := In s ["0"; "false"; "False"; "FALSE"]%string.
Definition bool_text (b : bool) (s : string) : Prop := if b then yes s else no s.
(** what may follow: nothing, a blank or a comment *)
Definition comment (t : string) : Prop :=
  match t with EmptyString => True | String a _ => a = " "%char \/ a = "#"%char end.
Definition bool_node (n : node) (b : bool) : Prop :=
  n = NInt (if b then 1 else 0)%Z \/ exists s t, n = NStr (s ++ t) /\ bool_text b s /\ comment t.

(** ** files *)
Fixpoint slash_free (s : string) : Prop := match s with EmptyString => True | String a r => a <> "/"%char /\ slash_free r end.
(** no ROS parameters *)
Definition quiet (P : parser) : Prop := forall name, ps_ros P name = None.
(** the main file lies in directory [d] and says [n] under [name] *)
Definition says (P : parser) (name : string) (n : node) : Prop := exists root, ps_cfg P = Some root /\ child root name = Some n.
(** the file named by [ext], in the directory of the main file, has the section [sec] for the sensor *)
Definition in_dir (P : parser) (d : string) : Prop := exists b, ps_path P = (d ++ "/" ++ b)%string /\ slash_free b.
Definition section (P : parser) (ext sensor : string) (sec : node) : Prop :=
  exists d path f, in_dir P d /\ says P ext (NStr path) /\ ps_open P (d ++ "/" ++ path) = Some f /\ child f sensor = Some sec.

(** a value is given: as a ROS parameter, or in the file *)
Definition given (P : parser) (name : string) : Prop := ps_ros P name <> None \/ exists n, says P name n.
Definition given_in (P : parser) (ext sensor : string) (names : list string) : Prop :=
  exists name, In name names /\
    (ps_ros P (sensor ++ "_" ++ name) <> None \/
     exists root path f sec n, ps_cfg P = Some root /\ child root ext = Some path /\ child f sensor = Some sec /\ child sec name = Some n /\
       exists s, oc_str (ps_oc P) path = Some s /\ ps_open P (config_folder P ++ s) = Some f).

(** ** one camera *)
Record camfile := mkCf { cf_model : string; cf_f : R * R * R * R; cf_d : R * R * R * R; cf_w : Z; cf_h : Z; cf_T : se3 }.
Definition list4 (q : R * R * R * R) : list R := match q with (a, b, c, d) => [a; b; c; d] end.
(** the section of a camera; its pose is given as T_imu_cam or as T_cam_imu.  [cf_T] maps camera to IMU coordinates *)
Definition cam_section (sec : node) (c : camfile) : Prop :=
  child sec "distortion_model" = Some (NStr (cf_model c)) /\
  (exists l, child sec "intrinsics" = Some (NSeq l) /\ map num l = map Some (list4 (cf_f c))) /\
  (exists l, child sec "distortion_coeffs" = Some (NSeq l) /\ map num l = map Some (list4 (cf_d c))) /\
  child sec "resolution" = Some (NSeq [NInt (cf_w c); NInt (cf_h c)]) /\
  is_rot (seR (cf_T c)) /\
  ((exists n A, child sec "T_imu_cam" = Some n /\ matrix_node 4 n A /\ pose_of A = cf_T c) \/
   (child sec "T_imu_cam" = None /\ exists n A, child sec "T_cam_imu" = Some n /\ matrix_node 4 n A /\ is_rot (seR (pose_of A)) /\
      forall x, v3add (m3v (seR (pose_of A)) (v3add (m3v (seR (cf_T c)) x) (set_ (cf_T c)))) (set_ (pose_of A)) = x)).
(** the pixel of the camera of the file for normalized coordinates [z] *)
Definition file_kind (c : camfile) : camera := if string_dec (cf_model c) "equidistant" then CEqui else CRadtan.
Definition file_vals (c : camfile) : vec :=
  match cf_f c, cf_d c with (a0, a1, a2, a3), (b0, b1, b2, b3) => row8 a0 a1 a2 a3 b0 b1 b2 b3 end.
Definition file_pixel (c : camfile) (z : vec) : vec := cam_distort (file_kind c) (file_vals c) z.
Definition scale2 (down : bool) : R := if down then / 2 else 1.

(** ** the IMU *)
Record imufile := mkIf { if_model : string; if_Tw : m3; if_Ta : m3; if_Ra : m3; if_Rg : m3; if_Tg : m3 }.
Definition m3_entry (sec : node) (name : string) (X : m3) : Prop := exists n A, child sec name = Some n /\ matrix_node 3 n A /\ block_of A = X.
Definition imu_section (sec : node) (f : imufile) : Prop :=
  child sec "model" = Some (NStr (if_model f)) /\
  m3_entry sec "Tw" (if_Tw f) /\ m3_entry sec "Ta" (if_Ta f) /\ m3_entry sec "R_IMUtoACC" (if_Ra f) /\
  m3_entry sec "R_IMUtoGYRO" (if_Rg f) /\ m3_entry sec "Tg" (if_Tg f).
(** the solver solves what can be solved *)
Definition solves (P : parser) : Prop := forall X, m3det X <> 0 -> m3mul X (ps_solve P X) = m3id.
(** the sensor: reading for angular velocity [w] and specific force [a], biases [bg], [ba] *)
Definition gyro (f : imufile) (w a bg : v3) : v3 := v3add (v3add (m3v (if_Tw f) (m3v (if_Rg f) w)) (m3v (if_Tg f) a)) bg.
Definition accel (f : imufile) (a ba : v3) : v3 := v3add (m3v (if_Ta f) (m3v (if_Ra f) a)) ba.
(** the state with the loaded calibration *)
Definition with_imu (x : pst) (m : imu_model) (c : cimu) : pst :=
  mkPst m (ps_calib x) (ps_gsens x) (ps_dofej x) (ps_imu x) (ps_fej x) (im_dw c) (im_da c) (im_tg c) (im_qg c) (im_qa c).

(** ** a complete configuration of [n] cameras, with masks if [um] *)
Definition mask_file (P : parser) (i : nat) (s : Z * Z) : Prop :=
  exists d path, in_dir P d /\ says P ("mask" ++ digits (S i) i) (NStr path) /\ ps_mask P (d ++ "/" ++ path) = Some s.
Definition size_at (down : bool) (c : camfile) : Z * Z := if down then (cf_w c ÷ 2, cf_h c ÷ 2)%Z else (cf_w c, cf_h c).
Definition complete (P : parser) (n : nat) (down um : bool) (ci cg : bool) (g : R) (cams : nat -> camfile) (f : imufile) : Prop :=
  quiet P /\ faithful (ps_oc P) /\
  (exists x, says P "calib_imu_intrinsics" x /\ bool_node x ci) /\ (exists x, says P "calib_imu_g_sensitivity" x /\ bool_node x cg) /\
  (exists x, says P "downsample_cameras" x /\ bool_node x down) /\ (exists x, says P "use_mask" x /\ bool_node x um) /\
  says P "max_cameras" (NInt (Z.of_nat n)) /\ (exists x, says P "gravity_mag" x /\ num x = Some g) /\
  (forall i, (i < n)%nat -> exists sec, section P "relative_config_imucam" (cam_name i) sec /\ cam_section sec (cams i)) /\
  (um = true -> forall i, (i < n)%nat -> mask_file P i (size_at down (cams i))) /\
  (exists sec, section P "relative_config_imu" "imu0" sec /\ imu_section sec f) /\
  ((if_model f = "calibrated" /\ ci = false /\ cg = false) \/ if_model f = "kalibr" \/ if_model f = "rpng")%string.
