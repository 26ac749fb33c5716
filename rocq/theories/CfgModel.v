(** Model of the loading of the configuration: ov_core/src/utils/opencv_yaml_parse.h, the calibration part of
    ov_msckf/src/core/VioManagerOptions.h, ov_init/src/init/InertialInitializerOptions.h and of
    ov_msckf/src/state/StateOptions.h.

    Simplifications: doubles are exact reals, so that the two NaN checks of VioManagerOptions.h 323-338 never
    succeed.  What OpenCV makes of a node when it is read as a number, a text or a list is an argument ([ocv]), and so
    are the files ([ps_open], [ps_mask]), the ROS parameters ([ps_ros]; the code for ROS 1) and the solution of
    a linear system ([solve]).  Of the settings only those are modelled that decide about the calibration; the others
    are read in between in the same way. *)
From Coq Require Import Reals List Arith Bool ZArith String Ascii.
From Verif Require Import Outcome RBool GeoModel Lin DbModel FeatModel StateModel PropModel CamModel.
Import ListNotations.
Open Scope R_scope.

(** cv::FileNode (OpenCV), as used by opencv_yaml_parse.h 336-540 *)
Inductive node := NInt (z : Z) | NReal (r : R) | NStr (s : string) | NSeq (l : list node) | NMap (l : list (string * node)).
(** operator[] by name; operator[] by index and size() (a scalar has one item, itself) [opencv_yaml_parse.h 336-540] *)
Definition child (n : node) (name : string) : option node :=
  match n with NMap l => option_map snd (find (fun p => String.eqb (fst p) name) l) | _ => None end.
(** opencv_yaml_parse.h 336-540 (as above) *)
Definition items (n : node) : list node := match n with NSeq l => l | NMap l => map snd l | _ => [n] end.
(** opencv_yaml_parse.h 336-344 *)
Definition node_found (n : node) (name : string) : bool :=
  match n with NMap l => existsb (fun p => String.eqb (fst p) name) l | _ => false end.
(** operator>> and the conversions of a FileNode; None: an exception is thrown, the variable keeps its value
    [opencv_yaml_parse.h 371, 416, 467, 519] *)
Record ocv := mkOcv
  { oc_real : node -> option R; oc_int : node -> option Z; oc_str : node -> option string;
    oc_reals : node -> option (list R); oc_ints : node -> option (list Z) }.
(** YamlParser [opencv_yaml_parse.h 302-318]: the path of the main file, its content (None: not opened), the other
    files by path (None: cannot be opened), the ROS parameters, the masks (None: no such file, otherwise columns and rows) *)
Record parser := mkPs
  { ps_path : string; ps_cfg : option node; ps_open : string -> option node; ps_ros : string -> option node;
    ps_mask : string -> option (Z * Z); ps_oc : ocv; ps_solve : m3 -> m3 }.

(** computations that carry the member all_params_found_successfully [opencv_yaml_parse.h 308] *)
Definition M (A : Type) := bool -> outcome (A * bool).
(** opencv_yaml_parse.h 308 (as above) *)
Definition mret {A} (a : A) : M A := fun k => Ok (a, k).
(** opencv_yaml_parse.h 308 (as above) *)
Definition mbind {A B} (m : M A) (f : A -> M B) : M B := fun k => obind (m k) (fun p => f (fst p) (snd p)).
(** opencv_yaml_parse.h 308 (as above) *)
Definition lift {A} (o : outcome A) : M A := fun k => obind o (fun a => Ok (a, k)).
(** a value that could not be read: the flag falls if the value is required [opencv_yaml_parse.h 360-368] *)
Definition missing {A} (x : A) (req : bool) : M A := fun k => Ok (x, if req then false else k).
Notation "'run' x <- e ; f" := (mbind e (fun x => f)) (at level 200, x name, e at level 100, f at level 200, right associativity).

(** ** one value *)
(** opencv_yaml_parse.h 357-381 *)
Definition parse {T} (rd : node -> option T) (n : node) (name : string) (x : T) (req : bool) : M T :=
  if negb (node_found n name) then missing x req
  else match child n name with
       | None => missing x req
       | Some c => match rd c with Some v => mret v | None => missing x req end
       end.
(** substr(0, find_first_of(c)) [opencv_yaml_parse.h 417-418] *)
Fixpoint upto (c : ascii) (s : string) : string :=
  match s with EmptyString => EmptyString | String a r => if Ascii.eqb a c then EmptyString else String a (upto c r) end.
(** opencv_yaml_parse.h 392-437 *)
Definition parse_bool (O : ocv) (n : node) (name : string) (x : bool) (req : bool) : M bool :=
  if negb (node_found n name) then missing x req
  else match child n name with
       | None => missing x req
       | Some (NInt 1%Z) => mret true
       | Some (NInt 0%Z) => mret false
       | Some c =>
           match oc_str O c with
           | None => missing x req
           | Some s =>
               let v := upto " " (upto "#" s) in
               if existsb (String.eqb v) ["1"; "true"; "True"; "TRUE"]%string then mret true
               else if existsb (String.eqb v) ["0"; "false"; "False"; "FALSE"]%string then mret false
               else missing x true
           end
       end.
(** the cells of a [d] x [d] matrix, row by row; a cell that throws ends the reading, the cells before it keep their
    values [opencv_yaml_parse.h 463-470, 515-522] *)
Definition cells (d : nat) : list (nat * nat) := list_prod (seq 0 d) (seq 0 d).
(** opencv_yaml_parse.h 463-470, 515-522 (as above) *)
Definition set_cell (A : mat) (r c : nat) (v : R) : mat := fun i j => if (Nat.eqb i r && Nat.eqb j c)%bool then v else A i j.
(** opencv_yaml_parse.h 463-470, 515-522 (as above) *)
Definition read_cell (O : ocv) (n : node) (s : mat * bool) (rc : nat * nat) : mat * bool :=
  if snd s then
    match nth_error (items n) (fst rc) with
    | None => s
    | Some row =>
        match nth_error (items row) (snd rc) with
        | None => s
        | Some x => match oc_real O x with Some v => (set_cell (fst s) (fst rc) (snd rc) v, true) | None => (fst s, false) end
        end
    end
  else s.
(** opencv_yaml_parse.h 463-470, 515-522 (as above) *)
Definition read_cells (O : ocv) (d : nat) (n : node) : mat * bool := fold_left (read_cell O n) (cells d) (mid, true).
(** the leading 3 x 3 block [VioManagerOptions.h 266-269, 306-321] *)
Definition to_m3 (A : mat) : m3 := M3 (A 0%nat 0%nat) (A 0%nat 1%nat) (A 0%nat 2%nat) (A 1%nat 0%nat) (A 1%nat 1%nat) (A 1%nat 2%nat) (A 2%nat 0%nat) (A 2%nat 1%nat) (A 2%nat 2%nat).
(** VioManagerOptions.h 266-269: the two blocks of a 4 x 4 matrix that are used *)
Definition to_se3 (A : mat) : se3 := SE3 (to_m3 A) (V3 (A 0%nat 3%nat) (A 1%nat 3%nat) (A 2%nat 3%nat)).
(** opencv_yaml_parse.h 448-479 *)
Definition parse_m3 (O : ocv) (n : node) (name : string) (x : m3) (req : bool) : M m3 :=
  if negb (node_found n name) then missing x req
  else match child n name with
       | None => missing x req
       | Some c => let r := read_cells O 3 c in if snd r then mret (to_m3 (fst r)) else missing (to_m3 (fst r)) req
       end.
(** opencv_yaml_parse.h 488-538: the transform is looked for under both names.  The last row of the 4 x 4 matrix, which
    no caller uses, is left out *)
Definition parse_m4 (O : ocv) (n : node) (name : string) (x : se3) (req : bool) : M se3 :=
  let local := if (String.eqb name "T_cam_imu" && negb (node_found n name))%bool then "T_imu_cam"%string
               else if (String.eqb name "T_imu_cam" && negb (node_found n name))%bool then "T_cam_imu"%string else name in
  if negb (node_found n local) then missing x req
  else match child n local with
       | None => missing x req
       | Some c =>
           let r := read_cells O 4 c in
           let v := to_se3 (fst r) in
           let v := if String.eqb local name then v else Inv_se3 v in
           if snd r then mret v else missing v req
       end.

(** ** where the value is looked for *)
(** a ROS parameter of the right type [opencv_yaml_parse.h 124-129, 161-167] *)
Definition ros {T} (P : parser) (rr : node -> option T) (name : string) : option T :=
  match ps_ros P name with Some n => rr n | None => None end.
(** opencv_yaml_parse.h 122-140 and 548-562; [pf] is the overload of parse for the type *)
Definition parse_config {T} (P : parser) (rr : node -> option T) (pf : node -> string -> T -> bool -> M T) (name : string) (x : T) (req : bool) : M T :=
  match ros P rr name with
  | Some v => mret v
  | None => match ps_cfg P with None => mret x | Some root => pf root name x req end
  end.
(** substr(0, find_last_of('/')): everything if there is none [opencv_yaml_parse.h 103, 593] *)
Fixpoint has (c : ascii) (s : string) : bool := match s with EmptyString => false | String a r => (Ascii.eqb a c || has c r)%bool end.
(** opencv_yaml_parse.h 103, 593 (as above) *)
Fixpoint upto_last (c : ascii) (s : string) : string :=
  match s with
  | EmptyString => EmptyString
  | String a r => if has c r then String a (upto_last c r) else if Ascii.eqb a c then EmptyString else String a (upto_last c r)
  end.
(** opencv_yaml_parse.h 103 *)
Definition config_folder (P : parser) : string := (upto_last "/" (ps_path P) ++ "/")%string.
(** opencv_yaml_parse.h 580-618.  A path that is no text is [UB] *)
Definition ext_yaml {T} (P : parser) (pf : node -> string -> T -> bool -> M T) (ext sensor name : string) (x : T) (req : bool) : M T :=
  match ps_cfg P with
  | None => mret x
  | Some root =>
      if negb (node_found root ext) then lift Exit
      else
        run path <- lift (look (match child root ext with Some c => oc_str (ps_oc P) c | None => None end));
        match ps_open P (config_folder P ++ path) with
        | None => lift Exit
        | Some e =>
            if negb (node_found e sensor) then missing x true
            else match child e sensor with None => missing x true | Some s => pf s name x req end
        end
  end.
(** opencv_yaml_parse.h 158-178 *)
Definition parse_external {T} (P : parser) (rr : node -> option T) (pf : node -> string -> T -> bool -> M T) (ext sensor name : string) (x : T) (req : bool) : M T :=
  match ros P rr (sensor ++ "_" ++ name) with
  | Some v => mret v
  | None => ext_yaml P pf ext sensor name x req
  end.
(** the matrix from the list of a ROS parameter; too short a list is [UB] [opencv_yaml_parse.h 195-218, 242-267] *)
Definition of_list (d : nat) (l : list R) : outcome mat :=
  if (d * d <=? List.length l)%nat then Ok (fun i j => nth (i * d + j) l 0) else UB.
(** opencv_yaml_parse.h 195-232 *)
Definition external_m3 (P : parser) (ext sensor name : string) (x : m3) (req : bool) : M m3 :=
  match ros P (oc_reals (ps_oc P)) (sensor ++ "_" ++ name) with
  | Some l => run A <- lift (of_list 3 l); mret (to_m3 A)
  | None => ext_yaml P (parse_m3 (ps_oc P)) ext sensor name x req
  end.
(** opencv_yaml_parse.h 242-275 *)
Definition external_m4 (P : parser) (ext sensor name : string) (x : se3) (req : bool) : M se3 :=
  match ros P (oc_reals (ps_oc P)) (sensor ++ "_" ++ name) with
  | Some l => run A <- lift (of_list 4 l); mret (to_se3 A)
  | None => ext_yaml P (parse_m4 (ps_oc P)) ext sensor name x req
  end.
(** the instances used below [VioManagerOptions.h 228-352].  ROS booleans are read like numbers *)
Definition cfg_real (P : parser) := parse_config P (oc_real (ps_oc P)) (parse (oc_real (ps_oc P))).
(** VioManagerOptions.h 228-352 (as above) *)
Definition cfg_int (P : parser) := parse_config P (oc_int (ps_oc P)) (parse (oc_int (ps_oc P))).
(** VioManagerOptions.h 228-352 (as above) *)
Definition cfg_str (P : parser) := parse_config P (oc_str (ps_oc P)) (parse (oc_str (ps_oc P))).
(** VioManagerOptions.h 228-352 (as above) *)
Definition cfg_bool (P : parser) := parse_config P (fun n => match n with NInt z => Some (negb (Z.eqb z 0)) | _ => None end) (parse_bool (ps_oc P)).
(** VioManagerOptions.h 228-352 (as above) *)
Definition ext_real (P : parser) := parse_external P (oc_real (ps_oc P)) (parse (oc_real (ps_oc P))).
(** VioManagerOptions.h 228-352 (as above) *)
Definition ext_str (P : parser) := parse_external P (oc_str (ps_oc P)) (parse (oc_str (ps_oc P))).
(** VioManagerOptions.h 228-352 (as above) *)
Definition ext_reals (P : parser) := parse_external P (oc_reals (ps_oc P)) (parse (oc_reals (ps_oc P))).
(** VioManagerOptions.h 228-352 (as above) *)
Definition ext_ints (P : parser) := parse_external P (oc_ints (ps_oc P)) (parse (oc_ints (ps_oc P))).

(** ** the cameras *)
(** CamBase.h 42-80: kind, width, height, the eight values *)
Record ccam := mkCc { cc_kind : camera; cc_w : Z; cc_h : Z; cc_val : vec }.
(** the calibration members of the options [VioManagerOptions.h 184-216, InertialInitializerOptions.h 235-253] *)
Record ccal := mkCal { ca_dt : R; ca_cams : amap ccam; ca_ext : amap (q4 * v3) }.
(** to_string [VioManagerOptions.h 236]: the decimal digits *)
Fixpoint digits (f n : nat) : string :=
  match f with
  | O => EmptyString
  | S g => ((if (n <? 10)%nat then EmptyString else digits g (n / 10)) ++ String (Ascii.ascii_of_nat (48 + n mod 10)) EmptyString)%string
  end.
(** VioManagerOptions.h 236 *)
Definition cam_name (i : nat) : string := ("cam" ++ digits (S i) i)%string.
(** VioManagerOptions.h 248-250 with downsampling 251-254 *)
Definition calib8 (down : bool) (l1 l2 : list R) : outcome vec :=
  do a0 <- look (nth_error l1 0); do a1 <- look (nth_error l1 1); do a2 <- look (nth_error l1 2); do a3 <- look (nth_error l1 3);
  do b0 <- look (nth_error l2 0); do b1 <- look (nth_error l2 1); do b2 <- look (nth_error l2 2); do b3 <- look (nth_error l2 3);
  let d := if down then 2 else 1 in
  Ok (row8 (a0 / d) (a1 / d) (a2 / d) (a3 / d) b0 b1 b2 b3).
(** int /= double truncates [VioManagerOptions.h 257-260] *)
Definition half (down : bool) (z : Z) : Z := if down then Z.quot z 2 else z.
(** the values of one camera, VioManagerOptions.h 241-269 and, the same lines, InertialInitializerOptions.h 276-304 *)
Definition read_cam (P : parser) (down : bool) (i : nat) : M (ccam * (q4 * v3)) :=
  let ic := "relative_config_imucam"%string in
  run model <- ext_str P ic (cam_name i) "distortion_model" "radtan"%string true;
  run l1 <- ext_reals P ic (cam_name i) "intrinsics" [1; 1; 0; 0] true;
  run l2 <- ext_reals P ic (cam_name i) "distortion_coeffs" [0; 0; 0; 0] true;
  run v <- lift (calib8 down l1 l2);
  run wh <- ext_ints P ic (cam_name i) "resolution" [1%Z; 1%Z] true;
  run w <- lift (look (nth_error wh 0));
  run h <- lift (look (nth_error wh 1));
  run T <- external_m4 P ic (cam_name i) "T_imu_cam" (SE3 m3id v3zero) true;
  let q := rot_2_quat (m3tr (seR T)) in
  let p := v3neg (m3v (m3tr (seR T)) (set_ T)) in
  let kind := if String.eqb model "equidistant" then CEqui else CRadtan in
  mret (mkCc kind (half down w) (half down h) v, (q, p)).
(** one camera, VioManagerOptions.h 233-279 and InertialInitializerOptions.h 268-314.  insert keeps an object that is
    there already, set_value then changes its values *)
Definition load_cam (P : parser) (down : bool) (c : ccal) (i : nat) : M ccal :=
  run dt <- (if Nat.eqb i 0 then ext_real P "relative_config_imucam" (cam_name i) "timeshift_cam_imu" (ca_dt c) false else mret (ca_dt c));
  run r <- read_cam P down i;
  let o := match alook (ca_cams c) i with
           | Some o => mkCc (cc_kind o) (cc_w o) (cc_h o) (cc_val (fst r))
           | None => fst r
           end in
  let e := match alook (ca_ext c) i with Some e => e | None => snd r end in
  mret (mkCal dt (aset (ca_cams c) i o) (aset (ca_ext c) i e)).
(** VioManagerOptions.h 231, InertialInitializerOptions.h 266 *)
Fixpoint load_cams (P : parser) (down : bool) (c : ccal) (l : list nat) : M ccal :=
  match l with
  | [] => mret c
  | i :: r => run c' <- load_cam P down c i; load_cams P down c' r
  end.
(** VioManagerOptions.h 354-362, InertialInitializerOptions.h 320-327: exit unless there are as many entries as cameras *)
Definition check_sizes (n : Z) (c : ccal) : M unit :=
  if (Z.eqb n (Z.of_nat (List.length (ca_cams c))) && Z.eqb n (Z.of_nat (List.length (ca_ext c))))%bool then mret tt else lift Exit.
(** VioManagerOptions.h 281-303 *)
Definition load_mask (P : parser) (c : ccal) (i : nat) : M (Z * Z) :=
  run path <- cfg_str P ("mask" ++ digits (S i) i) EmptyString true;
  match ps_mask P (config_folder P ++ path) with
  | None => lift Exit
  | Some (cols, rows) =>
      run o <- lift (look (alook (ca_cams c) i));
      if (Z.eqb cols (cc_w o) && Z.eqb rows (cc_h o))%bool then mret (cols, rows) else lift Exit
  end.
(** VioManagerOptions.h 281-303 (as above) *)
Fixpoint load_masks (P : parser) (c : ccal) (l : list nat) : M (list (nat * (Z * Z))) :=
  match l with
  | [] => mret []
  | i :: r => run m <- load_mask P c i; run ms <- load_masks P c r; mret ((i, m) :: ms)
  end.
(** VioManager.cpp 266-278: size of an image or mask when the tracker gets it *)
Definition tracked_size (down : bool) (s : Z * Z) : Z * Z := (half down (fst s), half down (snd s)).

(** ** the IMU *)
(** StateOptions.h 118-119, 127, 141-157: model of the IMU, whether it is calibrated, number of cameras *)
Definition load_options (P : parser) (n0 : Z) : M (imu_model * bool * bool * Z) :=
  run ci <- cfg_bool P "calib_imu_intrinsics" false true;
  run cg <- cfg_bool P "calib_imu_g_sensitivity" false true;
  run n <- cfg_int P "max_cameras" n0 true;
  run s <- ext_str P "relative_config_imu" "imu0" "model" "kalibr" true;
  run m <- (if (String.eqb s "kalibr" || String.eqb s "calibrated")%bool then mret KALIBR else if String.eqb s "rpng" then mret RPNG else lift Exit);
  if (String.eqb s "calibrated" && (ci || cg))%bool then lift Exit else mret (m, ci, cg, n).
(** the five members [VioManagerOptions.h 189-203] *)
Record cimu := mkImuc { im_dw : vec; im_da : vec; im_tg : vec; im_qg : q4; im_qa : q4 }.
(** VioManagerOptions.h 305-351 *)
Definition load_imu (P : parser) (m : imu_model) : M cimu :=
  let ic := "relative_config_imu"%string in
  run Tw <- external_m3 P ic "imu0" "Tw" m3id true;
  run Ta <- external_m3 P ic "imu0" "Ta" m3id true;
  run Ra <- external_m3 P ic "imu0" "R_IMUtoACC" m3id true;
  run Rg <- external_m3 P ic "imu0" "R_IMUtoGYRO" m3id true;
  run Tg <- external_m3 P ic "imu0" "Tg" (m3scal 0 m3id) true;
  let Dw := ps_solve P Tw in let Da := ps_solve P Ta in
  mret (mkImuc (load_D m Dw) (load_D m Da) (load_Tg Tg) (rot_2_quat (m3tr Rg)) (rot_2_quat (m3tr Ra))).

(** ** everything, in the order of VioManagerOptions.h 62-71, 109-112, 453-459, 228-352 and InertialInitializerOptions.h 55-59, 260-327 *)
Record icfg := mkIc { ic_grav : R; ic_n : Z; ic_down : bool; ic_cal : ccal }.
(** InertialInitializerOptions.h 260-327, on a fresh object *)
Definition load_init (P : parser) : M icfg :=
  run g <- cfg_real P "gravity_mag" (981 / 100) true;
  run n <- cfg_int P "max_cameras" 1%Z true;
  run down <- cfg_bool P "downsample_cameras" false true;
  run c <- load_cams P down (mkCal 0 [] []) (seq 0 (Z.to_nat n));
  run u <- check_sizes n c;
  mret (mkIc g n down c).
(** VioManagerOptions.h 62-71 (as above) *)
Record vcfg := mkVc
  { vc_model : imu_model; vc_ci : bool; vc_cg : bool; vc_n : Z; vc_init : icfg; vc_down : bool; vc_grav : R; vc_cal : ccal;
    vc_masks : list (nat * (Z * Z)); vc_imu : cimu }.
(** VioManagerOptions.h 62-71 (as above), on a fresh object *)
Definition load_all (P : parser) : M vcfg :=
  run o <- load_options P 1%Z;
  run ini <- load_init P;
  run down <- cfg_bool P "downsample_cameras" false true;
  run g <- cfg_real P "gravity_mag" (981 / 100) true;
  run c <- load_cams P down (mkCal 0 [] []) (seq 0 (Z.to_nat (snd o)));
  run um <- cfg_bool P "use_mask" false true;
  run ms <- (if um then load_masks P c (seq 0 (Z.to_nat (snd o))) else mret []);
  run im <- load_imu P (fst (fst (fst o)));
  run u <- check_sizes (snd o) c;
  mret (mkVc (fst (fst (fst o))) (snd (fst (fst o))) (snd (fst o)) (snd o) ini down g c ms im).
