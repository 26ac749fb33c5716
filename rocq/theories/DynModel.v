(** Model of the dynamic initializer up to its initial guess: ov_init/src/dynamic/DynamicInitializer.cpp 44-570.
    The nonlinear refinement with Ceres that follows (571-1100) is in MleModel.v.
    [outcome (option A)]: [Ok None] is [return false]. *)
From Coq Require Import Reals List Arith ZArith Bool.
From Verif Require Import RBool Outcome GeoModel Lin TypesModel ImuModel DbModel InitModel StartModel PropModel CpiModel.
Import ListNotations.
Open Scope R_scope.

(** InertialInitializerOptions: init_window_time, init_max_features, init_dyn_num_pose, init_dyn_min_deg, init_dyn_bias_g,
    init_dyn_bias_a, gravity_mag, calib_camimu_dt, camera_extrinsics (quaternion and position), and the noise matrix of CpiBase [InertialInitializerOptions.h 64-110] *)
Record yopts := mkYO { yo_window : R; yo_maxf : Z; yo_npose : Z; yo_deg : R; yo_bg : v3; yo_ba : v3; yo_g : R; yo_dt : R;
  yo_ext : amap (q4 * v3); yo_Qc : mat }.
(** early return of false [DynamicInitializer.cpp 60, 75, 79, 159, 163, 192, 237, 265-295, 417] *)
Definition otry {A B} (e : outcome (option A)) (k : A -> outcome (option B)) : outcome (option B) :=
  do r <- e; match r with None => Ok None | Some a => k a end.

(** ** DynamicInitializer.cpp 106-158: poses and features *)
(** std::map<double, bool>::operator[]: the keys in increasing order [DynamicInitializer.cpp 110, 143] *)
Fixpoint tins (t : R) (l : list R) : list R :=
  match l with
  | [] => [t]
  | x :: l' => if Rltb t x then t :: l else if Reqb t x then l else x :: tins t l'
  end.
(** DynamicInitializer.cpp 121-127: distance to the nearest of a list; None is INFINITY *)
Definition near (t : R) (l : list R) : option R :=
  fold_left (fun m x => let a := Rabs (t - x) in match m with None => Some a | Some y => Some (if Rltb a y then a else y) end) l None.
(** DynamicInitializer.cpp 130 *)
Definition taken (dt t : R) (l : list R) : bool :=
  match near t l with None => true | Some a => (Rleb dt a || Reqb a 0)%bool end.
(** DynamicInitializer.cpp 119-135 for one camera *)
Definition pick_cam (dt : R) (poses : list R) (times : list R) (ts : list R) : list R :=
  fold_left (fun acc t => if taken dt t (poses ++ acc) then acc ++ [t] else acc) ts times.
(** DynamicInitializer.cpp 119-135 (as above) *)
Definition pick (dt : R) (poses : list R) (f : feature) : list R :=
  fold_left (fun acc ct => pick_cam dt poses acc (snd ct)) (f_ts f) [].
(** (int) of a double [DynamicInitializer.cpp 100] *)
Definition trunc (x : R) : Z := if Rleb 0 x then Int_part x else (- Int_part (- x))%Z.
(** DynamicInitializer.cpp 106-158: map_features_num_meas, num_measurements, oldest_camera_time (None is INFINITY), map_camera_times,
    count_valid_features.  have_stereo is not used; camids and
    map_camera_ids are in MleModel. *)
Record scanned := mkSc { sc_num : amap nat; sc_meas : nat; sc_old : option R; sc_poses : list R; sc_cnt : nat }.
(** DynamicInitializer.cpp 106-158 (as above) *)
Definition usable (o : yopts) (n : nat) : bool := negb (Z.of_nat n <? trunc (yo_window o))%Z.
(** DynamicInitializer.cpp 106-158 (as above) *)
Definition scan_step (o : yopts) (dt : R) (s : scanned) (e : nat * feature) : scanned :=
  let times := pick dt (sc_poses s) (snd e) in
  let num := aset (sc_num s) (fst e) (length times) in
  if usable o (length times) then
    mkSc num (sc_meas s + 2 * length times)
      (fold_left (fun m t => match m with None => Some t | Some x => Some (if Rltb t x then t else x) end) times (sc_old s))
      (fold_left (fun l t => tins t l) times (sc_poses s)) (S (sc_cnt s))
  else mkSc num (sc_meas s) (sc_old s) (sc_poses s) (sc_cnt s).
(** DynamicInitializer.cpp 106-158 (as above) *)
Definition pose_dt (o : yopts) : R := yo_window o / IZR (yo_npose o + 1).
(** the features are copied to a second std::unordered_map (DynamicInitializer.cpp 88-95); here they keep their order *)
Definition scan (o : yopts) (d : db) (newest : R) : scanned :=
  fold_left (scan_step o (pose_dt o)) d (mkSc [] 0 None [newest] 0).
(** the loop head of DynamicInitializer.cpp 325 and 520: a feature with enough measurements *)
Definition valid_feats (o : yopts) (s : scanned) (d : db) : list (nat * feature) :=
  filter (fun e => usable o (match alook (sc_num s) (fst e) with Some n => n | None => O end)) d.

(** ** DynamicInitializer.cpp 160-196: rotation during the window *)
Definition turned (bg : v3) (l : list imu) : R :=
  (fix go (a : imu) (l : list imu) (s : R) := match l with
     | [] => s
     | b :: l' => go b l' (s + v3norm (v3scal (i_t b - i_t a) (v3neg (v3sub (v3scal (5 / 10) (v3add (i_w a) (i_w b))) bg))))
     end) (hd (mkImu 0 v3zero v3zero) l) (tl l) 0.

(** ** DynamicInitializer.cpp 240-307: preintegration *)
Fixpoint pairs_of (l : list imu) : list reading :=
  match l with
  | a :: ((b :: _) as l') => mkRd (i_t a) (i_t b) (i_w a) (i_a a) (i_w b) (i_a b) :: pairs_of l'
  | _ => []
  end.
(** DynamicInitializer.cpp 258-280 and 283-305: from camera time [ta] to [tb] *)
Definition preint (o : yopts) (data : list imu) (ta tb : R) : outcome (option cpi) :=
  let t0 := ta + yo_dt o in let t1 := tb + yo_dt o in
  do l <- init_select_imu_readings data t0 t1;
  if (length l <? 2)%nat then Ok None else
  let dt := i_t (last l (mkImu 0 v3zero v3zero)) - i_t (hd (mkImu 0 v3zero v3zero) l) in
  if Rltb (1 / 100) (Rabs (dt - (t1 - t0))) then Ok None
  else Ok (Some (cpi_run (cpi_new true (yo_Qc o) (yo_bg o) (yo_ba o)) (pairs_of l))).
(** DynamicInitializer.cpp 258-280 and 283-305 (as above) *)
Definition cpis := list (R * option (cpi * cpi)).
(** DynamicInitializer.cpp 258-280 and 283-305 (as above) *)
Fixpoint preint_all (o : yopts) (data : list imu) (oldest lastt : R) (poses : list R) : outcome (option cpis) :=
  match poses with
  | [] => Ok (Some [])
  | t :: poses' =>
      if Reqb t oldest then otry (preint_all o data oldest t poses') (fun r => Ok (Some ((t, None) :: r)))
      else otry (preint o data oldest t) (fun c0 => otry (preint o data lastt t) (fun c1 =>
             otry (preint_all o data oldest t poses') (fun r => Ok (Some ((t, Some (c0, c1)) :: r)))))
  end.
(** DynamicInitializer.cpp 351-358, 487-500: DT, R, alpha, beta of the preintegration from the first pose *)
Definition cpi_at (cs : cpis) (t : R) : R * m3 * v3 * v3 :=
  match find (fun e => Reqb (fst e) t) cs with
  | Some (_, Some (c, _)) => (cp_DT c, cp_R c, cp_al c, cp_be c)
  | _ => (0, m3id, v3zero, v3zero)
  end.

(** ** DynamicInitializer.cpp 309-391: the linear system *)
(** one row: feature index, the row of Y, DT, right-hand side [DynamicInitializer.cpp 341-386] *)
Record yrow := mkRow { yr_k : nat; yr_y : v3; yr_DT : R; yr_b : R }.
(** row r of H_proj times M [DynamicInitializer.cpp 341-386] *)
Definition hproj (u : R) (first : bool) : v3 := if first then V3 1 0 (- u) else V3 0 1 (- u).
(** DynamicInitializer.cpp 341-386 *)
Definition rows_of (cs : cpis) (k : nat) (e : q4 * v3) (t : R) (z : uv) : list yrow :=
  let '(DT, Rk, al, _) := cpi_at cs t in
  let Ric := quat_2_Rot (fst e) in
  let row u first := let h := hproj u first in let y := m3v (m3tr (m3mul Ric Rk)) h in mkRow k y DT (v3dot y al - v3dot h (snd e)) in
  [row (fst z) true; row (snd z) false].
(** DynamicInitializer.cpp 341-386: one camera of one feature; an observation outside the poses is skipped before its coordinates are read *)
Fixpoint cam_rows (poses : list R) (mk : R -> uv -> list yrow) (ts : list R) (ns : list uv) : outcome (list yrow) :=
  match ts with
  | [] => Ok []
  | t :: ts' =>
      if tfind poses t then
        match ns with
        | [] => UB
        | n :: ns' => do r <- cam_rows poses mk ts' ns'; Ok (mk t n ++ r)
        end
      else cam_rows poses mk ts' (tl ns)
  end.
(** DynamicInitializer.cpp 341-386 (as above) *)
Fixpoint feat_rows (o : yopts) (poses : list R) (cs : cpis) (k : nat) (f : feature) (cams : amap (list R)) : outcome (list yrow) :=
  match cams with
  | [] => Ok []
  | (cam, ts) :: cams' =>
      match alook (yo_ext o) cam with
      | None => UB
      | Some e => do a <- cam_rows poses (rows_of cs k e) ts (aget (f_uvn f) cam); do b <- feat_rows o poses cs k f cams'; Ok (a ++ b)
      end
  end.
(** DynamicInitializer.cpp 341-386 (as above) *)
Fixpoint all_rows (o : yopts) (poses : list R) (cs : cpis) (k : nat) (l : list (nat * feature)) : outcome (list yrow) :=
  match l with
  | [] => Ok []
  | (_, f) :: l' => do a <- feat_rows o poses cs k f (f_ts f); do b <- all_rows o poses cs (S k) l'; Ok (a ++ b)
  end.
(** DynamicInitializer.cpp 341-386 (as above) *)
Definition v3nth (v : v3) (i : nat) : R := match i with O => vx v | 1%nat => vy v | _ => vz v end.
(** DynamicInitializer.cpp 365-381: entry [j] of a row for [n] features *)
Definition row_entry (n : nat) (r : yrow) (j : nat) : R :=
  if (3 * n + 3 <=? j)%nat then 5 / 10 * yr_DT r * yr_DT r * v3nth (yr_y r) (j - (3 * n + 3))
  else if (3 * n <=? j)%nat then - yr_DT r * v3nth (yr_y r) (j - 3 * n)
  else if Nat.eqb (j / 3) (yr_k r) then v3nth (yr_y r) (j mod 3) else 0.
(** DynamicInitializer.cpp 365-381 (as above) *)
Definition sysA (n : nat) (rows : list yrow) : mat := fun i j => match nth_error rows i with Some r => row_entry n r j | None => 0 end.
(** DynamicInitializer.cpp 365-381 (as above) *)
Definition sysb (rows : list yrow) : vec := fun i => match nth_error rows i with Some r => yr_b r | None => 0 end.

(** ** DynamicInitializer.cpp 393-476: solving with the length of gravity given *)
(** Eigen as arguments: [ya_inv n M] is M.llt().solve(I) for n x n, [ya_inv3] the same for 3 x 3, [ya_rank] JacobiSVD::rank,
    [ya_eigs] the eigenvalues (real, imaginary part), None when EigenSolver reports no success [DynamicInitializer.cpp 393-451] *)
Record alg := mkAlg { ya_inv : nat -> mat -> mat; ya_inv3 : m3 -> m3; ya_rank : mat -> nat; ya_eigs : mat -> option (list (R * R)) }.
(** helper: fixed-size view of a dynamic matrix or vector, DynamicInitializer.cpp 393-480 *)
Definition m3_of (M : mat) : m3 := M3 (M 0 0)%nat (M 0 1)%nat (M 0 2)%nat (M 1 0)%nat (M 1 1)%nat (M 1 2)%nat (M 2 0)%nat (M 2 1)%nat (M 2 2)%nat.
(** helper: fixed-size view of a dynamic matrix or vector, DynamicInitializer.cpp 393-480 *)
Definition v3_of (x : vec) : v3 := V3 (x 0%nat) (x 1%nat) (x 2%nat).
(** helper: fixed-size view of a dynamic matrix or vector, DynamicInitializer.cpp 393-480 *)
Definition vof3 (v : v3) : vec := v3nth v.
(** DynamicInitializer.cpp 393-399: A is m x (n + 3); returns A1A1_inv * A1^T, A2, D, d *)
Definition reduce (L : alg) (m n : nat) (A : mat) (b : vec) : mat * mat * m3 * v3 :=
  let A1 := A in
  let A2 := fun i j => A i (n + j)%nat in
  let inv := ya_inv L n (mmul m (mtr A1) A1) in
  let P := mmul n inv (mtr A1) in
  let Temp := mmul m (mtr A2) (msub mid (mmul n (mmul n A1 inv) (mtr A1))) in
  (P, A2, m3_of (mmul m Temp A2), v3_of (mvec m Temp b)).
(** DynamicInitializer.cpp 424-451: the real eigenvalue with the smallest cost, the first of equals *)
Definition grav_for (L : alg) (D : m3) (d : v3) (l : R) : v3 := m3v (ya_inv3 L (m3sub D (m3scal l m3id))) d.
(** DynamicInitializer.cpp 424-451 (as above) *)
Definition best_lambda (L : alg) (D : m3) (d : v3) (g : R) (ev : list (R * R)) : option R :=
  option_map fst (fold_left (fun acc (v : R * R) =>
    if Reqb (snd v) 0 then
      let cost := Rabs (v3norm (grav_for L D d (fst v)) - g) in
      match acc with
      | None => Some (fst v, cost)
      | Some (l, c) => if Rltb cost c then Some (fst v, cost) else acc
      end
    else acc) ev None).
(** DynamicInitializer.cpp 401-479: the solution [features, velocity] and gravity *)
Definition solve (L : alg) (g : R) (m n : nat) (A : mat) (b : vec) : option (vec * v3) :=
  let '(P, A2, D, d) := reduce L m n A b in
  let C := companion (compute_dongsi_coeff D d g) in
  if negb (Nat.eqb (ya_rank L C) 6) then None else
  match ya_eigs L C with
  | None => None
  | Some ev =>
      match best_lambda L D d g ev with
      | None => None
      | Some l =>
          let gr := grav_for L D d l in
          let fv := fun i => - mvec 3 (mmul m P A2) (vof3 gr) i + mvec m P b i in
          if Rltb (1 / 1000) (Rabs (v3norm gr - g)) then None else Some (fv, gr)
      end
  end.

(** ** DynamicInitializer.cpp 482-569: states and features of the guess *)
Definition seg (x : vec) (i : nat) : v3 := V3 (x i) (x (S i)) (x (S (S i))).
(** DynamicInitializer.cpp 485-510 and 549-557: time, orientation, position, velocity in the gravity aligned frame *)
Definition guess_pose (cs : cpis) (v0 g : v3) (Rg : m3) (t : R) : R * q4 * v3 * v3 :=
  let '(DT, Rk, al, be) := cpi_at cs t in
  let p := v3add (v3sub (v3scal DT v0) (v3scal (5 / 10 * DT * DT) g)) al in
  let v := v3add (v3sub v0 (v3scal DT g)) be in
  (t, quat_multiply (rot_2_quat Rk) (rot_2_quat Rg), m3v (m3tr Rg) p, m3v (m3tr Rg) v).
(** DynamicInitializer.cpp 513-541: the features not behind any of the cameras that saw them (judged from the first pose) *)
Definition in_front (o : yopts) (p : v3) (f : feature) : outcome bool :=
  ofold (fun b ct => match alook (yo_ext o) (fst ct) with
                     | None => UB
                     | Some e => Ok (b && negb (Rltb (vz (v3add (m3v (quat_2_Rot (fst e)) p) (snd e))) 0))%bool
                     end) (f_ts f) true.
(** DynamicInitializer.cpp 513-541 (as above) *)
Fixpoint guess_feats (o : yopts) (x : vec) (k : nat) (l : list (nat * feature)) : outcome (list (nat * v3)) :=
  match l with
  | [] => Ok []
  | (id, f) :: l' =>
      let p := seg x (3 * k) in
      do b <- in_front o p f;
      do r <- guess_feats o x (S k) l';
      Ok (if b then (id, p) :: r else r)
  end.
(** DynamicInitializer.cpp 513-541 (as above) *)
Record guess := mkGu { gu_poses : list (R * q4 * v3 * v3); gu_feats : list (nat * v3) }.

(** ** the function: DynamicInitializer.cpp 44-569.  Also returns the feature database and the IMU buffer, both cut *)
Definition dyn_core (L : alg) (o : yopts) (d : db) (data : list imu) (newest : R) : outcome (option guess) :=
  let s := scan o d newest in
  if (Z.of_nat (length (sc_poses s)) <? yo_npose o)%Z then Ok None else
  if (sc_cnt s <? 8)%nat then Ok None else
  match sc_old s with
  | None => UB (* INFINITY: no reading is selected, the assert of 173 fails *)
  | Some oldest =>
      do rd <- init_select_imu_readings data (oldest + yo_dt o) (newest + yo_dt o);
      guard (2 <? length rd)%nat UB
      (if Rltb (180 / PI * turned (yo_bg o) rd) (yo_deg o) then Ok None else
       let n := sc_cnt s in
       if (sc_meas s <? 3 * n + 6)%nat then Ok None else
       guard (Rltb oldest newest) UB
       (otry (preint_all o data oldest 0 (sc_poses s)) (fun cs =>
        let vf := valid_feats o s d in
        do rows <- all_rows o (sc_poses s) cs 0 vf;
        guard (length rows <=? sc_meas s)%nat UB
        (match solve L (yo_g o) (sc_meas s) (3 * n + 3) (sysA n rows) (sysb rows) with
         | None => Ok None
         | Some (x, g) =>
             let v0 := seg x (3 * n) in
             do fs <- guess_feats o x 0 vf;
             if (length fs <? 8)%nat then Ok None else
             do Rg <- gram_schmidt g;
             Ok (Some (mkGu (map (guess_pose cs v0 g Rg) (sc_poses s)) (map (fun e => (fst e, m3v (m3tr Rg) (snd e))) fs)))
         end))))
  end.
(** DynamicInitializer.cpp 44-569 (as above) *)
Definition dynamic_guess (L : alg) (o : yopts) (d : db) (data : list imu) : outcome (option guess * db * list imu) :=
  let newest := newest_cam d in
  let oldest := newest - yo_window o in
  if (Rltb newest 0 || Rltb oldest 0)%bool then Ok (None, d, data) else
  do d' <- cleanup_measurements oldest d;
  let data' := drop_before (oldest + yo_dt o) data in
  if Rltb (INR (length d')) (75 / 100 * IZR (yo_maxf o)) then Ok (None, d', data') else
  if ((length data' <? 2)%nat || Nat.eqb (length data') (length data))%bool then Ok (None, d', data') else
  do r <- dyn_core L o d' data' newest; Ok (r, d', data').
