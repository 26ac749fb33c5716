(** Model of the nonlinear refinement of the dynamic initializer: the Ceres problem it builds, and what it hands over
    (ov_init/src/dynamic/DynamicInitializer.cpp 571-1100).

    Simplifications: doubles are exact reals; a parameter block is a value in one of four vectors, addressed by its index
    as in the maps of the code; ceres::Solve and ceres::Covariance are arguments; solver options, timing, printing and the
    freeing of memory are left out. *)
From Coq Require Import Reals List Arith ZArith Bool.
From Verif Require Import RBool Outcome GeoModel Lin TypesModel ImuModel DbModel InitModel StartModel StateModel PropModel CamModel HelpModel CpiModel CeresModel DynModel.
Import ListNotations.
Open Scope R_scope.

(** InertialInitializerOptions.h 79-110 and its camera_intrinsics: model and values; sigma_pix, init_dyn_mle_opt_calib, whether
    init_dyn_mle_max_iter is zero, and the four inflation factors *)
Record mopts := mkMO { mo_y : yopts; mo_int : amap (camera * vec); mo_sigma : R; mo_opt_calib : bool; mo_no_iter : bool;
  mo_inf_ori : R; mo_inf_vel : R; mo_inf_bg : R; mo_inf_ba : R }.
(** Factor_GenericPrior and Factor_ImuCPIv1 use Eigen's LLT, triangular solve and solve: arguments [Factor_GenericPrior.cpp 58-75, Factor_ImuCPIv1.cpp 50-61] *)
Record facs := mkFacs { fa_llt : nat -> mat -> option mat; fa_tri : nat -> mat -> option mat; fa_solve : mat -> option mat; fa_chol : mat -> mat }.

(** ** DynamicInitializer.cpp 111, 117, 132, 147-149: map_camera_ids *)
(** std::map::operator[] as a set of keys in increasing order [DynamicInitializer.cpp 111] *)
Fixpoint nins (c : nat) (l : list nat) : list nat :=
  match l with
  | [] => [c]
  | x :: l' => if (c <? x)%nat then c :: l else if Nat.eqb c x then l else x :: nins c l'
  end.
(** DynamicInitializer.cpp 117-135: the cameras of the observations that are taken *)
Definition pick_ids (dt : R) (poses : list R) (f : feature) : list nat :=
  snd (fold_left (fun (a : list R * list nat) ct =>
         let ts := pick_cam dt poses (fst a) (snd ct) in
         (ts, if Nat.eqb (length ts) (length (fst a)) then snd a else nins (fst ct) (snd a))) (f_ts f) ([], [])).
(** DynamicInitializer.cpp 113-154, beside [scan_step] *)
Definition ids_step (o : yopts) (dt : R) (a : scanned * list nat) (e : nat * feature) : scanned * list nat :=
  let s := fst a in
  (scan_step o dt s e,
   if usable o (length (pick dt (sc_poses s) (snd e))) then fold_left (fun l c => nins c l) (pick_ids dt (sc_poses s) (snd e)) (snd a) else snd a).
(** DynamicInitializer.cpp 113-154 *)
Definition camera_ids (o : yopts) (d : db) (newest : R) : list nat :=
  snd (fold_left (ids_step o (pose_dt o)) d (mkSc [] 0 None [newest] 0, [])).

(** ** the problem: DynamicInitializer.cpp 571-594 *)
(** values of the parameter blocks: states, extrinsics, intrinsics, features *)
Record assign := mkAs { as_x : list clone; as_c : list (q4 * v3); as_k : list vec; as_f : list v3 }.
(** residual blocks with the indices of their parameter blocks: prior of the first state (714), IMU (746), priors of the
    extrinsics (796) and intrinsics (828), image (882, with CauchyLoss(1.0)); lines of DynamicInitializer.cpp 571-886 *)
Inductive term :=
| TFirst (f : pfac) | TImu (f : cfac) (i j : nat) | TExt (f : pfac) (c : nat) | TInt (f : pfac) (c : nat) | TImg (f : ifac) (i k c : nat).
(** map_states, map_calib_cam2imu (map_calib_cam has the same indices) and map_features as lists of keys, the index of a key being its
    position; the initial values; whether the calibration is constant; the residual blocks [DynamicInitializer.cpp 571-594] *)
Record problem := mkPr { pr_times : list R; pr_cams : list nat; pr_fids : list nat; pr_vars : assign; pr_const : bool; pr_terms : list term }.
(** map.at(key) of DynamicInitializer.cpp 734-743, 873-878: throws when the key is missing *)
Fixpoint index {A} (eqb : A -> A -> bool) (x : A) (l : list A) : outcome nat :=
  match l with
  | [] => UB
  | y :: l' => if eqb x y then Ok 0%nat else do n <- index eqb x l'; Ok (S n)
  end.

(** DynamicInitializer.cpp 681-696 *)
Definition first_lin (x : clone) : vec := fun i =>
  nth i [qx (cl_q x); qy (cl_q x); qz (cl_q x); qw (cl_q x); vx (cl_p x); vy (cl_p x); vz (cl_p x);
         vx (cl_bg x); vy (cl_bg x); vz (cl_bg x); vx (cl_ba x); vy (cl_ba x); vz (cl_ba x)] 0.
(** DynamicInitializer.cpp 691-694 *)
Definition first_info : mat := fun i j =>
  if Nat.eqb i j then (if (i <? 4)%nat then 1 / (1 / 10 ^ 5) ^ 2 else if (i <? 7)%nat then 1 / (5 / 100) ^ 2 else 1 / (10 / 100) ^ 2) else 0.
(** DynamicInitializer.cpp 678-715 *)
Definition first_prior (F : facs) (x : clone) : outcome pfac :=
  prior_new (fa_llt F) (fa_tri F) 13 10 10 (first_lin x) [PYaw; PVec 3; PVec 3; PVec 3] first_info (fun _ => 0).
(** DynamicInitializer.cpp 560: gravity *)
Definition up_gravity (o : yopts) : v3 := V3 0 0 (yo_g o).
(** DynamicInitializer.cpp 636-751: one pose.  map_states is keyed by distinct times. *)
Definition state_step (F : facs) (o : yopts) (cs : cpis) (a : R * list R * list clone * list term) (e : R * q4 * v3 * v3) :
  outcome (R * list R * list clone * list term) :=
  let '(lastt, times, xs, terms) := a in let '(t, q, p, v) := e in
  match find (fun c => Reqb (fst c) t) cs with
  | None => UB
  | Some (_, c) =>
      let x := mkCl q (yo_bg o) v (yo_ba o) p in
      do pri <- (match times with [] => do f <- first_prior F x; Ok [TFirst f] | _ => Ok [] end);
      let times := times ++ [t] in
      do im <- (match c with
                | None => Ok []
                | Some (_, c1) =>
                    guard (negb (Reqb lastt (-1))) UB
                    (do i <- index Reqb lastt times; do j <- index Reqb t times;
                     do f <- imu_factor (fa_solve F) (fa_chol F) (up_gravity o) c1; Ok [TImu f i j])
                end);
      Ok (t, times, xs ++ [x], terms ++ pri ++ im)
  end.

(** DynamicInitializer.cpp 769-782 *)
Definition ext_lin (e : q4 * v3) : vec := fun i =>
  nth i [qx (fst e); qy (fst e); qz (fst e); qw (fst e); vx (snd e); vy (snd e); vz (snd e)] 0.
(** DynamicInitializer.cpp 779-781 *)
Definition ext_info : mat := fun i j => if Nat.eqb i j then (if (i <? 3)%nat then 1 / (1 / 1000) ^ 2 else 1 / (1 / 100) ^ 2) else 0.
(** DynamicInitializer.cpp 816-818 *)
Definition int_info : mat := fun i j => if Nat.eqb i j then (if (i <? 4)%nat then 1 / 1 ^ 2 else 1 / (5 / 1000) ^ 2) else 0.
(** DynamicInitializer.cpp 752-837: one camera; its two maps get the same index *)
Definition cam_step (F : facs) (o : mopts) (a : list nat * list (q4 * v3) * list vec * list term) (cam : nat) :
  outcome (list nat * list (q4 * v3) * list vec * list term) :=
  let '(cams, es, ks, terms) := a in
  match alook (yo_ext (mo_y o)) cam with
  | None => UB
  | Some e =>
      do fe <- prior_new (fa_llt F) (fa_tri F) 7 6 6 (ext_lin e) [PQuat; PVec 3] ext_info (fun _ => 0);
      match alook (mo_int o) cam with
      | None => UB
      | Some (_, k) =>
          do fk <- prior_new (fa_llt F) (fa_tri F) 8 8 8 k [PVec 8] int_info (fun _ => 0);
          let c := length cams in Ok (cams ++ [cam], es ++ [e], ks ++ [k], terms ++ [TExt fe c; TInt fk c])
      end
  end.

(** DynamicInitializer.cpp 850-884: the observations of a feature in one camera; the feature's block is added with its first observation *)
Fixpoint obs_terms (o : mopts) (times : list R) (cams : list nat) (id cam : nat) (model : camera) (p : v3) (ts : list R) (us : list uv)
  (a : list nat * list v3 * list term) : outcome (list nat * list v3 * list term) :=
  match ts with
  | [] => Ok a
  | t :: ts' =>
      if tfind times t then
        match us with
        | [] => UB
        | u :: us' =>
            let '(ids, fs, terms) := a in
            let '(ids, fs) := if existsb (Nat.eqb id) ids then (ids, fs) else (ids ++ [id], fs ++ [p]) in
            do i <- index Reqb t times; do k <- index Nat.eqb id ids; do c <- index Nat.eqb cam cams;
            obs_terms o times cams id cam model p ts' us' (ids, fs, terms ++ [TImg (mkIF (vec2 (fst u) (snd u)) (mo_sigma o) model 1) i k c])
        end
      else obs_terms o times cams id cam model p ts' (tl us) a
  end.
(** DynamicInitializer.cpp 839-886: one feature *)
Definition feat_step (o : mopts) (s : scanned) (times : list R) (cams : list nat) (gf : list (nat * v3)) (a : list nat * list v3 * list term) (e : nat * feature) :
  outcome (list nat * list v3 * list term) :=
  if usable (mo_y o) (match alook (sc_num s) (fst e) with Some n => n | None => O end) then
    match find (fun g => Nat.eqb (fst g) (fst e)) gf with
    | None => Ok a
    | Some (_, p) =>
        ofold (fun a ct => match alook (mo_int o) (fst ct) with
                           | None => UB
                           | Some (model, _) => obs_terms o times cams (fst e) (fst ct) model p (snd ct) (aget (f_uvs (snd e)) (fst ct)) a
                           end) (f_ts (snd e)) a
    end
  else Ok a.

(** DynamicInitializer.cpp 571-891 after the guess [gu] of [dyn_core]; the scan and the preintegrations of 106-307 are computed again here *)
Definition assemble (F : facs) (o : mopts) (d : db) (data : list imu) (newest : R) (gu : guess) : outcome problem :=
  let y := mo_y o in let s := scan y d newest in
  match sc_old s with
  | None => UB
  | Some oldest =>
      do r <- preint_all y data oldest 0 (sc_poses s);
      match r with
      | None => UB
      | Some cs =>
          do st <- ofold (state_step F y cs) (gu_poses gu) (-1, [], [], []);
          let '(_, times, xs, t1) := st in
          do ca <- ofold (cam_step F o) (camera_ids y d newest) ([], [], [], []);
          let '(cams, es, ks, t2) := ca in
          do fe <- ofold (feat_step o s times cams (gu_feats gu)) d ([], [], []);
          let '(ids, fs, t3) := fe in
          Ok (mkPr times cams ids (mkAs xs es ks fs) (negb (mo_opt_calib o)) (t1 ++ t2 ++ t3))
      end
  end.

(** ** what Ceres evaluates (ceres::Problem, used at DynamicInitializer.cpp 890): half the sum of the squared residuals, the image
    terms under CauchyLoss(1.0): rho(s) = log(1 + s) *)
Definition term_sq (A : assign) (t : term) : outcome R :=
  let prior f n xs := do r <- prior_eval f xs; Ok (dot n (fst r) (fst r)) in
  match t with
  | TFirst f => match as_x A with
                | [] => UB
                | x :: _ => prior f 10%nat [VQ (cl_q x); VV (v3vec (cl_p x)); VV (v3vec (cl_bg x)); VV (v3vec (cl_ba x))]
                end
  | TImu f i j => match nth_error (as_x A) i, nth_error (as_x A) j with
                  | Some x, Some y => Ok (dot 15 (imu_res f x y) (imu_res f x y))
                  | _, _ => UB
                  end
  | TExt f c => match nth_error (as_c A) c with None => UB | Some e => prior f 6%nat [VQ (fst e); VV (v3vec (snd e))] end
  | TInt f c => match nth_error (as_k A) c with None => UB | Some k => prior f 8%nat [VV k] end
  | TImg f i k c => match nth_error (as_x A) i, nth_error (as_f A) k, nth_error (as_c A) c, nth_error (as_k A) c with
                    | Some x, Some p, Some e, Some kv =>
                        let r := img_res f (mkIP (cl_q x) (cl_p x) p (fst e) (snd e) kv) in Ok (ln (1 + dot 2 r r))
                    | _, _, _, _ => UB
                    end
  end.
(** ceres::Problem as used at DynamicInitializer.cpp 890 *)
Fixpoint total_sq (A : assign) (l : list term) : outcome R :=
  match l with [] => Ok 0 | t :: l' => do a <- term_sq A t; do b <- total_sq A l'; Ok (a + b) end.
(** ceres::Problem as used at DynamicInitializer.cpp 890 *)
Definition cost (pr : problem) (A : assign) : outcome R := do s <- total_sq A (pr_terms pr); Ok (s / 2).

(** ** what is handed over: DynamicInitializer.cpp 898-1100 *)
(** _imu (value and fej are equal), _clones_IMU (those of this call) and _features_SLAM *)
Record handed := mkHd { hd_imu : clone; hd_clones : list (R * (q4 * v3)); hd_feats : list (nat * v3) }.
(** DynamicInitializer.cpp 1025-1068: [B a b] is the block Ceres returns for variables a <= b of ori, pos, vel, bias_g, bias_a *)
Definition cov_blocks (B : nat -> nat -> m3) : mat :=
  (let diag C a := put3 C (3 * a) (3 * a) (B a a) in
  let pair C a b := put3 (put3 C (3 * a) (3 * b) (B a b)) (3 * b) (3 * a) (m3tr (B a b)) in
  let C := diag (diag (diag (diag (diag mzero O) 1) 2) 3) 4 in
  let C := pair (pair (pair (pair C 0 1) 0 2) 0 3) 0 4 in
  let C := pair (pair (pair C 1 2) 1 3) 1 4 in
  let C := pair (pair C 2 3) 2 4 in
  pair C 3 4)%nat.
(** block(r, r, 3, 3) *= k of DynamicInitializer.cpp 1071-1074 *)
Definition scale3 (C : mat) (r : nat) (k : R) : mat := set_block C r r 3 3 (fun i j => k * C (r + i)%nat (r + j)%nat).
(** DynamicInitializer.cpp 1070-1077 *)
Definition cov_out (o : mopts) (B : nat -> nat -> m3) : mat :=
  let C := cov_blocks B in
  let C := scale3 C 0 (mo_inf_ori o) in let C := scale3 C 6 (mo_inf_vel o) in
  let C := scale3 C 9 (mo_inf_bg o) in let C := scale3 C 12 (mo_inf_ba o) in
  mscal (5 / 10) (madd C (mtr C)).
(** DynamicInitializer.cpp 898-1100: [A] the values after ceres::Solve, [conv] whether it converged, [cov] the blocks of the
    covariance of the state with the given index, None when Compute fails.  The result: the returned covariance, None when
    the function returns false, and _imu, _clones_IMU, _features_SLAM as they are afterwards ([old] before). *)
Definition finish (o : mopts) (pr : problem) (newest : R) (A : assign) (conv : bool) (cov : nat -> option (nat -> nat -> m3)) (old : handed) :
  outcome (option mat * handed) :=
  if (negb (mo_no_iter o) && negb conv)%bool then Ok (None, old) else
  do i <- index Reqb newest (pr_times pr);
  match nth_error (as_x A) i with
  | None => UB
  | Some x =>
      let cl := combine (pr_times pr) (map (fun y => (cl_q y, cl_p y)) (as_x A)) in
      let fe := combine (pr_fids pr) (as_f A) in
      match cov i with
      | None => Ok (None, mkHd x cl fe)
      | Some B => Ok (Some (cov_out o B), mkHd (mkCl (cl_q x) (cl_bg x) (cl_v x) (cl_ba x) v3zero) cl fe)
      end
  end.
