(** Model of the zero-velocity updater, ov_msckf/src/update/UpdaterZeroVelocity.cpp and .h, and of
    the part of VioManager that calls it (VioManager.cpp 288-321).

    Simplifications: doubles are exact reals; the square root of a negative number (NaN, which every
    later comparison lets through) is [UB]; a zero noise density (infinite weight) is not modelled,
    the theorems exclude it; printing is left out.  The switches that are constants in the code
    (integrated_accel_constraint = false, model_time_varying_bias = true,
    override_with_disparity_check = true, explicitly_enforce_zero_motion = false, 110-113) are
    resolved, so the branches they disable are absent. *)
From Coq Require Import Reals List Arith ZArith Bool.
From Verif Require Import RBool Outcome Lin GeoModel TypesModel GivensModel StateModel UpdModel DbModel InitModel ImuModel
  PropModel ReachModel.
Import ListNotations.
Open Scope R_scope.

(** UpdaterZeroVelocity.h 145-156: imu_data, last_prop_time_offset, have_last_prop_time_offset,
    last_zupt_state_timestamp, last_zupt_count *)
Record zupt := mkZ { z_imu : list imu; z_off : R; z_have : bool; z_time : R; z_count : nat }.
(** UpdaterZeroVelocity.h 118-140: _options.chi2_multipler, _noises, gravity_mag, _zupt_max_velocity,
    _zupt_noise_multiplier, _zupt_max_disparity *)
Record zopts := mkZO { zo_mult : R; zo_noise : noises; zo_grav : R; zo_vmax : R; zo_nmul : R; zo_dmax : R }.

(** VioManager.h 219: -1 of the timestamps *)
Definition no_time (z : zupt) : zupt := mkZ (z_imu z) (z_off z) (z_have z) 0 (z_count z).

(** UpdaterZeroVelocity.cpp 148-149.  [x] carries the calibration values of the state
    (ps_model, ps_dw, ps_da, ps_tg, ps_qw, ps_qa), [o] is _imu. *)
Definition z_ahat (x : pst) (o : imuobj) (m : imu) : v3 :=
  m3v (m3mul (quat_2_Rot (ps_qa x)) (Dm (ps_model x) (ps_da x))) (v3sub (i_a m) (wo_val (io_ba o))).
(** UpdaterZeroVelocity.cpp 148-149 (as above) *)
Definition z_what (x : pst) (o : imuobj) (m : imu) : v3 :=
  m3v (m3mul (quat_2_Rot (ps_qw x)) (Dm (ps_model x) (ps_dw x)))
    (v3sub (v3sub (i_w m) (wo_val (io_bg o))) (m3v (Tg_of (ps_tg x)) (z_ahat x o m))).
(** UpdaterZeroVelocity.cpp 148-149 (as above) *)
Definition v3v (v : v3) : vec := fun i => vnth v i.

(** UpdaterZeroVelocity.cpp 143-180: one iteration for reading [m] followed by [p], and the loop *)
Definition zupt_row (zo : zopts) (x : pst) (o : imuobj) (i : nat) (m p : imu) (H : mat) (res : vec) : mat * vec :=
  let dt := i_t p - i_t m in
  let g := V3 0 0 (zo_grav zo) in
  let w_omega := sqrt dt / sigma_w (zo_noise zo) in
  let w_accel := sqrt dt / sigma_a (zo_noise zo) in
  let q := po_q (io_pose o) in
  let res1 := set_seg res (6 * i) 3 (v3v (v3scal (- w_omega) (z_what x o m))) in
  let res2 := set_seg res1 (6 * i + 3) 3 (v3v (v3scal (- w_accel) (v3sub (z_ahat x o m) (m3v (qo_R q) g)))) in
  let Rj := if ps_dofej x then qo_Rfej q else qo_R q in
  let H1 := put3 H (6 * i) 3 (m3scal (- w_omega) m3id) in
  let H2 := put3 H1 (6 * i + 3) 0 (m3scal (- w_accel) (skew_x (m3v Rj g))) in
  (put3 H2 (6 * i + 3) 6 (m3scal (- w_accel) m3id), res2).
(** UpdaterZeroVelocity.cpp 143-180 (as above) *)
Fixpoint zupt_loop (zo : zopts) (x : pst) (o : imuobj) (i : nat) (l : list imu) (H : mat) (res : vec) (sum : R)
  : outcome (mat * vec * R) :=
  match l with
  | m :: ((p :: _) as l') =>
      let dt := i_t p - i_t m in
      guard (Rleb 0 dt) UB
        (let '(H', res') := zupt_row zo x o i m p H res in zupt_loop zo x o (S i) l' H' res' (sum + dt))
  | _ => Ok (H, res, sum)
  end.

(** UpdaterZeroVelocity.cpp 194-196 *)
Definition z_Q (zo : zopts) (sum : R) : mat := fun i j =>
  if Nat.eqb i j then if (i <? 3)%nat then sum * sigma_wb (zo_noise zo) ^ 2 else sum * sigma_ab (zo_noise zo) ^ 2 else 0.

(** UpdaterZeroVelocity.cpp 116-119: Hx_order, 269-271: Phi_order *)
Definition z_order (o : imuobj) : list vref :=
  [(qo_id (po_q (io_pose o)), 3%nat); (wo_id (io_bg o), 3%nat); (wo_id (io_ba o), 3%nat)].
(** UpdaterZeroVelocity.cpp 116-119 (as above) *)
Definition z_bias (o : imuobj) : list vref := [(wo_id (io_bg o), 3%nat); (wo_id (io_ba o), 3%nat)].

(** UpdaterZeroVelocity.cpp 201-206: P_marg with the bias noise, S, and the Mahalanobis distance *)
Definition z_P (P : mat) (Qb : mat) : mat := fun i j =>
  if ((3 <=? i) && (i <? 9) && (3 <=? j) && (j <? 9))%nat%bool then P i j + Qb (i - 3)%nat (j - 3)%nat else P i j.
(** UpdaterZeroVelocity.cpp 201-206 (as above) *)
Definition z_chi2 (zo : zopts) (P : mat) (sum : R) (H : dmat) (res : dvec) : R :=
  let m := dn res in
  let Sm := innov m 9 (dm H) (z_P P (z_Q zo sum)) (mscal (zo_nmul zo) mid) in
  dot m (dv res) (mvec m (pdinv m Sm) (dv res)).

(** UpdaterZeroVelocity.cpp 219-239; a comparison with NaN (no common feature) is false *)
Definition z_disparity (zo : zopts) (s : option R * option R * nat) : bool :=
  match s with
  | (Some a, _, n) => (Rltb a (zo_dmax zo) && (20 <? n)%nat)%bool
  | (None, _, _) => false
  end.

(** UpdaterZeroVelocity.cpp 65-329.  [x] and [dt]: the calibration values held by the state; [chi2q]
    is boost's quantile (table and direct call, 209-216); [d] the feature database.  Returns the
    answer, the updater, the database and the state. *)
Definition try_update (chi2q : nat -> R) (zo : zopts) (x : pst) (dt : R) (z : zupt) (d : db) (st : state) (t : R)
  : outcome (bool * zupt * db * state) :=
  match z_imu z with
  | [] => Ok (false, no_time z, d, st)
  | _ :: _ =>
      if Reqb (s_time st) t then Ok (false, no_time z, d, st)
      else
        let off := if z_have z then z_off z else dt in
        do l <- select_imu_readings (z_imu z) (s_time st + off) (t + dt);
        let z1 := mkZ (z_imu z) dt true (z_time z) (z_count z) in
        if (length l <? 2)%nat then Ok (false, no_time z1, d, st)
        else
          match find_top (s_vars st) (s_imu st) with
          | Some (TImu o) =>
              let rows := (6 * (length l - 1))%nat in
              do s <- zupt_loop zo x o 0 l mzero (fun _ => 0) 0;
              let '(H0, res0, sum) := s in
              do c <- measurement_compress (DMat rows 9 H0) (DVec rows res0);
              let '(H, res) := c in
              if (dr H <? 1)%nat then Ok (false, z1, d, st)
              else
                do P <- get_marginal_covariance st (z_order o);
                guard ((dr P =? 9) && (dc H =? 9) && (dr H =? dn res))%nat%bool UB
                (let chi2 := z_chi2 zo (dm P) sum H res in
                 do ds <- compute_disparity d (s_time st) t;
                 if (negb (z_disparity zo ds) &&
                     (Rltb (zo_mult zo * chi2q (dn res)) chi2 || Rltb (zo_vmax zo) (v3norm (wo_val (io_v o)))))%bool
                 then Ok (false, mkZ (z_imu z) dt true 0 0, d, st)
                 else
                   do d1 <- (if (2 <=? z_count z)%nat then cleanup_measurements_exact (z_time z) d else Ok d);
                   do st1 <- EKFPropagation st (z_bias o) (z_bias o) (DMat 6 6 mid) (DMat 6 6 (z_Q zo sum));
                   do st2 <- EKFUpdate st1 (z_order o) H res (DMat (dn res) (dn res) (mscal (zo_nmul zo) mid));
                   Ok (true, mkZ (z_imu z) dt true t (S (z_count z)), d1, set_time st2 t))
          | _ => UB
          end
  end.

(** ** VioManager.cpp 288-321: one image after tracking, with zero-velocity updates, once initialized *)
(** the manager: did_zupt_update and has_moved_since_zupt (VioManager.h 229-230) *)
Record vio := mkVio { vm_st : state; vm_z : zupt; vm_did : bool; vm_moved : bool }.
(** what the world provides for one image: time, IMU readings the updater holds, the feature database after
    tracking, the propagation result and the operations of the feature updates [VioManager.cpp 256-321] *)
Record frame := mkFrame { fr_t : R; fr_imu : list imu; fr_db : db; fr_prop : prop_in; fr_mid : list (state -> op) }.
(** the part of do_feature_propagate_update (VioManager.cpp 323-360) that decides has_moved_since_zupt *)
Definition sets_moved (st0 st : state) (t : R) : bool :=
  (negb (Rltb t (s_time st0)) && negb (Z.of_nat (length (s_clones st)) <? Z.min (o_max_clones (s_opts st)) 5)%Z)%bool.
(** [once]: params.zupt_only_at_beginning; [cal]: the calibration values as a function of the state.  The
    cleaning of the IMU buffers (302-303) is part of the next [fr_imu].  An assertion failure is [UB]. [VioManager.cpp 288-321] *)
Definition vio_frame (chi2q : nat -> R) (zo : zopts) (cal : state -> pst * R) (once : bool) (m : vio) (f : frame) : outcome vio :=
  let st := vm_st m in let t := fr_t f in
  let z := mkZ (fr_imu f) (z_off (vm_z m)) (z_have (vm_z m)) (z_time (vm_z m)) (z_count (vm_z m)) in
  let normal z did :=
    do st' <- do_feature_propagate_update chi2q st t (fr_prop f) (fr_mid f);
    (* has_moved_since_zupt is set after the two early returns that follow the propagation *)
    do st1 <- (if Rltb t (s_time st) then Ok st else if Reqb (s_time st) t then Ok st else propagate_and_clone st t (fr_prop f));
    Ok (mkVio st' z did (vm_moved m || sets_moved st st1 t)) in
  if (negb once || negb (vm_moved m))%bool then
    do r <- (if Reqb (s_time st) t then Ok (vm_did m, z, st)
             else do q <- try_update chi2q zo (fst (cal st)) (snd (cal st)) z (fr_db f) st t;
                  let '(b, z', _, st') := q in Ok (b, z', st'));
    let '(did, z', st') := r in
    if did then guard (Reqb (s_time st') t) UB (Ok (mkVio st' z' true (vm_moved m)))
    else normal z' false
  else normal z (vm_did m).
