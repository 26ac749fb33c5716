(** Model of the decision which initializer runs (ov_init/src/init/InertialInitializer.cpp 79-159) and of what
    VioManager does with the images that arrive while it runs (ov_msckf/src/core/VioManagerHelper.cpp 78-188). *)
From Coq Require Import Reals List Arith ZArith Bool.
From Verif Require Import RBool Outcome GeoModel Lin TypesModel StateModel ReachModel ImuModel DbModel InitModel.
Import ListNotations.
Open Scope R_scope.

(** InertialInitializerOptions: window, threshold and gravity; init_max_disparity, init_dyn_use, calib_camimu_dt [InertialInitializerOptions.h 64-76] *)
Record dopts := mkDO { do_stat : init_opts; do_disp : R; do_dyn : bool; do_dt : R }.
(** the way [initialize] returns: the four false returns of its own (91, 117, 154-158) are kept apart from the results of
    the static (139) and the dynamic initializer (146) [InertialInitializer.cpp 79-159] *)
Inductive verdict (A : Type) := VWait | VFew | VNone | VStatic (r : option init_state) | VDyn (r : option A).
Arguments VWait {A}. Arguments VFew {A}. Arguments VNone {A}. Arguments VStatic {A} r. Arguments VDyn {A} r.

(** InertialInitializer.cpp 83-90: std::max over all timestamps of all cameras of all features, starting with -1 *)
Definition std_max (a b : R) : R := if Rltb a b then b else a.
(** InertialInitializer.cpp 83-90 (as above) *)
Definition newest_cam (d : db) : R :=
  fold_left (fun m f => fold_left (fun m ct => fold_left std_max (snd ct) m) (f_ts f) m) (map snd d) (-1).
(** InertialInitializer.cpp 99-102: erase from the front *)
Fixpoint drop_before (t : R) (l : list imu) : list imu :=
  match l with
  | [] => []
  | m :: l' => if Rltb (i_t m) t then drop_before t l' else l
  end.
(** NaN (None) compares false [InertialInitializer.cpp 79-159] *)
Definition above (m : option R) (thr : R) : bool := match m with Some x => Rltb thr x | None => false end.
(** InertialInitializer.cpp 104-130: the two flags, or None when there are too few features *)
Definition disp_flags (o : dopts) (d : db) (tn : R) : outcome (option (bool * bool)) :=
  if Rltb 0 (do_disp o) then
    let mid := tn - 5 / 10 * io_window (do_stat o) in
    do r0 <- compute_disparity_range d mid (-1);
    do r1 <- compute_disparity_range d tn mid;
    if ((snd r0 <? 15) || (snd r1 <? 15))%nat%bool then Ok None
    else Ok (Some (above (fst (fst r0)) (do_disp o), above (fst (fst r1)) (do_disp o)))
  else Ok (Some (false, false)).
(** InertialInitializer.cpp 79-159.  [dyn] is the dynamic initializer (an argument: its estimate is not modelled); the #ifdef for Android is off.
    Also returns the feature database and the IMU buffer, both of which are cut. *)
Definition inertial_initialize {A} (o : dopts) (dyn : db -> list imu -> outcome (option A)) (d : db) (data : list imu) (wait : bool)
  : outcome (verdict A * db * list imu) :=
  let tn := newest_cam d in
  let oldest := tn - io_window (do_stat o) - 10 / 100 in
  if (Rltb tn 0 || Rltb oldest 0)%bool then Ok (VWait, d, data) else
  do d' <- cleanup_measurements oldest d;
  let data' := drop_before (oldest + do_dt o) data in
  do fl <- disp_flags o d' tn;
  match fl with
  | None => Ok (VFew, d', data')
  | Some (m0, m1) =>
      let jerk := (negb m0 && m1)%bool in
      let still := (negb m0 && negb m1)%bool in
      if (((jerk && wait) || (still && negb wait)) && Rltb 0 (io_thresh (do_stat o)))%bool then
        do r <- static_initialize (do_stat o) data' wait; Ok (VStatic r, d', data')
      else if (do_dyn o && negb still)%bool then
        do r <- dyn d' data'; Ok (VDyn r, d', data')
      else Ok (VNone, d', data')
  end.

(** ** VioManagerHelper.cpp: the images of the meantime *)
(** every [rate]-th element, the first after [skip] others: the loop [for (i = 0; i < size; i += rate)] of 160 [VioManagerHelper.cpp 160] *)
Fixpoint strided (rate skip : nat) (l : list R) : list R :=
  match l with
  | [] => []
  | x :: l' => match skip with O => x :: strided rate (rate - 1) l' | S s => strided rate s l' end
  end.
(** VioManagerHelper.cpp 149-163: [queue] is camera_queue_init when the thread gets its lock, [ts] the time of the initialized state, [pin] what the
    propagator computes for a state and a target time.  The conversion of size / max_clone_size to size_t is
    undefined for a maximum that is not positive. *)
Definition forward (pin : state -> R -> prop_in) (queue : list R) (ts : R) (st : state) : outcome state :=
  let l := filter (fun t => Rltb ts t) queue in
  let mx := o_max_clones (s_opts st) in
  guard (0 <? mx)%Z UB
    (let rate := (length l / Z.to_nat mx + 1)%nat in
     ofold (fun s t => do s1 <- propagate_and_clone s t (pin s t); marginalize_old_clone s1) (strided rate 0 l) st).

(** The two threads, VioManagerHelper.cpp 78-188 with the flags of VioManager.h 226: a camera message in the main thread; the final
    section of the initialization thread, which holds the lock of the queue (148-166, 171-173); the last statement of
    the thread (177), before which further messages may come in.  Everything the thread did before is in the result.
    [ti_st] is the state once initialized; [ti_fin] marks that the thread has left its final section. *)
Record tinit := mkTI { ti_run : bool; ti_fin : bool; ti_ok : bool; ti_q : list R; ti_st : state }.
(** VioManagerHelper.cpp 78-188, VioManager.h 226 (as above) *)
Inductive tevent :=
| TMsg (t : R)                          (* try_to_initialize called for a message *)
| TEnd (r : option (R * state))         (* final section: None for failure, else time and state of the initializer *)
| TStop.                                (* thread_init_running = false *)
(** the answer of try_to_initialize (None for a step of the thread) and the new situation [VioManagerHelper.cpp 78-188] *)
Definition tstep (pin : state -> R -> prop_in) (s : tinit) (e : tevent) : outcome (option bool * tinit) :=
  match e with
  | TMsg t =>
      if ti_run s then Ok (Some false, mkTI true (ti_fin s) (ti_ok s) (ti_q s ++ [t]) (ti_st s))
      else if ti_ok s then Ok (Some true, s)
      else Ok (Some false, mkTI true false false (ti_q s) (ti_st s))
  | TEnd r =>
      match r with
      | None => Ok (None, mkTI (ti_run s) true false [] (ti_st s))
      | Some (ts, st) => do st' <- forward pin (ti_q s) ts st; Ok (None, mkTI (ti_run s) true true [] st')
      end
  | TStop => Ok (None, mkTI false false (ti_ok s) (ti_q s) (ti_st s))
  end.
(** VioManagerHelper.cpp 78-188 *)
Fixpoint truns (pin : state -> R -> prop_in) (s : tinit) (l : list tevent) : outcome (list (option bool) * tinit) :=
  match l with
  | [] => Ok ([], s)
  | e :: l' => do r <- tstep pin s e; do q <- truns pin (snd r) l'; Ok (fst r :: fst q, snd q)
  end.
