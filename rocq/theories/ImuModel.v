(** Inertial data: buffering, interpolation and selection. *)
From Coq Require Import Reals List Bool.
From Verif Require Import RBool Outcome GeoModel.
Import ListNotations.
Open Scope R_scope.

(** ov_core/src/utils/sensor_data.h 33-51 *)
Record imu := mkImu { i_t : R; i_w : v3; i_a : v3 }.

(** Propagator.h 154-164 and ov_init/src/utils/helper.h 45-52 (same code).  With equal timestamps the
    code divides by zero; Coq's [/ 0] is an unspecified real, no theorem uses it. *)
Definition interpolate_data (a b : imu) (t : R) : imu :=
  let lambda := (t - i_t a) / (i_t b - i_t a) in
  mkImu t (v3add (v3scal (1 - lambda) (i_w a)) (v3scal lambda (i_w b)))
          (v3add (v3scal (1 - lambda) (i_a a)) (v3scal lambda (i_a b))).

(** Propagator.h 80-92 *)
Definition clean_old_imu (oldest : R) (l : list imu) : list imu :=
  if Rltb oldest 0 then l else filter (fun m => negb (Rltb (i_t m) oldest)) l.
(** Propagator.h 65-74 (UpdaterZeroVelocity.h 82-106 has the same two functions) *)
Definition feed_imu (m : imu) (oldest : R) (l : list imu) : list imu := clean_old_imu (oldest - 10 / 100) (l ++ [m]).
(** InertialInitializer.cpp 55-77 *)
Definition init_feed_imu (m : imu) (oldest : R) (l : list imu) : list imu :=
  if Reqb oldest (-1) then l ++ [m] else filter (fun x => negb (Rltb (i_t x) oldest)) (l ++ [m]).
(** VioManager.cpp 166-176: the discard time handed on.  [marg] is State::margtimestep(), [dt] the
    camera-to-IMU offset, [win] init_window_time. *)
Definition vio_oldest (initialized : bool) (marg stime mt win dt : R) : R :=
  let o := if Rltb stime marg then -1 else marg in
  if initialized then o else mt - win + dt - 10 / 100.

(** Propagator.cpp 286-338 / helper.h 75-107: the loop over i, here over the readings from index i on;
    [prev] is the reading at i-1 (None when i = 0), [acc] is prop_data. *)
Fixpoint sel_loop (t0 t1 : R) (prev : option imu) (l acc : list imu) : outcome (list imu) :=
  match l with
  | a :: ((b :: _) as l') =>
      if (Rltb t0 (i_t b) && Rltb (i_t a) t0)%bool then sel_loop t0 t1 (Some a) l' (acc ++ [interpolate_data a b t0])
      else if (Rleb t0 (i_t a) && Rleb (i_t b) t1)%bool then sel_loop t0 t1 (Some a) l' (acc ++ [a])
      else if Rltb t1 (i_t b) then
        match (if Rltb t1 (i_t a) then option_map (fun p => interpolate_data p a t1) prev else Some a) with
        | None => Ok acc                                  (* i == 0: break *)
        | Some x => if Reqb (i_t x) t1 then Ok (acc ++ [x]) else Ok (acc ++ [x; interpolate_data a b t1])
        end
      else sel_loop t0 t1 (Some a) l' acc
  | _ => Ok acc
  end.
(** the last two readings: imu_data.at(size-2), imu_data.at(size-1) [Propagator.cpp 269-393] *)
Fixpoint last_two (l : list imu) : option (imu * imu) :=
  match l with
  | a :: l' => match last_two l' with
               | Some p => Some p
               | None => match l' with [b] => Some (a, b) | _ => None end
               end
  | [] => None
  end.
(** Propagator.cpp 371-379 / helper.h 116-121: drop a reading followed within 1e-12 s *)
Fixpoint compact (l : list imu) : list imu :=
  match l with
  | a :: ((b :: _) as l') => if Rltb (Rabs (i_t b - i_t a)) (1 / 10 ^ 12) then compact l' else a :: compact l'
  | _ => l
  end.
(** Propagator.cpp 269-393.  [at] outside the vector would throw: UB. *)
Definition select_imu_readings (data : list imu) (t0 t1 : R) : outcome (list imu) :=
  match data with
  | [] => Ok []
  | _ =>
      do p <- sel_loop t0 t1 None data [];
      match p with
      | [] => Ok []
      | _ =>
          if Reqb (i_t (last p (mkImu 0 v3zero v3zero))) t1 then Ok (compact p)
          else match last_two data with
               | None => UB
               | Some (a, b) => Ok (compact (p ++ [interpolate_data a b t1]))
               end
      end
  end.
(** ov_init/src/utils/helper.h 66-126: the same without the final stretch. *)
Definition init_select_imu_readings (data : list imu) (t0 t1 : R) : outcome (list imu) :=
  match data with
  | [] => Ok []
  | _ => do p <- sel_loop t0 t1 None data []; Ok (compact p)
  end.
