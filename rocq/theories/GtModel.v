(** Model of VioManager::initialize_with_gt, ov_msckf/src/core/VioManagerHelper.cpp 40-62.

    Simplifications: the state's time stands for startup_time too; the flag is_initialized_vio, the database of the
    ARUCO tracker, treated like the first, and the printing (64-75) are left out. *)
From Coq Require Import Reals List Arith Bool.
From Verif Require Import RBool Outcome GeoModel Lin GivensModel TypesModel StateModel ReachModel DbModel.
Import ListNotations.
Open Scope R_scope.

(** VioManagerHelper.cpp 49-52 *)
Definition gt_cov : dmat := DMat 15 15 (fun i j =>
  if Nat.eqb i j then (if (i <? 3)%nat then 17 / 1000 else if (i <? 6)%nat then 5 / 100 else if (i <? 9)%nat then 1 / 100 else 2 / 100) ^ 2 else 0).
(** VioManagerHelper.cpp 40-62: [t] and [x] are the first and the other entries of imustate *)
Definition initialize_with_gt (st : state) (d : db) (t : R) (x : ival) : outcome (state * db) :=
  do s1 <- with_var st (s_imu st) (set_imu_both x x);
  do s2 <- set_initial_covariance s1 gt_cov [ref_ptr s1 (s_imu s1)];
  do d' <- cleanup_measurements t d;
  Ok (set_time s2 t, d').
