(** What C57 means. *)
From Coq Require Import Reals List Arith Bool Sorting.Sorted.
From Verif Require Import RBool RosModel.
Import ListNotations.
Open Scope R_scope.

(** at most one image per 1/freq, later ones strictly later *)
Definition spaced (freq : R) (l : list cframe) : Prop := StronglySorted (fun a b => cf_t a + 1 / freq <= cf_t b) l.
Definition of_cam (c : nat) (l : list cframe) : list cframe := filter (fun f => Nat.eqb (cf_id0 f) c) l.
Definition in_order (l : list cframe) : Prop := StronglySorted (fun a b => cf_t a < cf_t b) l.

(** the images that get past the rate limiter of their camera and the conversion, in arrival order:
    [last] maps a camera to the stamp of its last image past the limiter *)
Fixpoint accepted (freq : R) (last : nat -> option R) (ms : list rmsg) : list cframe :=
  match ms with
  | [] => []
  | MImu _ _ :: r => accepted freq last r
  | MCam c c' t ok img :: r =>
      if match last c with Some l => Rltb t (l + 1 / freq) | None => false end then accepted freq last r
      else (if ok then [mkF t c c' img] else []) ++ accepted freq (fun x => if Nat.eqb x c then Some t else last x) r
  end.

(** stamps of the messages of one camera and of the IMU, in arrival order *)
Fixpoint cam_times (c : nat) (ms : list rmsg) : list R :=
  match ms with [] => [] | MCam c0 _ t _ _ :: r => if Nat.eqb c0 c then t :: cam_times c r else cam_times c r | MImu _ _ :: r => cam_times c r end.
Fixpoint imu_times (ms : list rmsg) : list R :=
  match ms with [] => [] | MImu t _ :: r => t :: imu_times r | MCam _ _ _ _ _ :: r => imu_times r end.
