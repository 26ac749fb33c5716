(** Model of the state variable classes in ov_core/src/types: Type.h, Vec.h, JPLQuat.h,
    PoseJPL.h, IMU.h, Landmark.h.

    Every C++ object is a record carrying its identity (the pointer, a number), its [_id]
    ([None] is -1), its estimate [_value] and its first estimate [_fej].  Pointer identity
    matters because StateHelper finds variables by comparing shared pointers.
    Simplification: a [Vec(3)] used as a sub-variable stores a [v3] instead of a dynamic
    vector; the seven/sixteen-dimensional values of a pose / the IMU are records of their
    slices.  Doubles are exact reals. *)
From Coq Require Import Reals List Arith Lia.
From Verif Require Import Outcome GeoModel.
Import ListNotations.
Open Scope R_scope.

(** Type.h 120-126: [int _id = -1]. *)
Definition oid := option nat.

(** Vec.h 32-69 and Landmark.h 40-89 (a landmark is a Vec of size 3 or 1 as far as the filter
    state is concerned). *)
Record vecobj := mkVec
  { vo_ptr : nat; vo_id : oid; vo_size : nat; vo_val : list R; vo_fej : list R }.

(** Vec(3) used as a sub-variable of a pose or the IMU. [Vec.h 32-80] *)
Record v3obj := mkV3o { wo_ptr : nat; wo_id : oid; wo_val : v3; wo_fej : v3 }.

(** JPLQuat.h 92-188: value, cached rotation, first estimate, cached first-estimate rotation. *)
Record quatobj := mkQuat
  { qo_ptr : nat; qo_id : oid; qo_val : q4; qo_R : m3; qo_fej : q4; qo_Rfej : m3 }.

(** PoseJPL.h 37-187: the 7-vector [_value] is stored in addition to the sub-variables. *)
Record pval := PVal { pv_q : q4; pv_p : v3 }.
(** PoseJPL.h 37-187 (as above) *)
Record poseobj := mkPose
  { po_ptr : nat; po_id : oid; po_q : quatobj; po_p : v3obj; po_val : pval; po_fej : pval }.

(** IMU.h 37-232: the 16-vector [_value] is stored in addition to the sub-variables. *)
Record ival := IVal { iv_q : q4; iv_p : v3; iv_v : v3; iv_bg : v3; iv_ba : v3 }.
(** IMU.h 37-232 (as above) *)
Record imuobj := mkImu
  { io_ptr : nat; io_id : oid; io_pose : poseobj; io_v : v3obj; io_bg : v3obj; io_ba : v3obj;
    io_val : ival; io_fej : ival }.

(** A [std::shared_ptr<Type>]. [Type.h 37-130] *)
Inductive ty :=
| TVec (v : vecobj)
| TV3 (v : v3obj)
| TQuat (q : quatobj)
| TPose (p : poseobj)
| TImu (i : imuobj).

(** Type.h 37-130 *)
Definition ty_ptr (t : ty) : nat :=
  match t with
  | TVec v => vo_ptr v | TV3 v => wo_ptr v | TQuat q => qo_ptr q
  | TPose p => po_ptr p | TImu i => io_ptr i
  end.

(** Type.h 60: id(). *)
Definition ty_id (t : ty) : oid :=
  match t with
  | TVec v => vo_id v | TV3 v => wo_id v | TQuat q => qo_id q
  | TPose p => po_id p | TImu i => io_id i
  end.

(** Type.h 65: size(); JPLQuat.h 95 (3), PoseJPL.h 40 (6), IMU.h 40 (15). *)
Definition ty_size (t : ty) : nat :=
  match t with
  | TVec v => vo_size v | TV3 _ => 3 | TQuat _ => 3 | TPose _ => 6 | TImu _ => 15
  end.

(** ** set_local_id *)
(** Type.h 55 *)
Definition vec_set_id (v : vecobj) (k : oid) : vecobj :=
  mkVec (vo_ptr v) k (vo_size v) (vo_val v) (vo_fej v).
(** Type.h 55 (as above) *)
Definition v3_set_id (v : v3obj) (k : oid) : v3obj := mkV3o (wo_ptr v) k (wo_val v) (wo_fej v).
(** Type.h 55 (as above) *)
Definition quat_set_id (q : quatobj) (k : oid) : quatobj :=
  mkQuat (qo_ptr q) k (qo_val q) (qo_R q) (qo_fej q) (qo_Rfej q).
(** [id + ((new_id != -1) ? size : 0)] of PoseJPL.h 66 and IMU.h 67-69 *)
Definition off_id (k : oid) (n : nat) : oid := option_map (fun i => (i + n)%nat) k.
(** PoseJPL.h 63-67 *)
Definition pose_set_id (p : poseobj) (k : oid) : poseobj :=
  mkPose (po_ptr p) k (quat_set_id (po_q p) k) (v3_set_id (po_p p) (off_id k 3)) (po_val p) (po_fej p).
(** IMU.h 64-70 *)
Definition imu_set_id (i : imuobj) (k : oid) : imuobj :=
  let pose := pose_set_id (io_pose i) k in
  let v := v3_set_id (io_v i) (off_id (po_id pose) 6) in
  let bg := v3_set_id (io_bg i) (off_id (wo_id v) 3) in
  let ba := v3_set_id (io_ba i) (off_id (wo_id bg) 3) in
  mkImu (io_ptr i) k pose v bg ba (io_val i) (io_fej i).
(** IMU.h 64-70 (as above) *)
Definition set_local_id (t : ty) (k : oid) : ty :=
  match t with
  | TVec v => TVec (vec_set_id v k)
  | TV3 v => TV3 (v3_set_id v k)
  | TQuat q => TQuat (quat_set_id q k)
  | TPose p => TPose (pose_set_id p k)
  | TImu i => TImu (imu_set_id i k)
  end.

(** ** set_value / set_fej *)
(** Type.h 82-96: the assert on the number of rows is a guard. *)
Definition vec_set_value (v : vecobj) (x : list R) : outcome vecobj :=
  guard (Nat.eqb (length (vo_val v)) (length x)) UB
    (Ok (mkVec (vo_ptr v) (vo_id v) (vo_size v) x (vo_fej v))).
(** Type.h 82-96 (as above) *)
Definition vec_set_fej (v : vecobj) (x : list R) : outcome vecobj :=
  guard (Nat.eqb (length (vo_fej v)) (length x)) UB
    (Ok (mkVec (vo_ptr v) (vo_id v) (vo_size v) (vo_val v) x)).
(** Type.h 82-96 (as above) *)
Definition v3_set_value (v : v3obj) (x : v3) : v3obj := mkV3o (wo_ptr v) (wo_id v) x (wo_fej v).
(** Type.h 82-96 (as above) *)
Definition v3_set_fej (v : v3obj) (x : v3) : v3obj := mkV3o (wo_ptr v) (wo_id v) (wo_val v) x.
(** JPLQuat.h 161-184 *)
Definition quat_set_value (q : quatobj) (x : q4) : quatobj :=
  mkQuat (qo_ptr q) (qo_id q) x (quat_2_Rot x) (qo_fej q) (qo_Rfej q).
(** JPLQuat.h 161-184 (as above) *)
Definition quat_set_fej (q : quatobj) (x : q4) : quatobj :=
  mkQuat (qo_ptr q) (qo_id q) (qo_val q) (qo_R q) x (quat_2_Rot x).
(** PoseJPL.h 153-186 *)
Definition pose_set_value (p : poseobj) (x : pval) : poseobj :=
  mkPose (po_ptr p) (po_id p) (quat_set_value (po_q p) (pv_q x)) (v3_set_value (po_p p) (pv_p x))
    x (po_fej p).
(** PoseJPL.h 153-186 (as above) *)
Definition pose_set_fej (p : poseobj) (x : pval) : poseobj :=
  mkPose (po_ptr p) (po_id p) (quat_set_fej (po_q p) (pv_q x)) (v3_set_fej (po_p p) (pv_p x))
    (po_val p) x.
(** IMU.h 203-232 *)
Definition imu_set_value (i : imuobj) (x : ival) : imuobj :=
  mkImu (io_ptr i) (io_id i) (pose_set_value (io_pose i) (PVal (iv_q x) (iv_p x)))
    (v3_set_value (io_v i) (iv_v x)) (v3_set_value (io_bg i) (iv_bg x))
    (v3_set_value (io_ba i) (iv_ba x)) x (io_fej i).
(** IMU.h 203-232 (as above) *)
Definition imu_set_fej (i : imuobj) (x : ival) : imuobj :=
  mkImu (io_ptr i) (io_id i) (pose_set_fej (io_pose i) (PVal (iv_q x) (iv_p x)))
    (v3_set_fej (io_v i) (iv_v x)) (v3_set_fej (io_bg i) (iv_bg x))
    (v3_set_fej (io_ba i) (iv_ba x)) (io_val i) x.

(** ** update *)
(** Vec.h 55-58 *)
Fixpoint list_add (a b : list R) : list R :=
  match a, b with
  | x :: a', y :: b' => (x + y) :: list_add a' b'
  | _, _ => []
  end.
(** [dx.block(k, 0, 3, 1)] [IMU.h 78-95, PoseJPL.h 74-90] *)
Definition slice3 (dx : list R) (k : nat) : v3 :=
  V3 (nth k dx 0) (nth (k + 1) dx 0) (nth (k + 2) dx 0).
(** [dq << .5 * dx, 1.0; dq = quatnorm(dq)]: JPLQuat.h 117-119, PoseJPL.h 80-82, IMU.h 84-86 *)
Definition small_quat (dx : v3) : q4 :=
  quatnorm (Q4 (/ 2 * vx dx) (/ 2 * vy dx) (/ 2 * vz dx) 1).

(** Vec.h 54-57 and Landmark.h 80-89 *)
Definition vec_update (v : vecobj) (dx : list R) : outcome vecobj :=
  guard (Nat.eqb (length dx) (vo_size v)) UB
    (guard (Nat.eqb (length (vo_val v)) (length dx)) UB
      (vec_set_value v (list_add (vo_val v) dx))).
(** Vec.h 54-57, Landmark.h 80-89 (as above) *)
Definition v3_update (v : v3obj) (dx : v3) : v3obj := v3_set_value v (v3add (wo_val v) dx).
(** JPLQuat.h 112-123 *)
Definition quat_update (q : quatobj) (dx : v3) : quatobj :=
  quat_set_value q (quat_multiply (small_quat dx) (qo_val q)).
(** PoseJPL.h 74-91: orientation from the sub-variable, position from the stored 7-vector. *)
Definition pose_update (p : poseobj) (dx : list R) : poseobj :=
  pose_set_value p
    (PVal (quat_multiply (small_quat (slice3 dx 0)) (qo_val (po_q p)))
          (v3add (pv_p (po_val p)) (slice3 dx 3))).
(** IMU.h 78-97 *)
Definition imu_update (i : imuobj) (dx : list R) : imuobj :=
  imu_set_value i
    (IVal (quat_multiply (small_quat (slice3 dx 0)) (qo_val (po_q (io_pose i))))
          (v3add (iv_p (io_val i)) (slice3 dx 3))
          (v3add (iv_v (io_val i)) (slice3 dx 6))
          (v3add (iv_bg (io_val i)) (slice3 dx 9))
          (v3add (iv_ba (io_val i)) (slice3 dx 12))).
(** virtual update; [assert(dx.rows() == _size)] is the guard [Type.h 74] *)
Definition ty_update (t : ty) (dx : list R) : outcome ty :=
  guard (Nat.eqb (length dx) (ty_size t)) UB
    match t with
    | TVec v => do v' <- vec_update v dx; Ok (TVec v')
    | TV3 v => Ok (TV3 (v3_update v (slice3 dx 0)))
    | TQuat q => Ok (TQuat (quat_update q (slice3 dx 0)))
    | TPose p => Ok (TPose (pose_update p dx))
    | TImu i => Ok (TImu (imu_update i dx))
    end.

(** ** construction and clone.  [nx] is the next unused pointer. *)
(** JPLQuat.h 95-101 *)
Definition qid := Q4 0 0 0 1.
(** Vec.h 39-42 *)
Definition new_vec (nx n : nat) : vecobj := mkVec nx None n (repeat 0 n) (repeat 0 n).
(** Vec.h 39-42 (as above) *)
Definition new_v3 (nx : nat) : v3obj := mkV3o nx None v3zero v3zero.
(** JPLQuat.h 95-100 *)
Definition new_quat (nx : nat) : quatobj :=
  mkQuat nx None qid (quat_2_Rot qid) qid (quat_2_Rot qid).
(** PoseJPL.h 40-52 *)
Definition new_pose (nx : nat) : poseobj :=
  mkPose nx None (new_quat (nx + 1)) (new_v3 (nx + 2)) (PVal qid v3zero) (PVal qid v3zero).
(** IMU.h 40-53 *)
Definition new_imu (nx : nat) : imuobj :=
  mkImu nx None (new_pose (nx + 1)) (new_v3 (nx + 4)) (new_v3 (nx + 5)) (new_v3 (nx + 6))
    (IVal qid v3zero v3zero v3zero v3zero) (IVal qid v3zero v3zero v3zero v3zero).

(** how many pointers an object of this class uses [Type.h 109] *)
Definition ty_alloc (t : ty) : nat :=
  match t with TVec _ => 1 | TV3 _ => 1 | TQuat _ => 1 | TPose _ => 3 | TImu _ => 7 end.

(** Vec.h 62-67, JPLQuat.h 137-142, PoseJPL.h 105-110, IMU.h 111-116 (Landmark inherits Vec's).
    The asserts inside set_value/set_fej of Vec are guards. *)
Definition ty_clone (nx : nat) (t : ty) : outcome ty :=
  match t with
  | TVec v => do a <- vec_set_value (new_vec nx (vo_size v)) (vo_val v);
              do b <- vec_set_fej a (vo_fej v); Ok (TVec b)
  | TV3 v => Ok (TV3 (v3_set_fej (v3_set_value (new_v3 nx) (wo_val v)) (wo_fej v)))
  | TQuat q => Ok (TQuat (quat_set_fej (quat_set_value (new_quat nx) (qo_val q)) (qo_fej q)))
  | TPose p => Ok (TPose (pose_set_fej (pose_set_value (new_pose nx) (po_val p)) (po_fej p)))
  | TImu i => Ok (TImu (imu_set_fej (imu_set_value (new_imu nx) (io_val i)) (io_fej i)))
  end.

(** ** check_if_subvariable: Type.h 112, PoseJPL.h 112-119, IMU.h 118-131 *)
Definition pose_sub (p : poseobj) (ptr : nat) : option ty :=
  if Nat.eqb ptr (qo_ptr (po_q p)) then Some (TQuat (po_q p))
  else if Nat.eqb ptr (wo_ptr (po_p p)) then Some (TV3 (po_p p))
  else None.
(** Type.h 112, PoseJPL.h 112-119, IMU.h 118-131 (as above) *)
Definition check_if_subvariable (t : ty) (ptr : nat) : option ty :=
  match t with
  | TVec _ | TV3 _ | TQuat _ => None
  | TPose p => pose_sub p ptr
  | TImu i =>
      if Nat.eqb ptr (po_ptr (io_pose i)) then Some (TPose (io_pose i))
      else match pose_sub (io_pose i) ptr with
           | Some s => Some s
           | None =>
               if Nat.eqb ptr (wo_ptr (io_v i)) then Some (TV3 (io_v i))
               else if Nat.eqb ptr (wo_ptr (io_bg i)) then Some (TV3 (io_bg i))
               else if Nat.eqb ptr (wo_ptr (io_ba i)) then Some (TV3 (io_ba i))
               else None
           end
  end.
