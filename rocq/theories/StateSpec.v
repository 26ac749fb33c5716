(** Specifications for the filter-state properties (C01-C13, C31); they mention the state record
    and linear algebra only, none of the StateHelper helper functions. *)
From Coq Require Import Reals List Arith Lia ZArith.
From Verif Require Import Lin GeoModel GeoSpec TypesModel StateModel.
Import ListNotations.
Open Scope R_scope.

(** ** Layout *)

(** The blocks of [vars] are consecutive from [off] and end at [n]. *)
Fixpoint consecutive (off : nat) (vars : list ty) (n : nat) : Prop :=
  match vars with
  | [] => off = n
  | t :: l => ty_id t = Some off /\ consecutive (off + ty_size t) l n
  end.

(** covariance index [k] belongs to variable [t] *)
Definition owns (t : ty) (k : nat) : Prop :=
  exists id, ty_id t = Some id /\ (id <= k < id + ty_size t)%nat.

(** every index below [n] belongs to exactly one variable of the list, and no other index does *)
Definition tiles (vars : list ty) (n : nat) : Prop :=
  (forall k, (k < n)%nat ->
     exists i, (exists t, nth_error vars i = Some t /\ owns t k) /\
       forall i' t', nth_error vars i' = Some t' -> owns t' k -> i' = i) /\
  (forall t k, In t vars -> owns t k -> (k < n)%nat).

(** sub-variables of a pose / the IMU sit at their offsets (q, p, v, bg, ba) inside the parent *)
Definition at_off (k : oid) (parent : oid) (off : nat) : Prop :=
  k = match parent with Some i => Some (i + off)%nat | None => None end.
Definition pose_subs_ok (p : poseobj) : Prop :=
  at_off (qo_id (po_q p)) (po_id p) 0 /\ at_off (wo_id (po_p p)) (po_id p) 3.
Definition subs_ok (t : ty) : Prop :=
  match t with
  | TVec _ | TV3 _ | TQuat _ => True
  | TPose p => pose_subs_ok p
  | TImu i => at_off (po_id (io_pose i)) (io_id i) 0 /\ pose_subs_ok (io_pose i) /\
              at_off (wo_id (io_v i)) (io_id i) 6 /\ at_off (wo_id (io_bg i)) (io_id i) 9 /\
              at_off (wo_id (io_ba i)) (io_id i) 12
  end.

(** pointers of an object and its sub-objects *)
Definition pose_ptrs (p : poseobj) : list nat := [po_ptr p; qo_ptr (po_q p); wo_ptr (po_p p)].
Definition ty_ptrs (t : ty) : list nat :=
  match t with
  | TVec v => [vo_ptr v] | TV3 v => [wo_ptr v] | TQuat q => [qo_ptr q]
  | TPose p => pose_ptrs p
  | TImu i => io_ptr i :: pose_ptrs (io_pose i) ++
              [wo_ptr (io_v i); wo_ptr (io_bg i); wo_ptr (io_ba i)]
  end.

(** ** Values *)

(** The estimate of a variable, forgetting identity and location. *)
Inductive tval := VVec (x : list R) | VV3 (x : v3) | VQuat (x : q4) | VPose (x : pval) | VImu (x : ival).
Definition value_of (t : ty) : tval :=
  match t with
  | TVec v => VVec (vo_val v) | TV3 v => VV3 (wo_val v) | TQuat q => VQuat (qo_val q)
  | TPose p => VPose (po_val p) | TImu i => VImu (io_val i)
  end.
Definition fej_of (t : ty) : tval :=
  match t with
  | TVec v => VVec (vo_fej v) | TV3 v => VV3 (wo_fej v) | TQuat q => VQuat (qo_fej q)
  | TPose p => VPose (po_fej p) | TImu i => VImu (io_fej i)
  end.

(** Stored sub-values, cached rotations and vector lengths agree with the object's own value. *)
Definition quat_ok (q : quatobj) : Prop :=
  qo_R q = quat_2_Rot (qo_val q) /\ qo_Rfej q = quat_2_Rot (qo_fej q).
Definition pose_vals_ok (p : poseobj) : Prop :=
  quat_ok (po_q p) /\
  po_val p = PVal (qo_val (po_q p)) (wo_val (po_p p)) /\
  po_fej p = PVal (qo_fej (po_q p)) (wo_fej (po_p p)).
Definition vals_ok (t : ty) : Prop :=
  match t with
  | TVec v => length (vo_val v) = vo_size v /\ length (vo_fej v) = vo_size v /\ (0 < vo_size v)%nat
  | TV3 _ => True
  | TQuat q => quat_ok q
  | TPose p => pose_vals_ok p
  | TImu i => pose_vals_ok (io_pose i) /\
      io_val i = IVal (qo_val (po_q (io_pose i))) (wo_val (po_p (io_pose i)))
                      (wo_val (io_v i)) (wo_val (io_bg i)) (wo_val (io_ba i)) /\
      io_fej i = IVal (qo_fej (po_q (io_pose i))) (wo_fej (po_p (io_pose i)))
                      (wo_fej (io_v i)) (wo_fej (io_bg i)) (wo_fej (io_ba i))
  end.
(** orientations are unit quaternions *)
Definition ori_unit (t : ty) : Prop :=
  match t with
  | TVec _ | TV3 _ => True
  | TQuat q => unit_q (qo_val q)
  | TPose p => unit_q (pv_q (po_val p))
  | TImu i => unit_q (iv_q (io_val i))
  end.

(** The state invariant. *)
Record state_ok (st : state) : Prop := mkStateOk
  { ok_layout : consecutive 0 (s_vars st) (s_dim st);
    ok_subs : Forall subs_ok (s_vars st);
    ok_vals : Forall vals_ok (s_vars st);
    ok_unit : Forall ori_unit (s_vars st);
    ok_nodup : NoDup (flat_map ty_ptrs (s_vars st));
    ok_alloc : forall p, In p (flat_map ty_ptrs (s_vars st)) -> (p < s_next st)%nat;
    ok_dt : (s_dt st < s_next st)%nat }.

(** ** Covariance *)

(** the covariance indices of an ordered list of variables *)
Definition indices (order : list vref) : list nat :=
  flat_map (fun r => match fst r with Some i => seq i (snd r) | None => [] end) order.
(** every variable of the order has its block inside an n x n covariance *)
Definition in_cov (n : nat) (order : list vref) : Prop :=
  Forall (fun r => exists i, fst r = Some i /\ (i + snd r <= n)%nat) order.
(** selection matrix: row a picks state index (nth a idx) *)
Definition selm (idx : list nat) : mat := fun a j => if Nat.eqb (nth a idx 0%nat) j then 1 else 0.
(** full-width version of a Jacobian given on an ordered list of variables *)
Definition widen (idx : list nat) (H : mat) : mat := mmul (length idx) H (selm idx).
(** symmetric positive semi-definite *)
Definition spsd (n : nat) (C : mat) : Prop := sym n C /\ psd n C.
(** A P A^T *)
Definition congr (n : nat) (A P : mat) : mat := mmul n (mmul n A P) (mtr A).

(** state transition of the whole state: identity except rows [s0, s0+k) *)
Definition full_F (s0 k : nat) (idx : list nat) (Phi : mat) : mat := fun i j =>
  if ((s0 <=? i) && (i <? s0 + k))%nat%bool then widen idx Phi (i - s0)%nat j else mid i j.
(** noise placed on rows/columns [s0, s0+k) *)
Definition full_Q (s0 k : nat) (Q : mat) : mat := fun i j =>
  if ((s0 <=? i) && (i <? s0 + k) && (s0 <=? j) && (j <? s0 + k))%nat%bool
  then Q (i - s0)%nat (j - s0)%nat else 0.

(** stochastic cloning with an extra dependence d on variable index did *)
Definition aug_J (n loc did : nat) (d : vec) : mat := fun i j =>
  if (i <? n)%nat then mid i j
  else mid (loc + (i - n))%nat j + d (i - n)%nat * mid did j.

(** all sub-objects of an object *)
Definition sub_objs (t : ty) : list ty :=
  match t with
  | TVec _ | TV3 _ | TQuat _ => []
  | TPose p => [TQuat (po_q p); TV3 (po_p p)]
  | TImu i => [TPose (io_pose i); TQuat (po_q (io_pose i)); TV3 (po_p (io_pose i));
               TV3 (io_v i); TV3 (io_bg i); TV3 (io_ba i)]
  end.
(** [t] is a variable of the state or a sub-variable of one *)
Definition in_state (st : state) (t : ty) : Prop :=
  exists top, In top (s_vars st) /\ In t (top :: sub_objs top).

(** same object up to its location in the covariance *)
Definition same_obj (t t' : ty) : Prop :=
  ty_ptrs t' = ty_ptrs t /\ ty_size t' = ty_size t /\ value_of t' = value_of t /\ fej_of t' = fej_of t.

(** [st'] is [st] with some variables removed: every covariance entry of [st'] is an entry of
    [st] at the index given by [f], and every variable of [st'] is a variable of [st] whose block
    is carried by [f]. *)
Definition projects (f : nat -> nat) (st st' : state) : Prop :=
  (forall i, (i < s_dim st')%nat -> (f i < s_dim st)%nat) /\
  (forall i j, (i < s_dim st')%nat -> (j < s_dim st')%nat -> s_cov st' i j = s_cov st (f i) (f j)) /\
  (forall t', In t' (s_vars st') -> exists t i i', In t (s_vars st) /\ same_obj t t' /\
     ty_id t = Some i /\ ty_id t' = Some i' /\
     seq i (ty_size t) = map f (seq i' (ty_size t'))).

(** time derivative of a pose moving with angular velocity w and velocity v: (w, v) *)
Definition pose_rate (w v : v3) : vec := fun k =>
  nth k [vx w; vy w; vz w; vx v; vy v; vz v] 0.

(** joint law of (x, f) for f = -T x + N n, added below an n-dimensional state: rows [0,n) keep x *)
Definition join_T (n : nat) (T : mat) : mat := fun i j =>
  if (i <? n)%nat then mid i j else - T (i - n)%nat j.
Definition join_N (n : nat) (N : mat) : mat := fun i j =>
  if (i <? n)%nat then 0 else N (i - n)%nat j.

(** a variable object that may be added to the state *)
Record fresh_var (st : state) (nv : ty) : Prop := mkFresh
  { fr_vals : vals_ok nv; fr_unit : ori_unit nv; fr_nodup : NoDup (ty_ptrs nv);
    fr_new : forall q, In q (ty_ptrs nv) -> ~ In q (flat_map ty_ptrs (s_vars st));
    fr_alloc : forall q, In q (ty_ptrs nv) -> (q < s_next st)%nat }.

(** What the constructed state must contain: pointer and prior standard deviation of every degree
    of freedom of each enabled variable, in order. *)
Definition expected (o : opts) : list (nat * list R) :=
  [(ptr_imu, repeat (1 / 1000) 15)] ++
  (if o_calib_imu o then
     [(ptr_dw, repeat (5 / 1000) 6); (ptr_da, repeat (8 / 1000) 6)] ++
     (if o_calib_gsens o then [(ptr_tg, repeat (5 / 1000) 9)] else []) ++
     (if o_kalibr o then [(ptr_gyro, repeat (5 / 1000) 3)] else [(ptr_acc, repeat (5 / 1000) 3)])
   else []) ++
  (if o_calib_dt o then [(ptr_dt, [1 / 100])] else []) ++
  flat_map (fun i =>
    (if o_calib_pose o then [(ptr_pose i, repeat (5 / 1000) 3 ++ repeat (15 / 1000) 3)] else []) ++
    (if o_calib_intr o then [(ptr_intr i, repeat 1 4 ++ repeat (5 / 1000) 4)] else []))
    (seq 0 (o_ncams o)).

(** two neighbours of an order whose blocks do not follow each other (an id of -1 stands for
    "not in the covariance") *)
Definition gap (l : list vref) : Prop :=
  exists l1 a b l2, l = l1 ++ a :: b :: l2 /\
    (match fst a with Some i => Z.of_nat i | None => -1 end + Z.of_nat (snd a) <> match fst b with Some i => Z.of_nat i | None => -1 end)%Z.
