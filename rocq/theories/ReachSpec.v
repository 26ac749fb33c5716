(** Reachable filter states: what a caller must respect and what always holds. *)
From Coq Require Import Reals List Arith ZArith Bool.
From Verif Require Import RBool Outcome Lin GeoModel GeoSpec TypesModel GivensModel GivensSpec StateModel StateSpec
  ReachModel.
Import ListNotations.
Open Scope R_scope.

(** all covariance entries between the listed indices and the others are zero *)
Definition uncorrelated (n : nat) (C : mat) (idx : list nat) : Prop :=
  forall i j, In i idx -> (j < n)%nat -> ~ In j idx -> C i j = 0.

(** first pointer that does not belong to an object created by the constructor of State *)
Definition base_top (o : opts) : nat := (13 + 4 * o_ncams o)%nat.

(** Preconditions of the calls: dimensions fit, noise matrices are positive (semi-)definite,
    objects are the caller's own, clone times are not duplicated. *)
Definition allowed (st : state) (o : op) : Prop :=
  match o with
  | OClone p => In p (flat_map ty_ptrs (s_vars st))
  | OMarg p => (exists t, In t (s_vars st) /\ ty_ptr t = p) /\ (base_top (s_opts st) <= p)%nat /\
               ~ In p (map snd (s_clones st)) /\ ~ In p (map (fun e => fst (snd e)) (s_slam st))
  | OAugment _ => ~ In (s_time st) (map fst (s_clones st))
  | OMargOld => (0 <= o_max_clones (s_opts st))%Z
  | OMargSlam => True
  | OProp NEW OLD Phi Q =>
      NEW <> [] /\ OLD <> [] /\ contiguous NEW = true /\ in_cov (s_dim st) NEW /\ in_cov (s_dim st) OLD /\
      dr Phi = length (indices NEW) /\ dc Phi = length (indices OLD) /\ dr Q = dr Phi /\ dc Q = dr Phi /\
      psd (dr Q) (upper_sym (dm Q))
  | OUpd order H res Rn =>
      in_cov (s_dim st) order /\ dc H = length (indices order) /\ dr H = dn res /\ dr Rn = dn res /\
      dc Rn = dn res /\ sym (dn res) (dm Rn) /\ pd (dn res) (dm Rn)
  | OInit nv order HR HL Rn res _ =>
      in_cov (s_dim st) order /\ fresh_var st nv /\ dc HL = ty_size nv /\ (ty_size nv <= dr HL)%nat /\
      dr HR = dr HL /\ dn res = dr HL /\ dr Rn = dr HL /\ dc Rn = dr HL /\ dc HR = length (indices order) /\
      isotropic Rn = true /\ 0 < dm Rn 0%nat 0%nat /\ full_col_rank (dr HL) (ty_size nv) (dm HL) /\
      (base_top (s_opts st) <= ty_ptr nv)%nat
  | OSetCov P order =>
      in_cov (s_dim st) order /\ NoDup (indices order) /\
      (length (indices order) <= dr P)%nat /\ (length (indices order) <= dc P)%nat /\
      spsd (length (indices order)) (dm P) /\ uncorrelated (s_dim st) (s_cov st) (indices order)
  | OAlloc _ => True
  | OSlamAdd id p => ~ In id (map fst (s_slam st)) /\ ~ In p (map (fun e => fst (snd e)) (s_slam st)) /\
      (base_top (s_opts st) <= p)%nat /\ exists v, In (TVec v) (s_vars st) /\ vo_ptr v = p
  | OSlamMark _ => True
  | OTime _ => True
  | OSetVec p x y => exists v, In (TVec v) (s_vars st) /\ vo_ptr v = p /\ length x = vo_size v /\ length y = vo_size v
  | OSetQuat p x _ => (exists q, In (TQuat q) (s_vars st) /\ qo_ptr q = p) /\ unit_q x
  | OSetPose p x _ => (exists q, In (TPose q) (s_vars st) /\ po_ptr q = p) /\ unit_q (pv_q x)
  | OSetImu x _ => unit_q (iv_q x)
  end.

(** states reached from construction by respected calls *)
Inductive reach (chi2q : nat -> R) : state -> Prop :=
| reach_new o cams st : (forall i, (i < o_ncams o)%nat -> In i (map fst cams)) ->
    new_state o cams = Ok st -> reach chi2q st
| reach_step st op st' : reach chi2q st -> allowed st op -> exec chi2q st op = Ok st' -> reach chi2q st'.

(** which class an object has *)
Definition same_class (t t' : ty) : Prop :=
  match t, t' with
  | TVec _, TVec _ | TV3 _, TV3 _ | TQuat _, TQuat _ | TPose _, TPose _ | TImu _, TImu _ => True
  | _, _ => False
  end.

(** The bookkeeping maps of the state refer to live variables. *)
Record maps_ok (st : state) : Prop := mkMaps
  { mp_imu : s_imu st = ptr_imu; mp_dt : s_dt st = ptr_dt;
    mp_cintr : s_cintr st = map (fun i => (i, ptr_intr i)) (seq 0 (o_ncams (s_opts st)));
    mp_cams : forall i, (i < o_ncams (s_opts st))%nat -> In i (map fst (s_cams st));
    mp_next : (base_top (s_opts st) <= s_next st)%nat;
    (* the variables of the constructor stay at the front, at their original place *)
    mp_base : exists l rest, s_vars st = l ++ rest /\
      Forall2 (fun t0 t => ty_ptrs t = ty_ptrs t0 /\ ty_id t = ty_id t0 /\ ty_size t = ty_size t0 /\ same_class t0 t)
        (fst (build_vars (s_opts st))) l;
    mp_times : NoDup (map fst (s_clones st));
    mp_cptrs : NoDup (map snd (s_clones st));
    mp_clones : forall t p, In (t, p) (s_clones st) -> (base_top (s_opts st) <= p)%nat /\
      exists q, In (TPose q) (s_vars st) /\ po_ptr q = p;
    mp_sids : NoDup (map fst (s_slam st));
    mp_sptrs : NoDup (map (fun e => fst (snd e)) (s_slam st));
    mp_slam : forall i p b, In (i, (p, b)) (s_slam st) -> (base_top (s_opts st) <= p)%nat /\
      exists v, In (TVec v) (s_vars st) /\ vo_ptr v = p }.

(** ** Camera frames *)

(** size of the block propagated with the IMU: 15, then Dw, Da, Tg and one rotation when estimated *)
Definition prop_dim (o : opts) : nat :=
  (15 + (if o_calib_imu o then 6 + 6 + (if o_calib_gsens o then 9 else 0) + 3 else 0))%nat.
Record prop_ok (o : opts) (i : prop_in) : Prop := mkPropOk
  { pk_unit : unit_q (iv_q (pi_x i));
    pk_phi : dr (pi_Phi i) = prop_dim o /\ dc (pi_Phi i) = prop_dim o;
    pk_q : dr (pi_Q i) = prop_dim o /\ dc (pi_Q i) = prop_dim o;
    pk_psd : psd (prop_dim o) (upper_sym (dm (pi_Q i))) }.

(** the operations between propagation and marginalization neither clone the IMU pose, nor drop a
    clone, nor move the clock, and respect their preconditions *)
Definition keeps_window (o : op) : Prop :=
  match o with OAugment _ | OMargOld | OTime _ => False | _ => True end.
Fixpoint respects (chi2q : nat -> R) (l : list (state -> op)) (st : state) : Prop :=
  match l with
  | [] => True
  | f :: l' => allowed st (f st) /\ keeps_window (f st) /\
      forall st', exec chi2q st (f st) = Ok st' -> respects chi2q l' st'
  end.
(** what the estimator does in a frame with time [t], for a filter in state [st] *)
Definition frame_ok (chi2q : nat -> R) (st : state) (t : R) (i : prop_in) (mid : list (state -> op)) : Prop :=
  prop_ok (s_opts st) i /\
  forall st1, reach chi2q st1 -> s_opts st1 = s_opts st -> s_time st1 = t -> respects chi2q mid st1.

(** filter states: any reachable state without clones (after initialization) with a window of at
    least one clone, then camera frames *)
Inductive filter_state (chi2q : nat -> R) : state -> Prop :=
| fs_start st : reach chi2q st -> s_clones st = [] -> (1 <= o_max_clones (s_opts st))%Z -> filter_state chi2q st
| fs_frame st t i mid st' : filter_state chi2q st -> frame_ok chi2q st t i mid ->
    do_feature_propagate_update chi2q st t i mid = Ok st' -> filter_state chi2q st'.

(** strictly increasing *)
Fixpoint increasing (l : list R) : Prop :=
  match l with
  | a :: ((b :: _) as l') => a < b /\ increasing l'
  | _ => True
  end.

(** state-management calls with arbitrary arguments; a new variable must be the caller's own *)
Definition manages (st : state) (o : op) : Prop :=
  match o with
  | OClone _ | OMarg _ | OAugment _ | OMargOld | OMargSlam | OProp _ _ _ _ | OUpd _ _ _ _ | OSetCov _ _
  | OAlloc _ | OSlamAdd _ _ | OSlamMark _ | OTime _ => True
  | OInit nv _ _ _ _ _ _ => fresh_var st nv
  | OSetVec _ _ _ | OSetQuat _ _ _ | OSetPose _ _ _ | OSetImu _ _ => False
  end.
