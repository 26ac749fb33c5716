(** Model of the filter state and StateHelper: ov_msckf/src/state/State.cpp, State.h and
    StateHelper.cpp.

    Simplifications common to the file: doubles are exact reals; Eigen block operations have
    their mathematical meaning and out-of-range blocks / failed asserts are [UB];
    [std::exit] is [Exit]; mutexes are not modelled (single thread).  A variable passed in an
    order list only matters through its id and size, so an order is a list of such pairs.
    Objects that are not estimated (e.g. calibration parameters when calibration is off) are
    not part of the modelled state. *)
From Coq Require Import Reals List Arith ZArith Bool.
From Verif Require Import RBool Outcome Lin GeoModel TypesModel GivensModel.
Import ListNotations.
Open Scope R_scope.

(** StateOptions.h 32-90: the options used by State and StateHelper. *)
Record opts := mkOpts
  { o_calib_imu : bool; o_calib_gsens : bool; o_kalibr : bool; o_calib_dt : bool;
    o_calib_pose : bool; o_calib_intr : bool; o_ncams : nat;
    o_max_clones : Z; o_max_aruco : Z }.

(** State.h 140-200.  [s_vars] is _variables, [s_dim]/[s_cov] is _Cov, [s_next] the next unused
    pointer, [s_imu]/[s_dt] the pointers _imu and _calib_dt_CAMtoIMU, [s_clones] is _clones_IMU
    (time, pointer), [s_slam] is _features_SLAM (feature id, pointer, should_marg), [s_cintr] is
    _cam_intrinsics (camera id, pointer), [s_cams] the values held by _cam_intrinsics_cameras.
    The maps are association lists; insertion appends. *)
Record state := mkState
  { s_opts : opts; s_vars : list ty; s_dim : nat; s_cov : mat; s_next : nat; s_time : R;
    s_imu : nat; s_dt : nat;
    s_clones : list (R * nat); s_slam : list (nat * (nat * bool));
    s_cintr : list (nat * nat); s_cams : list (nat * list R) }.

(** assignment to members of State.h 141-192, no code of its own *)
Definition set_vars_cov (st : state) (vars : list ty) (n : nat) (C : mat) : state :=
  mkState (s_opts st) vars n C (s_next st) (s_time st) (s_imu st) (s_dt st)
    (s_clones st) (s_slam st) (s_cintr st) (s_cams st).
(** assignment to members of State.h 141-192, no code of its own *)
Definition set_next (st : state) (k : nat) : state :=
  mkState (s_opts st) (s_vars st) (s_dim st) (s_cov st) k (s_time st) (s_imu st) (s_dt st)
    (s_clones st) (s_slam st) (s_cintr st) (s_cams st).
(** assignment to members of State.h 141-192, no code of its own *)
Definition set_clones (st : state) (c : list (R * nat)) : state :=
  mkState (s_opts st) (s_vars st) (s_dim st) (s_cov st) (s_next st) (s_time st) (s_imu st) (s_dt st)
    c (s_slam st) (s_cintr st) (s_cams st).
(** assignment to members of State.h 141-192, no code of its own *)
Definition set_slam (st : state) (l : list (nat * (nat * bool))) : state :=
  mkState (s_opts st) (s_vars st) (s_dim st) (s_cov st) (s_next st) (s_time st) (s_imu st) (s_dt st)
    (s_clones st) l (s_cintr st) (s_cams st).
(** assignment to members of State.h 141-192, no code of its own *)
Definition set_cams (st : state) (l : list (nat * list R)) : state :=
  mkState (s_opts st) (s_vars st) (s_dim st) (s_cov st) (s_next st) (s_time st) (s_imu st) (s_dt st)
    (s_clones st) (s_slam st) (s_cintr st) l.
(** [state->_timestamp = t] (Propagator.cpp 122, VioManagerHelper.cpp 62, ...) *)
Definition set_time (st : state) (t : R) : state :=
  mkState (s_opts st) (s_vars st) (s_dim st) (s_cov st) (s_next st) t (s_imu st) (s_dt st)
    (s_clones st) (s_slam st) (s_cintr st) (s_cams st).

(** [M.block(r0, c0, nr, nc) = B] [used throughout StateHelper.cpp 36-645] *)
Definition set_block (M : mat) (r0 c0 nr nc : nat) (B : mat) : mat := fun i j =>
  if ((r0 <=? i) && (i <? r0 + nr) && (c0 <=? j) && (j <? c0 + nc))%nat%bool
  then B (i - r0)%nat (j - c0)%nat else M i j.

(** an element of an order list: id() and size() of the variable [Type.h 57-67] *)
Definition vref := (oid * nat)%type.
(** Type.h 57-67 *)
Definition ref_of (t : ty) : vref := (ty_id t, ty_size t).

(** Ids of an order list as covariance offsets; a block outside the covariance is an Eigen
    assertion failure. [used throughout StateHelper.cpp 36-645] *)
Fixpoint resolve (n : nat) (l : list vref) : outcome (list (nat * nat)) :=
  match l with
  | [] => Ok []
  | (Some i, sz) :: l' =>
      guard (i + sz <=? n)%nat UB (do r <- resolve n l'; Ok ((i, sz) :: r))
  | (None, _) :: _ => UB
  end.

(** sum of the sizes of an order list, StateHelper.cpp 36-110 *)
Definition osize (l : list (nat * nat)) : nat := fold_right (fun p a => (snd p + a)%nat) 0%nat l.

(** negative diagonal check: StateHelper.cpp 103-113, 172-182 *)
Definition has_neg_diag (n : nat) (C : mat) : bool :=
  existsb (fun i => Rltb (C i i) 0) (seq 0 n).

(** ** Covariance queries *)

(** Inner / outer loop of get_marginal_covariance, StateHelper.cpp 240-249. *)
Fixpoint marg_inner (C : mat) (i_id i_sz i_index : nat) (l : list (nat * nat)) (k_index : nat)
  (acc : mat) : mat :=
  match l with
  | [] => acc
  | (k_id, k_sz) :: l' =>
      marg_inner C i_id i_sz i_index l' (k_index + k_sz)
        (set_block acc i_index k_index i_sz k_sz (fun a b => C (i_id + a)%nat (k_id + b)%nat))
  end.
(** StateHelper.cpp 240-249 (as above) *)
Fixpoint marg_outer (C : mat) (all l : list (nat * nat)) (i_index : nat) (acc : mat) : mat :=
  match l with
  | [] => acc
  | (i_id, i_sz) :: l' =>
      marg_outer C all l' (i_index + i_sz) (marg_inner C i_id i_sz i_index all 0 acc)
  end.
(** StateHelper.cpp 240-249 (as above) *)
Definition marginal_block (C : mat) (l : list (nat * nat)) : mat := marg_outer C l l 0 mzero.

(** StateHelper.cpp 226-254 *)
Definition get_marginal_covariance (st : state) (order : list vref) : outcome dmat :=
  do l <- resolve (s_dim st) order;
  Ok (DMat (osize l) (osize l) (marginal_block (s_cov st) l)).

(** StateHelper.cpp 256-269 *)
Definition get_full_covariance (st : state) : dmat :=
  DMat (s_dim st) (s_dim st) (set_block mzero 0 0 (s_dim st) (s_dim st) (s_cov st)).

(** StateHelper.cpp 199-224: copies the given covariance into the blocks of [order], then
    mirrors the upper triangle. *)
Fixpoint init_inner (P : mat) (i_id i_sz i_index : nat) (l : list (nat * nat)) (k_index : nat)
  (acc : mat) : mat :=
  match l with
  | [] => acc
  | (k_id, k_sz) :: l' =>
      init_inner P i_id i_sz i_index l' (k_index + k_sz)
        (set_block acc i_id k_id i_sz k_sz (fun a b => P (i_index + a)%nat (k_index + b)%nat))
  end.
(** StateHelper.cpp 199-224 (as above) *)
Fixpoint init_outer (P : mat) (all l : list (nat * nat)) (i_index : nat) (acc : mat) : mat :=
  match l with
  | [] => acc
  | (i_id, i_sz) :: l' =>
      init_outer P all l' (i_index + i_sz) (init_inner P i_id i_sz i_index all 0 acc)
  end.
(** StateHelper.cpp 199-224 (as above) *)
Definition set_initial_covariance (st : state) (P : dmat) (order : list vref) : outcome state :=
  do l <- resolve (s_dim st) order;
  guard ((osize l <=? dr P) && (osize l <=? dc P))%nat%bool UB
    (Ok (set_vars_cov st (s_vars st) (s_dim st)
           (upper_sym (init_outer (dm P) l l 0 (s_cov st))))).

(** ** Marginalization *)

(** StateHelper.cpp 271-390: the top-level variable with a pointer *)
Definition find_top (vars : list ty) (p : nat) : option ty :=
  find (fun t => Nat.eqb (ty_ptr t) p) vars.

(** [id() > marg_id ? set_local_id(id() - marg_size)]: StateHelper.cpp 323-326.  Ids of -1 are
    never greater than marg_id. *)
Definition shift_id (mid msz : nat) (t : ty) : ty :=
  match ty_id t with
  | Some i => if (mid <? i)%nat then set_local_id t (Some (i - msz)%nat) else t
  | None => t
  end.

(** The four block copies, StateHelper.cpp 297-309 (the uninitialised matrix starts as zero; all
    entries are overwritten). *)
Definition marg_cov (C : mat) (mid msz x2 : nat) : mat :=
  let C1 := set_block mzero 0 0 mid mid C in
  let C2 := set_block C1 0 mid mid x2 (fun i j => C i (mid + msz + j)%nat) in
  let C3 := set_block C2 mid 0 x2 mid (fun i j => C2 j (mid + i)%nat) in
  set_block C3 mid mid x2 x2 (fun i j => C (mid + msz + i)%nat (mid + msz + j)%nat).

(** StateHelper.cpp 271-339.  Returns the new state and the marginalized object (id -1). *)
Definition marginalize (st : state) (p : nat) : outcome (state * ty) :=
  match find_top (s_vars st) p with
  | None => Exit
  | Some marg =>
      match ty_id marg with
      | None => UB
      | Some mid =>
          let msz := ty_size marg in
          guard (mid + msz <=? s_dim st)%nat UB
            (let x2 := (s_dim st - mid - msz)%nat in
             let vars := map (shift_id mid msz)
                           (filter (fun t => negb (Nat.eqb (ty_ptr t) p)) (s_vars st)) in
             Ok (set_vars_cov st vars (s_dim st - msz) (marg_cov (s_cov st) mid msz x2),
                 set_local_id marg None))
      end
  end.

(** ** Cloning *)

(** The search loop StateHelper.cpp 356-365: first variable that is, or contains, the pointer. *)
Fixpoint find_var (vars : list ty) (p : nat) : option ty :=
  match vars with
  | [] => None
  | t :: vars' =>
      if Nat.eqb (ty_ptr t) p then Some t
      else match check_if_subvariable t p with
           | Some s => Some s
           | None => find_var vars' p
           end
  end.

(** conservativeResizeLike(Zero) and the three block copies: StateHelper.cpp 349, 371-373 *)
Definition clone_cov (C : mat) (old_size old_loc sz : nat) : mat :=
  let C0 := set_block mzero 0 0 old_size old_size C in
  let C1 := set_block C0 old_size old_size sz sz (fun i j => C0 (old_loc + i)%nat (old_loc + j)%nat) in
  let C2 := set_block C1 0 old_size old_size sz (fun i j => C1 i (old_loc + j)%nat) in
  set_block C2 old_size 0 sz old_size (fun i j => C2 (old_loc + i)%nat j).

(** StateHelper.cpp 341-391.  Returns the new state and the appended clone. *)
Definition clone (st : state) (p : nat) : outcome (state * ty) :=
  match find_var (s_vars st) p with
  | None => Exit
  | Some t =>
      match ty_id t with
      | None => UB
      | Some old_loc =>
          let sz := ty_size t in
          guard (old_loc + sz <=? s_dim st)%nat UB
            (do c <- ty_clone (s_next st) t;
             let c' := set_local_id c (Some (s_dim st)) in
             Ok (set_next (set_vars_cov st (s_vars st ++ [c']) (s_dim st + sz)
                             (clone_cov (s_cov st) (s_dim st) old_loc sz))
                          (s_next st + ty_alloc t), c'))
      end
  end.

(** ** Clones of the IMU pose *)

(** State.h 150: search by key of _clones_IMU *)
Definition find_clone_time (l : list (R * nat)) (t : R) : option nat :=
  option_map snd (find (fun e => Reqb (fst e) t) l).

(** The two += of StateHelper.cpp 611-614, in order. *)
Definition dt_cov (C : mat) (n pid did : nat) (d : vec) : mat :=
  let C1 : mat := fun i j =>
    if ((i <? n) && (pid <=? j) && (j <? pid + 6))%nat%bool
    then C i j + C i did * d (j - pid)%nat else C i j in
  fun i j =>
    if ((j <? n) && (pid <=? i) && (i <? pid + 6))%nat%bool
    then C1 i j + d (i - pid)%nat * C1 did j else C1 i j.

(** dnc_dt of StateHelper.cpp 606-608 *)
Definition dnc (w v : v3) : vec := fun k =>
  match k with
  | 0%nat => vx w | 1%nat => vy w | 2%nat => vz w
  | 3%nat => vx v | 4%nat => vy v | 5%nat => vz v
  | _ => 0
  end.

(** StateHelper.cpp 579-616.  [_imu] is looked up by pointer; a dt that is not in the state has
    id -1, so its block is out of range. *)
Definition augment_clone (st : state) (last_w : v3) : outcome state :=
  match find_clone_time (s_clones st) (s_time st) with
  | Some _ => Exit
  | None =>
      match find_top (s_vars st) (s_imu st) with
      | Some (TImu imu) =>
          do r <- clone st (po_ptr (io_pose imu));
          let '(st1, c) := r in
          match c with
          | TPose pose =>
              let st2 := set_clones st1 (s_clones st1 ++ [(s_time st, po_ptr pose)]) in
              if o_calib_dt (s_opts st) then
                match po_id pose, find_top (s_vars st2) (s_dt st) with
                | Some pid, Some dtv =>
                    match ty_id dtv with
                    | Some did =>
                        guard ((pid + 6 <=? s_dim st2) && (did <? s_dim st2))%nat%bool UB
                          (Ok (set_vars_cov st2 (s_vars st2) (s_dim st2)
                                 (dt_cov (s_cov st2) (s_dim st2) pid did
                                    (dnc last_w (wo_val (io_v imu))))))
                    | None => UB
                    end
                | _, _ => UB
                end
              else Ok st2
          | _ => Exit
          end
      | _ => UB
      end
  end.

(** State.h 66-75: smallest clone time; [None] is INFINITY. *)
Definition margtimestep (st : state) : option R :=
  fold_left (fun acc e => match acc with
                          | None => Some (fst e)
                          | Some t => if Rltb (fst e) t then Some (fst e) else acc
                          end) (s_clones st) None.

(** StateHelper.cpp 618-629 *)
Definition marginalize_old_clone (st : state) : outcome state :=
  if (o_max_clones (s_opts st) <? Z.of_nat (length (s_clones st)))%Z then
    match margtimestep st with
    | None => UB
    | Some t =>
        match find_clone_time (s_clones st) t with
        | None => Exit
        | Some p =>
            do r <- marginalize st p;
            Ok (set_clones (fst r) (filter (fun e => negb (Reqb (fst e) t)) (s_clones (fst r))))
        end
    end
  else Ok st.

(** StateHelper.cpp 631-645: one pass over the landmark map. *)
Definition slam_kill (o : opts) (e : nat * (nat * bool)) : bool :=
  (snd (snd e) && (4 * o_max_aruco o <? Z.of_nat (fst e))%Z)%bool.
(** StateHelper.cpp 631-645 (as above) *)
Fixpoint marg_slam_loop (st : state) (todo kept : list (nat * (nat * bool))) : outcome state :=
  match todo with
  | [] => Ok (set_slam st kept)
  | e :: todo' =>
      if slam_kill (s_opts st) e then
        do r <- marginalize st (fst (snd e)); marg_slam_loop (fst r) todo' kept
      else marg_slam_loop st todo' (kept ++ [e])
  end.
(** StateHelper.cpp 631-645 (as above) *)
Definition marginalize_slam (st : state) : outcome state := marg_slam_loop st (s_slam st) [].

(** ** EKF propagation *)

(** id of a variable that has one (assert of StateHelper.cpp 40-60) *)
Definition oz (k : oid) : Z := match k with Some i => Z.of_nat i | None => (-1)%Z end.
(** StateHelper.cpp 48-56 *)
Fixpoint contiguous (l : list vref) : bool :=
  match l with
  | (i, sz) :: (((j, _) :: _) as l') => ((oz i + Z.of_nat sz =? oz j)%Z && contiguous l')%bool
  | _ => true
  end.

(** Accumulation of P*H^T over the variables of an order: StateHelper.cpp 80-85 (Cov_PhiT),
    139-144 (M_i) and 534-539. *)
Fixpoint cov_HT (C H : mat) (l : list (nat * nat)) (off : nat) (acc : mat) : mat :=
  match l with
  | [] => acc
  | (id, sz) :: l' =>
      cov_HT C H l' (off + sz)
        (madd acc (fun i r => sumn sz (fun k => C i (id + k)%nat * H r (off + k)%nat)))
  end.
(** Accumulation of Phi * Cov_PhiT: StateHelper.cpp 88-92 *)
Fixpoint phi_cov (Phi CP : mat) (l : list (nat * nat)) (off : nat) (acc : mat) : mat :=
  match l with
  | [] => acc
  | (id, sz) :: l' =>
      phi_cov Phi CP l' (off + sz)
        (madd acc (fun r c => sumn sz (fun k => Phi r (off + k)%nat * CP (id + k)%nat c)))
  end.

(** StateHelper.cpp 36-114 *)
Definition EKFPropagation (st : state) (order_NEW order_OLD : list vref) (Phi Q : dmat)
  : outcome state :=
  match order_NEW, order_OLD with
  | (start, _) :: _, _ :: _ =>
      guard (contiguous order_NEW) Exit
        (do lnew <- resolve (s_dim st) order_NEW;
         do lold <- resolve (s_dim st) order_OLD;
         guard ((osize lnew =? dr Phi) && (osize lold =? dc Phi) &&
                (osize lnew =? dc Q) && (osize lnew =? dr Q))%nat%bool UB
           match start with
           | None => UB
           | Some s0 =>
               let n := s_dim st in
               let k := dr Phi in
               guard (s0 + k <=? n)%nat UB
                 (let CP := cov_HT (s_cov st) (dm Phi) lold 0 mzero in
                  let PCP := phi_cov (dm Phi) CP lold 0 (upper_sym (dm Q)) in
                  let C1 := set_block (s_cov st) s0 0 k n (mtr CP) in
                  let C2 := set_block C1 0 s0 n k CP in
                  let C3 := set_block C2 s0 s0 k k PCP in
                  guard (negb (has_neg_diag n C3)) Exit
                    (Ok (set_vars_cov st (s_vars st) n C3)))
           end)
  | _, _ => Exit
  end.

(** ** EKF update *)

(** Exact inverse of a symmetric positive definite matrix by bordering: the mathematical meaning
    of [S.selfadjointView<Upper>().llt().solveInPlace(I)] (Eigen, external).  On matrices that
    are not positive definite the C++ result is garbage/NaN; the theorems exclude that case. [StateHelper.cpp 160-161] *)
Fixpoint pdinv (n : nat) (A : mat) : mat :=
  match n with
  | O => mzero
  | S k =>
      let B := pdinv k A in
      let b : vec := fun i => A i k in
      let y := mvec k B b in
      let s := A k k - dot k b y in
      fun i j =>
        if (i <? k)%nat then
          if (j <? k)%nat then B i j + y i * y j / s else - (y i / s)
        else if (j <? k)%nat then - (y j / s) else / s
  end.

(** H * P_small * H^T + R: StateHelper.cpp 154-156 (upper part), 462, 549-551 *)
Definition innov (m k : nat) (H P Rn : mat) : mat :=
  madd (mmul k (mmul k H P) (mtr H)) Rn.

(** M_a: StateHelper.cpp 124-146 / 519-541; one block of rows per state variable. *)
Fixpoint gain_M (C H : mat) (l : list (nat * nat)) (m : nat) (vars : list ty) (acc : mat)
  : outcome mat :=
  match vars with
  | [] => Ok acc
  | t :: vars' =>
      match ty_id t with
      | None => UB
      | Some id =>
          gain_M C H l m vars'
            (set_block acc id 0 (ty_size t) m (fun i r => cov_HT C H l 0 mzero (id + i)%nat r))
      end
  end.

(** StateHelper.cpp 186-188 *)
Fixpoint update_vars (dx : vec) (vars : list ty) : outcome (list ty) :=
  match vars with
  | [] => Ok []
  | t :: vars' =>
      match ty_id t with
      | None => UB
      | Some id =>
          do t' <- ty_update t (map dx (seq id (ty_size t)));
          do r <- update_vars dx vars';
          Ok (t' :: r)
      end
  end.

(** std::map::operator[] on _clones_IMU and _cam_intrinsics_cameras *)
Fixpoint assoc_set {A} (l : list (nat * A)) (k : nat) (v : A) : option (list (nat * A)) :=
  match l with
  | [] => None
  | (k', v') :: l' =>
      if Nat.eqb k k' then Some ((k', v) :: l')
      else option_map (cons (k', v')) (assoc_set l' k v)
  end.

(** StateHelper.cpp 192-196; [.at] on a missing camera throws (terminates). *)
Fixpoint refresh_cams (vars : list ty) (cintr : list (nat * nat)) (cams : list (nat * list R))
  : outcome (list (nat * list R)) :=
  match cintr with
  | [] => Ok cams
  | (cam, p) :: l' =>
      match find_top vars p with
      | Some (TVec v) =>
          match assoc_set cams cam (vo_val v) with
          | Some cams' => refresh_cams vars l' cams'
          | None => Exit
          end
      | _ => UB
      end
  end.

(** StateHelper.cpp 116-197 *)
Definition EKFUpdate (st : state) (order : list vref) (H : dmat) (res : dvec) (Rn : dmat)
  : outcome state :=
  do l <- resolve (s_dim st) order;
  guard ((dn res =? dr Rn) && (dr H =? dn res) && (dr Rn =? dc Rn) && (osize l =? dc H))%nat%bool UB
    (let n := s_dim st in
     let m := dn res in
     do Ma <- gain_M (s_cov st) (dm H) l m (s_vars st) mzero;
     do Ps <- get_marginal_covariance st order;
     let S := upper_sym (innov m (dc H) (dm H) (dm Ps) (dm Rn)) in
     let K := mmul m Ma (upper_sym (pdinv m S)) in
     let C := upper_sym (msub (s_cov st) (mmul m K (mtr Ma))) in
     guard (negb (has_neg_diag n C)) Exit
       (do vars <- update_vars (mvec m K (dv res)) (s_vars st);
        do cams <- (if o_calib_intr (s_opts st) then refresh_cams vars (s_cintr st) (s_cams st)
                    else Ok (s_cams st));
        Ok (set_cams (set_vars_cov st vars n C) cams))).

(** ** Delayed initialization *)

(** StateHelper.cpp 406-420 / 497-511: all diagonal entries equal R(0,0), others zero. *)
Definition isotropic (Rn : dmat) : bool :=
  forallb (fun r => forallb (fun c =>
     if Nat.eqb r c then Reqb (dm Rn 0%nat 0%nat) (dm Rn r c) else Reqb (dm Rn r c) 0)
     (seq 0 (dc Rn))) (seq 0 (dr Rn)).

(** Eigen's [inverse()] (LU), as the exact inverse: (A^T A)^-1 A^T, which is the inverse for
    every invertible A; the theorems exclude singular A. [StateHelper.cpp 556] *)
Definition geninv (n : nat) (A : mat) : mat :=
  mmul n (pdinv n (mmul n (mtr A) A)) (mtr A).

(** StateHelper.cpp 484-577 *)
Definition initialize_invertible (st : state) (nv : ty) (order : list vref) (HR HL Rn : dmat)
  (res : dvec) : outcome state :=
  match find_top (s_vars st) (ty_ptr nv) with
  | Some _ => Exit
  | None =>
      guard ((dr Rn =? dc Rn) && (0 <? dr Rn))%nat%bool UB
      (guard (isotropic Rn) Exit
      (guard ((dn res =? dr Rn) && (dr HL =? dn res) && (dr HL =? dr HR))%nat%bool UB
      (do l <- resolve (s_dim st) order;
       guard (osize l =? dc HR)%nat UB
       (let m := dn res in
        do Ma <- gain_M (s_cov st) (dm HR) l m (s_vars st) mzero;
        do Ps <- get_marginal_covariance st order;
        let M := upper_sym (innov m (dc HR) (dm HR) (dm Ps) (dm Rn)) in
        guard ((dr HL =? dc HL) && (dr HL =? ty_size nv))%nat%bool UB
        (let Hinv := geninv m (dm HL) in
         let PLL := mmul m (mmul m Hinv M) (mtr Hinv) in
         let n := s_dim st in
         let sz := ty_size nv in
         let C0 := set_block mzero 0 0 n n (s_cov st) in
         let C1 := set_block C0 0 n n sz (mmul m (fun i j => - Ma i j) (mtr Hinv)) in
         let C2 := set_block C1 n 0 sz n (fun i j => C1 j (n + i)%nat) in
         let C3 := set_block C2 n n sz sz PLL in
         do nv' <- ty_update nv (map (mvec m Hinv (dv res)) (seq 0 m));
         Ok (set_vars_cov st (s_vars st ++ [set_local_id nv' (Some n)]) (n + sz) C3))))))
  end.

(** StateHelper.cpp 430-441: one inner iteration on (H_L, H_R, res). *)
Definition init_step (s : mat * mat * vec) (nm : nat * nat) : mat * mat * vec :=
  let '(HL, HR, res) := s in
  let '(n, m) := nm in
  let g := make_givens (HL (m - 1)%nat n) (HL m n) in
  (rot_rows g (m - 1) m n HL, rot_rows g (m - 1) m 0 HR, rot_vec g (m - 1) m res).

(** StateHelper.cpp 393-482.  [chi2q] is boost's 0.95 quantile of the chi-squared distribution
    (external, indexed by degrees of freedom).  The in-place changes to the caller's H_R, H_L
    and res are not returned. *)
Definition initialize (chi2q : nat -> R) (st : state) (nv : ty) (order : list vref)
  (HR HL Rn : dmat) (res : dvec) (chi_2_mult : R) : outcome (bool * state) :=
  match find_top (s_vars st) (ty_ptr nv) with
  | Some _ => Exit
  | None =>
      guard ((dr Rn =? dc Rn) && (0 <? dr Rn))%nat%bool UB
      (guard (isotropic Rn) Exit
      (let k := ty_size nv in
       guard ((k =? dc HL) && (k <=? dr HL) && (dr HL =? dr HR) && (dr HL =? dn res) &&
              (dr HL =? dr Rn))%nat%bool UB
       (let '(L, X, r) := fold_left init_step (sched (dr HL) (dc HL)) (dm HL, dm HR, dv res) in
        let up := (dr HR - k)%nat in
        let Hup := DMat up (dc HR) (fun i j => X (k + i)%nat j) in
        let resup := DVec up (fun i => r (k + i)%nat) in
        let Rup := DMat up up (fun i j => dm Rn (k + i)%nat (k + j)%nat) in
        do Pup <- get_marginal_covariance st order;
        guard (dc Hup =? dc Pup)%nat UB
        (let Sm := innov up (dc Hup) (dm Hup) (dm Pup) (dm Rup) in
         let chi2 := dot up (dv resup) (mvec up (pdinv up Sm) (dv resup)) in
         if Rltb (chi_2_mult * chi2q (dn res)) chi2 then Ok (false, st)
         else
           do st1 <- initialize_invertible st nv order (DMat k (dc HR) X) (DMat k k L)
                       (DMat k k (dm Rn)) (DVec k r);
           do st2 <- (if (0 <? up)%nat then EKFUpdate st1 order Hup resup Rup else Ok st1);
           Ok (true, st2)))))
  end.

(** ** Construction of the state: State.cpp 30-166 *)

(** [v->set_local_id(current_id); _variables.push_back(v); current_id += v->size()] [State.cpp 33-131] *)
Definition push_var (b : list ty * nat) (t : ty) : list ty * nat :=
  (fst b ++ [set_local_id t (Some (snd b))], (snd b + ty_size t)%nat).
(** State.cpp 33-131 *)
Definition push_if (c : bool) (t : ty) (b : list ty * nat) : list ty * nat :=
  if c then push_var b t else b.

(** pointers of the constructed objects [State.cpp 35-115] *)
Definition ptr_imu := 0%nat.
(** State.cpp 35-115 *)
Definition ptr_dw := 7%nat.
(** State.cpp 35-115 *)
Definition ptr_da := 8%nat.
(** State.cpp 35-115 *)
Definition ptr_tg := 9%nat.
(** State.cpp 35-115 *)
Definition ptr_gyro := 10%nat.
(** State.cpp 35-115 *)
Definition ptr_acc := 11%nat.
(** State.cpp 35-115 *)
Definition ptr_dt := 12%nat.
(** State.cpp 35-115 *)
Definition ptr_pose (i : nat) := (13 + 4 * i)%nat.
(** State.cpp 35-115 *)
Definition ptr_intr (i : nat) := (16 + 4 * i)%nat.

(** State.cpp 43-60 (both IMU models use the same default vector) *)
Definition imu_default : list R := [1; 0; 0; 1; 0; 1].
(** State.cpp 43-60 (as above) *)
Definition new_dm (p : nat) : vecobj := mkVec p None 6 imu_default imu_default.

(** State.cpp 36-128: variables and total size *)
Definition build_vars (o : opts) : list ty * nat :=
  let b0 := push_var ([], 0%nat) (TImu (new_imu ptr_imu)) in
  let b1 := push_if (o_calib_imu o) (TVec (new_dm ptr_dw)) b0 in
  let b2 := push_if (o_calib_imu o) (TVec (new_dm ptr_da)) b1 in
  let b3 := push_if (o_calib_imu o && o_calib_gsens o) (TVec (new_vec ptr_tg 9)) b2 in
  let b4 := push_if (o_calib_imu o && o_kalibr o) (TQuat (new_quat ptr_gyro)) b3 in
  let b5 := push_if (o_calib_imu o && negb (o_kalibr o)) (TQuat (new_quat ptr_acc)) b4 in
  let b6 := push_if (o_calib_dt o) (TVec (new_vec ptr_dt 1)) b5 in
  fold_left (fun b i =>
     push_if (o_calib_intr o) (TVec (new_vec (ptr_intr i) 8))
       (push_if (o_calib_pose o) (TPose (new_pose (ptr_pose i))) b))
    (seq 0 (o_ncams o)) b6.

(** [_Cov.block(id, id, k, k) = s^2 * Identity] [State.cpp 133-166] *)
Definition set_prior (vars : list ty) (p off k : nat) (s : R) (C : mat) : outcome mat :=
  match find_top vars p with
  | Some t => match ty_id t with
              | Some id => Ok (set_block C (id + off) (id + off) k k (mscal (s * s) mid))
              | None => UB
              end
  | None => UB
  end.
(** State.cpp 133-166 *)
Definition when (c : bool) (f : mat -> outcome mat) (C : mat) : outcome mat :=
  if c then f C else Ok C.

(** State.cpp 131-165: priors *)
Definition build_cov (o : opts) (vars : list ty) (n : nat) : outcome mat :=
  do C1 <- when (o_calib_imu o) (set_prior vars ptr_dw 0 6 (5 / 1000)) (mscal (1 / 1000 * (1 / 1000)) mid);
  do C2 <- when (o_calib_imu o) (set_prior vars ptr_da 0 6 (8 / 1000)) C1;
  do C3 <- when (o_calib_imu o && o_calib_gsens o) (set_prior vars ptr_tg 0 9 (5 / 1000)) C2;
  do C4 <- when (o_calib_imu o && o_kalibr o) (set_prior vars ptr_gyro 0 3 (5 / 1000)) C3;
  do C5 <- when (o_calib_imu o && negb (o_kalibr o)) (set_prior vars ptr_acc 0 3 (5 / 1000)) C4;
  do C6 <- when (o_calib_dt o) (set_prior vars ptr_dt 0 1 (1 / 100)) C5;
  do C7 <- when (o_calib_pose o)
             (ofold (fun C i => do A <- set_prior vars (ptr_pose i) 0 3 (5 / 1000) C;
                                set_prior vars (ptr_pose i) 3 3 (15 / 1000) A)
                    (seq 0 (o_ncams o))) C6;
  when (o_calib_intr o)
    (ofold (fun C i => do A <- set_prior vars (ptr_intr i) 0 4 1 C;
                       set_prior vars (ptr_intr i) 4 4 (5 / 1000) A)
           (seq 0 (o_ncams o))) C7.

(** State.cpp 30-166.  [cams] are the camera objects VioManager installs afterwards. *)
Definition new_state (o : opts) (cams : list (nat * list R)) : outcome state :=
  let '(vars, n) := build_vars o in
  do C <- build_cov o vars n;
  Ok (mkState o vars n C (13 + 4 * o_ncams o) (-1) ptr_imu ptr_dt [] []
        (map (fun i => (i, ptr_intr i)) (seq 0 (o_ncams o))) cams).
