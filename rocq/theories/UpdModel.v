(** Model of the feature updaters: ov_msckf/src/update/UpdaterMSCKF.cpp 58-295 and
    UpdaterSLAM.cpp 61-479 (delayed_init, update).

    Simplifications: timing and printing are dropped.  A feature pointer is the id of the feature
    in the map [db] of all tracks (ids of the two trackers are disjoint).  Triangulation
    with refinement ([tri], FeatureInitializer, modelled in its own file) and
    get_feature_jacobian_full ([jac], modelled in its own file) are arguments; the
    0.95 chi-squared quantile [chi2q] (table below 500, boost above) too. *)
From Coq Require Import Reals List Arith ZArith Bool.
From Verif Require Import RBool Outcome Lin GeoModel TypesModel GivensModel StateModel ReachModel DbModel.
Import ListNotations.
Open Scope R_scope.

(** an element of an order list: the shared pointer and id()/size() of the variable [Type.h 57-67] *)
Definition pref := (nat * vref)%type.

(** H_f, H_x, res, Hx_order of one feature [UpdaterMSCKF.cpp 196-200] *)
Record linsys := mkLin { ls_Hf : dmat; ls_Hx : dmat; ls_res : dvec; ls_order : list pref }.

(** [v.block(r0, 0, k, 1) = x] [UpdaterMSCKF.cpp 196-200] *)
Definition set_seg (v : vec) (r0 k : nat) (x : vec) : vec := fun i =>
  if ((r0 <=? i) && (i <? r0 + k))%nat%bool then x (i - r0)%nat else v i.

(** Hx_mapping, Hx_order_big, Hx_big, res_big, ct_jacob, ct_meas
    (UpdaterMSCKF.cpp 154-160, UpdaterSLAM.cpp 312-319) and R_big (SLAM only). *)
Record stack := mkStack { sk_map : amap nat; sk_order : list pref; sk_H : mat; sk_res : vec; sk_R : mat;
  sk_jac : nat; sk_meas : nat }.
(** UpdaterMSCKF.cpp 154-160, UpdaterSLAM.cpp 312-319 (as above) *)
Definition stack0 : stack := mkStack [] [] mzero (fun _ => 0) mid 0 0.

(** UpdaterMSCKF.cpp 235-239, UpdaterSLAM.cpp 426-430 *)
Definition ensure_var (s : stack) (v : pref) : stack :=
  match alook (sk_map s) (fst v) with
  | Some _ => s
  | None => mkStack (aset (sk_map s) (fst v) (sk_jac s)) (sk_order s ++ [v]) (sk_H s) (sk_res s) (sk_R s)
              (sk_jac s + snd (snd v)) (sk_meas s)
  end.

(** The loop over Hx_order: UpdaterMSCKF.cpp 231-245, UpdaterSLAM.cpp 422-436; [maxm] x [maxh] are
    the dimensions of Hx_big; a block outside a matrix is an Eigen assertion failure. *)
Fixpoint stack_vars (maxm maxh : nat) (Hx : dmat) (order : list pref) (ct_hx : nat) (s : stack) : outcome stack :=
  match order with
  | [] => Ok s
  | v :: order' =>
      let s1 := ensure_var s v in
      let sz := snd (snd v) in
      match alook (sk_map s1) (fst v) with
      | None => UB
      | Some c =>
          guard ((sk_meas s1 + dr Hx <=? maxm) && (c + sz <=? maxh) && (ct_hx + sz <=? dc Hx))%nat%bool UB
            (stack_vars maxm maxh Hx order' (ct_hx + sz)
               (mkStack (sk_map s1) (sk_order s1)
                  (set_block (sk_H s1) (sk_meas s1) c (dr Hx) sz (fun i j => dm Hx i (ct_hx + j)%nat))
                  (sk_res s1) (sk_R s1) (sk_jac s1) (sk_meas s1)))
      end
  end.

(** UpdaterMSCKF.cpp 230-250 and UpdaterSLAM.cpp 421-444; [sig] scales the diagonal block of R_big
    (UpdaterSLAM.cpp 439; the MSCKF updater has no R_big, there [sk_R] is a ghost). *)
Definition stack_feature (maxm maxh : nat) (sig : R) (Hx : dmat) (res : dvec) (order : list pref) (s : stack)
  : outcome stack :=
  do s1 <- stack_vars maxm maxh Hx order 0 s;
  let m := sk_meas s1 in
  guard (m + dn res <=? maxm)%nat UB
    (Ok (mkStack (sk_map s1) (sk_order s1) (sk_H s1) (set_seg (sk_res s1) m (dn res) (dv res))
           (set_block (sk_R s1) m m (dn res) (dn res) (fun i j => sk_R s1 (m + i)%nat (m + j)%nat * sig))
           (sk_jac s1) (m + dn res))).

(** UpdaterMSCKF.cpp 201-205, UpdaterSLAM.cpp 382-387: Mahalanobis distance of the residual. *)
Definition chi2_of (st : state) (Hx : dmat) (res : dvec) (order : list vref) (sig : R) : outcome R :=
  do P <- get_marginal_covariance st order;
  guard ((dc Hx =? dr P) && (dr Hx =? dn res))%nat%bool UB
    (let m := dn res in
     let Sm := innov m (dc Hx) (dm Hx) (dm P) (mscal sig mid) in
     Ok (dot m (dv res) (mvec m (pdinv m Sm) (dv res)))).

(** [feature->to_delete = true] [UpdaterMSCKF.cpp 89] *)
Definition mark (d : db) (id : nat) : outcome db :=
  match alook d id with Some f => Ok (aset d id (set_del f true)) | None => UB end.

(** Step 1 of both MSCKF update and delayed_init (UpdaterMSCKF.cpp 74-95, UpdaterSLAM.cpp 77-98). *)
Fixpoint clean_step (times : list R) (ids : list nat) (d : db) : outcome (list nat * db) :=
  match ids with
  | [] => Ok ([], d)
  | id :: ids' =>
      match alook d id with
      | None => UB
      | Some f =>
          do f' <- clean_old_measurements times f;
          if (count_meas f' <? 2)%nat then
            clean_step times ids' (aset d id (set_del f' true))
          else
            do r <- clean_step times ids' (aset d id f'); Ok (id :: fst r, snd r)
      end
  end.

(** Step 3 (UpdaterMSCKF.cpp 119-145, UpdaterSLAM.cpp 122-148): [tri] is triangulation followed by
    the refinement; it stores anchor and position in the feature and fails or succeeds. *)
Fixpoint tri_step (tri : feature -> (Z * R * v3 * v3) * bool) (ids : list nat) (d : db) : outcome (list nat * db) :=
  match ids with
  | [] => Ok ([], d)
  | id :: ids' =>
      match alook d id with
      | None => UB
      | Some f =>
          let f' := set_pos f (fst (tri f)) in
          if snd (tri f) then
            do r <- tri_step tri ids' (aset d id f'); Ok (id :: fst r, snd r)
          else tri_step tri ids' (aset d id (set_del f' true))
      end
  end.

(** UpdaterMSCKF.cpp 146-151, UpdaterSLAM.cpp 300-305 *)
Definition meas_size (d : db) (ids : list nat) : nat :=
  fold_right (fun id a => match alook d id with Some f => (2 * count_meas f + a)%nat | None => a end) 0%nat ids.
(** UpdaterMSCKF.cpp 155-158 (size_t subtraction; never below zero, see the proofs) *)
Definition hx_size (st : state) : nat :=
  (s_dim st - fold_right (fun e a => (snd (ref_ptr st (fst (snd e))) + a)%nat) 0%nat (s_slam st))%nat.

(** Step 4 of the MSCKF updater, UpdaterMSCKF.cpp 168-252. *)
Fixpoint msckf_loop (chi2q : nat -> R) (sig mult : R) (jac : state -> feature -> outcome linsys)
  (maxm maxh : nat) (st : state) (ids : list nat) (d : db) (s : stack) : outcome (list nat * db * stack) :=
  match ids with
  | [] => Ok ([], d, s)
  | id :: ids' =>
      match alook d id with
      | None => UB
      | Some f =>
          do l <- jac st f;
          do p <- nullspace_project (ls_Hf l) (ls_Hx l) (ls_res l);
          let '(_, Hx, res) := p in
          do chi2 <- chi2_of st Hx res (map snd (ls_order l)) sig;
          if Rltb (mult * chi2q (dn res)) chi2 then
            msckf_loop chi2q sig mult jac maxm maxh st ids' (aset d id (set_del f true)) s
          else
            do s' <- stack_feature maxm maxh sig Hx res (ls_order l) s;
            do r <- msckf_loop chi2q sig mult jac maxm maxh st ids' d s';
            let '(used, d', s'') := r in Ok (id :: used, d', s'')
      end
  end.

(** UpdaterMSCKF.cpp 58-295.  Returns the state, the tracks and the remaining feature_vec. *)
Definition msckf_update (chi2q : nat -> R) (sig mult : R) (tri : state -> feature -> (Z * R * v3 * v3) * bool)
  (jac : state -> feature -> outcome linsys) (st : state) (d : db) (ids : list nat)
  : outcome (state * db * list nat) :=
  match ids with
  | [] => Ok (st, d, [])
  | _ =>
      do r1 <- clean_step (map fst (s_clones st)) ids d;
      do r2 <- tri_step (tri st) (fst r1) (snd r1);
      let maxm := meas_size (snd r2) (fst r2) in
      let maxh := hx_size st in
      do r3 <- msckf_loop chi2q sig mult jac maxm maxh st (fst r2) (snd r2) stack0;
      let '(used, d3, s) := r3 in
      do d4 <- ofold mark used d3;
      if (sk_meas s <? 1)%nat then Ok (st, d4, used)
      else
        guard ((sk_meas s <=? maxm) && (sk_jac s <=? maxh))%nat%bool UB
          (do c <- measurement_compress (DMat (sk_meas s) (sk_jac s) (sk_H s)) (DVec (sk_meas s) (sk_res s));
           let '(H, res) := c in
           if (dr H <? 1)%nat then Ok (st, d4, used)
           else
             do st' <- EKFUpdate st (map snd (sk_order s)) H res (DMat (dn res) (dn res) (mscal sig mid));
             Ok (st', d4, used))
  end.

(** Options of UpdaterSLAM: noise and gate for ArUco and normal landmarks, selected by
    [featid < max_aruco_features] (UpdaterSLAM.cpp 161, 227, 232, 393, 409, 411, 423). *)
Record slam_opts := mkSlamOpts { so_sig_slam : R; so_mult_slam : R; so_sig_aruco : R; so_mult_aruco : R }.
(** UpdaterSLAM.cpp 161, 227, 232, 393, 409, 411, 423 (as above) *)
Definition is_tag (st : state) (id : nat) : bool := (Z.of_nat id <? o_max_aruco (s_opts st))%Z.
(** UpdaterSLAM.cpp 161, 227, 232, 393, 409, 411, 423 (as above) *)
Definition so_sig (o : slam_opts) (st : state) (id : nat) : R :=
  if is_tag st id then so_sig_aruco o else so_sig_slam o.
(** UpdaterSLAM.cpp 161, 227, 232, 393, 409, 411, 423 (as above) *)
Definition so_mult (o : slam_opts) (st : state) (id : nat) : R :=
  if is_tag st id then so_mult_aruco o else so_mult_slam o.

(** [_features_SLAM.at(featid)] [State.h 153] *)
Definition slam_ptr (st : state) (id : nat) : option nat := option_map fst (alook (s_slam st) id).

(** Step 1 of UpdaterSLAM::update, UpdaterSLAM.cpp 265-296.  [single] tells whether the landmark has the single
    inverse depth representation; [.at] on a missing landmark throws (terminates). *)
Fixpoint slam_clean_step (st : state) (single : nat -> bool) (times : list R) (ids : list nat) (d : db)
  : outcome (list nat * db) :=
  match ids with
  | [] => Ok ([], d)
  | id :: ids' =>
      match alook d id with
      | None => UB
      | Some f =>
          do f' <- clean_old_measurements times f;
          match slam_ptr st id with
          | None => Exit
          | Some _ =>
              let required := if single id then 2%nat else 1%nat in
              if (count_meas f' <? 1)%nat then slam_clean_step st single times ids' (aset d id (set_del f' true))
              else if (count_meas f' <? required)%nat then slam_clean_step st single times ids' (aset d id f')
              else do r <- slam_clean_step st single times ids' (aset d id f'); Ok (id :: fst r, snd r)
          end
      end
  end.

(** [A] with the columns of [B] appended (conservativeResize and block assignment); same rows. [UpdaterSLAM.cpp 189-206] *)
Definition append_cols (A B : dmat) : dmat :=
  DMat (dr A) (dc A + dc B) (fun i j => if (j <? dc A)%nat then dm A i j else dm B i (j - dc A)%nat).
(** last column / all but the last column [UpdaterSLAM.cpp 189-206] *)
Definition last_col (A : dmat) : dmat := DMat (dr A) 1 (fun i _ => dm A i (dc A - 1)%nat).
(** UpdaterSLAM.cpp 189-206 *)
Definition but_last (A : dmat) : dmat := DMat (dr A) (dc A - 1) (dm A).

(** UpdaterSLAM.cpp 357-375: the Jacobian on state and landmark. *)
Definition slam_system (sgl : bool) (l : linsys) : outcome (dmat * dvec) :=
  guard (dr (ls_Hf l) =? dr (ls_Hx l))%nat UB
  (if sgl then
     guard (1 <=? dc (ls_Hf l))%nat UB
       (do p <- nullspace_project (but_last (ls_Hf l)) (append_cols (ls_Hx l) (last_col (ls_Hf l))) (ls_res l);
        let '(_, Hxf, res) := p in Ok (Hxf, res))
   else Ok (append_cols (ls_Hx l) (ls_Hf l), ls_res l)).

(** Step 4 of UpdaterSLAM::update, UpdaterSLAM.cpp 321-445.  Also returns the ids of landmarks whose
    update_fail_count was incremented. *)
Fixpoint slam_loop (chi2q : nat -> R) (so : slam_opts) (single : nat -> bool)
  (jac : state -> feature -> outcome linsys) (maxm maxh : nat) (st : state) (ids : list nat) (d : db) (s : stack)
  : outcome (list nat * db * stack * list nat) :=
  match ids with
  | [] => Ok ([], d, s, [])
  | id :: ids' =>
      match alook d id, slam_ptr st id with
      | Some f, Some p =>
          do l <- jac st f;
          do q <- slam_system (single id) l;
          let '(Hxf, res) := q in
          let order := ls_order l ++ [(p, ref_ptr st p)] in
          let sig := so_sig so st id in
          do chi2 <- chi2_of st Hxf res (map snd order) sig;
          if Rltb (so_mult so st id * chi2q (dn res)) chi2 then
            do r <- slam_loop chi2q so single jac maxm maxh st ids' (aset d id (set_del f true)) s;
            let '(used, d', s', fails) := r in
            Ok (used, d', s', if is_tag st id then fails else id :: fails)
          else
            do s' <- stack_feature maxm maxh sig Hxf res order s;
            do r <- slam_loop chi2q so single jac maxm maxh st ids' d s';
            let '(used, d', s'', fails) := r in Ok (id :: used, d', s'', fails)
      | _, _ => UB
      end
  end.

(** UpdaterSLAM.cpp 247-479 *)
Definition slam_update (chi2q : nat -> R) (so : slam_opts) (single : nat -> bool)
  (jac : state -> feature -> outcome linsys) (st : state) (d : db) (ids : list nat)
  : outcome (state * db * list nat * list nat) :=
  match ids with
  | [] => Ok (st, d, [], [])
  | _ =>
      do r1 <- slam_clean_step st single (map fst (s_clones st)) ids d;
      let maxm := meas_size (snd r1) (fst r1) in
      let maxh := s_dim st in
      do r2 <- slam_loop chi2q so single jac maxm maxh st (fst r1) (snd r1) stack0;
      let '(used, d2, s, fails) := r2 in
      do d3 <- ofold mark used d2;
      if (sk_meas s <? 1)%nat then Ok (st, d3, used, fails)
      else
        guard ((sk_meas s <=? maxm) && (sk_jac s <=? maxh))%nat%bool UB
          (do st' <- EKFUpdate st (map snd (sk_order s)) (DMat (sk_meas s) (sk_jac s) (sk_H s))
                       (DVec (sk_meas s) (sk_res s)) (DMat (sk_meas s) (sk_meas s) (sk_R s));
           Ok (st', d3, used, fails))
  end.

(** UpdaterSLAM.cpp 183-206: the system handed to initialize. *)
Definition init_system (sgl : bool) (l : linsys) : outcome (dmat * dmat * dvec) :=
  if sgl then
    guard ((dr (ls_Hf l) =? dr (ls_Hx l)) && (1 <=? dc (ls_Hf l)))%nat%bool UB
      (do p <- nullspace_project (but_last (ls_Hf l)) (append_cols (ls_Hx l) (last_col (ls_Hf l))) (ls_res l);
       let '(_, Hxf, res) := p in
       Ok (but_last Hxf, last_col Hxf, res))
  else Ok (ls_Hx l, ls_Hf l, ls_res l).

(** Step 4 of delayed_init, UpdaterSLAM.cpp 150-235.  [sgl] is "the representation chosen for this
    feature id is single inverse depth" (161-163); [lm_val] is the vector set_from_xyz stores (same
    for value and first estimate, 208-219; Landmark.cpp).  make_shared<Landmark> takes the next
    pointer. *)
Fixpoint delayed_loop (chi2q : nat -> R) (so : slam_opts) (sgl : nat -> bool) (lm_val : feature -> list R)
  (jac : state -> feature -> outcome linsys) (st : state) (ids : list nat) (d : db)
  : outcome (state * db * list nat) :=
  match ids with
  | [] => Ok (st, d, [])
  | id :: ids' =>
      match alook d id with
      | None => UB
      | Some f =>
          do l <- jac st f;
          do q <- init_system (sgl id) l;
          let '(Hx, Hf, res) := q in
          let p := s_next st in
          let lm := TVec (mkVec p None (if sgl id then 1%nat else 3%nat) (lm_val f) (lm_val f)) in
          let st1 := set_next st (S p) in
          do r <- initialize chi2q st1 lm (map snd (ls_order l)) Hx Hf
                    (DMat (dn res) (dn res) (mscal (so_sig so st id) mid)) res (so_mult so st id);
          let '(ok, st2) := r in
          let d' := aset d id (set_del f true) in
          if ok then
            do z <- delayed_loop chi2q so sgl lm_val jac (set_slam st2 (s_slam st2 ++ [(id, (p, false))])) ids' d';
            let '(st3, d3, kept) := z in Ok (st3, d3, id :: kept)
          else delayed_loop chi2q so sgl lm_val jac st2 ids' d'
      end
  end.

(** UpdaterSLAM.cpp 61-245 *)
Definition delayed_init (chi2q : nat -> R) (so : slam_opts) (sgl : nat -> bool) (lm_val : feature -> list R)
  (tri : state -> feature -> (Z * R * v3 * v3) * bool) (jac : state -> feature -> outcome linsys)
  (st : state) (d : db) (ids : list nat) : outcome (state * db * list nat) :=
  match ids with
  | [] => Ok (st, d, [])
  | _ =>
      do r1 <- clean_step (map fst (s_clones st)) ids d;
      do r2 <- tri_step (tri st) (fst r1) (snd r1);
      delayed_loop chi2q so sgl lm_val jac st (fst r2) (snd r2)
  end.
