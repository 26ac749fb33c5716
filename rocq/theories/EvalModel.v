(** Trajectory evaluation (ov_eval): statistics, association, alignment, error metrics.
    Doubles are exact reals; printing is not modelled. *)
From Coq Require Import Reals List Arith Bool.
From Verif Require Import RBool Outcome GeoModel InitModel.
Import ListNotations.
Open Scope R_scope.

(** Eigen 7x1 pose: position (0..2), JPL quaternion (3..6) [Loader.h 44-52] *)
Record pose := mkPose { po_p : v3; po_q : q4 }.

(** ** Statistics.h *)
(** std::sort of doubles; any sorting algorithm returns the same list (proved: sorted_unique) [Statistics.h 75-111] *)
Fixpoint rinsert (x : R) (l : list R) : list R :=
  match l with [] => [x] | y :: l' => if Rleb x y then x :: l else y :: rinsert x l' end.
(** Statistics.h 75-111 *)
Fixpoint rsort (l : list R) : list R := match l with [] => [] | x :: l' => rinsert x (rsort l') end.

(** ov_eval/src/utils/Statistics.h:40-70 members; timestamps and values_bound are not read by calculate.
    [None] is the value of 0/0. All numbers start at 0. *)
Record stats := mkStats { s_mean : R; s_median : R; s_std : option R; s_rmse : R; s_min : R; s_max : R; s_99 : option R; s_values : list R }.
(** Statistics.h:40-70 (as above) *)
Definition stats_new : stats := mkStats 0 0 (Some 0) 0 0 0 (Some 0) [].
(** Statistics.h:89-99 *)
Definition median_of (v : list R) : R :=
  let n := length v in
  if Nat.eqb n 1 then nth (n - 1) v 0
  else if Nat.eqb (n mod 2) 1 then nth (n / 2) v 0
  else if Nat.ltb 1 n then 0.5 * (nth (n / 2 - 1) v 0 + nth (n / 2) v 0)
  else 0.
(** Statistics.h:73-121 calculate. The indices used are in range for a non-empty list ([nth] default never used). *)
Definition calculate (st : stats) : stats :=
  let v := rsort (s_values st) in
  match v with
  | [] => st
  | _ =>
    let n := length v in
    let mean := fold_left Rplus v 0 / INR n in
    let rmse := sqrt (fold_left (fun a x => a + x * x) v (s_rmse st) / INR n) in
    let ss := fold_left (fun a x => a + (x - mean) ^ 2) v 0 in
    let sd := if Nat.eqb n 1 then None else Some (sqrt (ss / (INR n - 1))) in
    mkStats mean (median_of v) sd rmse (nth 0 v 0) (nth (n - 1) v 0)
            (option_map (fun s => mean + 2.326 * s) sd) (s_values st)
  end.
(** Statistics.h:124-128 clear *)
Definition stats_clear (st : stats) : stats :=
  mkStats (s_mean st) (s_median st) (s_std st) (s_rmse st) (s_min st) (s_max st) (s_99 st) [].
(** values.push_back [Statistics.h 75-111] *)
Definition stats_push (st : stats) (x : R) : stats :=
  mkStats (s_mean st) (s_median st) (s_std st) (s_rmse st) (s_min st) (s_max st) (s_99 st) (s_values st ++ [x]).

(** ** AlignUtils.cpp:103-189 perform_association *)
(** [rest] is the groundtruth from [gt_pointer] on, with its indices [AlignUtils.cpp 117] *)
Fixpoint indexed (k : nat) (l : list R) : list (nat * R) := match l with [] => [] | x :: l' => (k, x) :: indexed (S k) l' end.
(** AlignUtils.cpp 126-130: advance while too old *)
Fixpoint gt_skip (t maxd : R) (rest : list (nat * R)) : list (nat * R) :=
  match rest with
  | [] => []
  | (k, g) :: rest' => if (Rltb g t && Rltb maxd (Rabs (g - t)))%bool then gt_skip t maxd rest' else rest
  end.
(** AlignUtils.cpp 132-142: find a better one *)
Fixpoint gt_best (t maxd bd : R) (bi : option nat) (rest : list (nat * R)) : option nat * list (nat * R) :=
  match rest with
  | [] => (bi, [])
  | (k, g) :: rest' =>
    if Rleb (Rabs (g - t)) maxd then
      if Rleb bd (Rabs (g - t)) then (bi, rest)
      else gt_best t maxd (Rabs (g - t)) (Some k) rest'
    else (bi, rest)
  end.
(** AlignUtils.cpp 117-169: matched index pairs in order *)
Fixpoint assoc_loop (off maxd : R) (i : nat) (est : list R) (rest : list (nat * R)) : list (nat * nat) :=
  match est with
  | [] => []
  | e :: est' =>
    let '(bi, rest') := gt_best (e + off) maxd maxd None (gt_skip (e + off) maxd rest) in
    match bi with
    | Some j => (i, j) :: assoc_loop off maxd (S i) est' rest'
    | None => assoc_loop off maxd (S i) est' rest'
    end
  end.
(** vector::at (throws outside the range: UB here) [AlignUtils.cpp 117-169] *)
Definition vat {A} (l : list A) (i : nat) : outcome A := match nth_error l i with Some x => Ok x | None => UB end.
(** AlignUtils.cpp 117-169 *)
Fixpoint omap {A B} (f : A -> outcome B) (l : list A) : outcome (list B) :=
  match l with [] => Ok [] | x :: l' => do y <- f x; do ys <- omap f l'; Ok (y :: ys) end.
(** one trajectory: times, poses, orientation and position covariances [AlignUtils.cpp 103-115] *)
Record traj := mkT { t_times : list R; t_poses : list pose; t_co : list m3; t_cp : list m3 }.
(** helper: covariance of a trajectory without one *)
Definition m3zero := M3 0 0 0  0 0 0  0 0 0.
(** AlignUtils.cpp 103-189 *)
Definition perform_association (off maxd : R) (est gt : traj) : outcome (traj * traj) :=
  let pairs := assoc_loop off maxd 0 (t_times est) (indexed 0 (t_times gt)) in
  do tg <- omap (fun p => vat (t_times gt) (snd p)) pairs;
  do pe <- omap (fun p => vat (t_poses est) (fst p)) pairs;
  do pg <- omap (fun p => vat (t_poses gt) (snd p)) pairs;
  do c <- match t_co est with
          | [] => Ok ([], [], [], [])
          | _ =>
            do ce <- omap (fun p => vat (t_co est) (fst p)) pairs;
            do cpe <- omap (fun p => vat (t_cp est) (fst p)) pairs;
            match t_co gt with
            | [] => Ok (ce, cpe, map (fun _ => m3zero) pairs, map (fun _ => m3zero) pairs)
            | _ =>
              do cg <- omap (fun p => vat (t_co gt) (snd p)) pairs;
              do cpg <- omap (fun p => vat (t_cp gt) (snd p)) pairs;
              Ok (ce, cpe, cg, cpg)
            end
          end;
  let '(ce, cpe, cg, cpg) := c in
  if Nat.ltb (length (t_times est)) 3 then Ok (est, gt)
  else Ok (mkT tg pe ce cpe, mkT tg pg cg cpg).

(** ** Alignment *)
(** AlignUtils.h:53-58 get_best_yaw *)
Definition get_best_yaw (C : m3) : R := atan2 (m01 C - m10 C) (m00 C + m11 C).
(** AlignUtils.h:65-72 get_mean; AlignUtils.cpp:26-93 align_umeyama.
    The JacobiSVD is the oracle [svd] returning U, singular values, V; 1/n with n = 0 and 1/sigma2 with sigma2 = 0 are UB. *)
Fixpoint m3sum (l : list m3) : m3 := match l with [] => m3zero | a :: l' => m3add a (m3sum l') end.
(** AlignUtils.h:65-72, AlignUtils.cpp:26-93 (as above) *)
Definition diag3 (d : v3) : m3 := M3 (vx d) 0 0  0 (vy d) 0  0 0 (vz d).
(** AlignUtils.h:65-72, AlignUtils.cpp:26-93 (as above) *)
Definition align_umeyama (svd : m3 -> m3 * v3 * m3) (data model : list v3) (known_scale yaw_only : bool) : outcome (m3 * v3 * R) :=
  guard (Nat.eqb (length model) (length data)) Exit
  (guard (negb (Nat.eqb (length model) 0)) UB (
  let mu_M := v3avg model in
  let mu_D := v3avg data in
  let mz := map (fun m => v3sub m mu_M) model in
  let dz := map (fun d => v3sub d mu_D) data in
  let n := INR (length model) in
  let C := m3scal (1 / n) (m3sum (map (fun p => m3outer (fst p) (snd p)) (combine mz dz))) in
  let sigma2 := 1 / n * fold_left (fun a d => a + v3dot d d) dz 0 in
  let '(U, D, V) := svd C in
  let S := if Rltb (m3det U * m3det V) 0 then M3 1 0 0  0 1 0  0 0 (-1) else m3id in
  let Rm := if yaw_only then rot_z (get_best_yaw (m3scal n (m3tr C))) else m3mul (m3mul U S) (m3tr V) in
  do s <- (if known_scale then Ok 1 else guard (negb (Reqb sigma2 0)) UB (Ok (1 / sigma2 * m3trace (m3mul (diag3 D) S))));
  Ok (Rm, v3sub mu_M (v3scal s (m3v Rm mu_D)), s))).

(** AlignTrajectory.cpp 26-55 *)
Inductive align_method := Posyaw | PosyawSingle | Se3 | Se3Single | Sim3 | NoAlign | Unknown.
(** AlignTrajectory.cpp:57-83 align_posyaw_single *)
Definition align_posyaw_single (es gt : list pose) : outcome (m3 * v3) :=
  do e <- vat es 0; do g <- vat gt 0;
  let C := m3mul (m3tr (quat_2_Rot (po_q e))) (m3tr (m3tr (quat_2_Rot (po_q g)))) in
  let Rm := rot_z (get_best_yaw C) in
  Ok (Rm, v3sub (po_p g) (m3v Rm (po_p e))).
(** AlignTrajectory.cpp:109-126 align_se3_single *)
Definition align_se3_single (es gt : list pose) : outcome (m3 * v3) :=
  do e <- vat es 0; do g <- vat gt 0;
  let Rm := m3mul (m3tr (quat_2_Rot (po_q g))) (m3tr (m3tr (quat_2_Rot (po_q e)))) in
  Ok (Rm, v3sub (po_p g) (m3v Rm (po_p e))).
(** AlignTrajectory.cpp 93-98, 138-143, 158-163: positions of the common prefix *)
Definition prefix_pos (es gt : list pose) : list v3 * list v3 :=
  let c := combine es gt in (map (fun p => po_p (fst p)) c, map (fun p => po_p (snd p)) c).
(** AlignTrajectory.cpp:26-55 align_trajectory with the default n_aligned = -1 (the single variants are the other branch of n_aligned) *)
Definition align_trajectory (svd : m3 -> m3 * v3 * m3) (es gt : list pose) (m : align_method) : outcome (m3 * v3 * R) :=
  let '(de, dg) := prefix_pos es gt in
  match m with
  | Posyaw => do r <- align_umeyama svd de dg true true; Ok (fst r, 1)
  | PosyawSingle => do r <- align_posyaw_single es gt; Ok (r, 1)
  | Se3 => do r <- align_umeyama svd de dg true false; Ok (fst r, 1)
  | Se3Single => do r <- align_se3_single es gt; Ok (r, 1)
  | Sim3 => align_umeyama svd de dg false false
  | NoAlign => Ok (m3id, v3zero, 1)
  | Unknown => Exit
  end.
(** ResultTrajectory.cpp:69-79: apply an alignment to a pose *)
Definition apply_align (a : m3 * v3 * R) (p : pose) : pose :=
  let '(Rm, t, s) := a in
  mkPose (v3add (m3v (m3scal s Rm) (po_p p)) t) (quat_multiply (po_q p) (quat_inv (rot_2_quat Rm))).

(** ResultTrajectory members after construction [ResultTrajectory.cpp 26-90] *)
Record result := mkR { r_est : traj; r_gt : traj; r_est2gt : list pose; r_gt2est : list pose }.
(** ResultTrajectory.cpp:26-80 constructor, from the loaded trajectories (Loader::load_data parses files: not modelled) *)
Definition result_new (svd : m3 -> m3 * v3 * m3) (est gt : traj) (m : align_method) : outcome result :=
  do eg <- perform_association 0 0.02 est gt;
  let '(e, g) := eg in
  guard (negb (Nat.ltb (length (t_poses e)) 3)) Exit (
  do a1 <- align_trajectory svd (t_poses e) (t_poses g) m;
  do a2 <- align_trajectory svd (t_poses g) (t_poses e) m;
  do l1 <- omap (fun i => do p <- vat (t_poses e) i; Ok (apply_align a1 p)) (seq 0 (length (t_times g)));
  do l2 <- omap (fun i => do p <- vat (t_poses g) i; Ok (apply_align a2 p)) (seq 0 (length (t_times g)));
  Ok (mkR e g l1 l2)).

(** ** Errors *)
(** ResultTrajectory.cpp:82-108 calculate_ate: (orientation error in degrees, position error) per pose *)
Definition ate_one (e g : pose) : R * R :=
  let eR := m3mul (m3tr (quat_2_Rot (po_q e))) (quat_2_Rot (po_q g)) in
  (180 / PI * v3norm (log_so3 eR), v3norm (v3sub (po_p g) (po_p e))).
(** ResultTrajectory.cpp:82-108 (as above) *)
Definition ate_errors (r : result) : outcome (list (R * R)) :=
  omap (fun i => do e <- vat (r_est2gt r) i; do g <- vat (t_poses (r_gt r)) i; do _ <- vat (t_times (r_est r)) i; Ok (ate_one e g))
       (seq 0 (length (r_est2gt r))).
(** ResultTrajectory.cpp:82-108 (as above) *)
Definition stats_of_values (st : stats) (l : list R) : stats := calculate (fold_left stats_push l (stats_clear st)).
(** ResultTrajectory.cpp:82-108 (as above) *)
Definition calculate_ate (r : result) (ori pos : stats) : outcome (stats * stats) :=
  do l <- ate_errors r; Ok (stats_of_values ori (map fst l), stats_of_values pos (map snd l)).

(** ResultTrajectory.cpp:144-151: distance travelled at each pose *)
Fixpoint accum_from (acc : R) (prev : v3) (l : list pose) : list R :=
  match l with
  | [] => []
  | p :: l' => let acc' := acc + v3norm (v3sub (po_p p) prev) in acc' :: accum_from acc' (po_p p) l'
  end.
(** ResultTrajectory.cpp:144-151 (as above) *)
Definition accum_distances (l : list pose) : outcome (list R) :=
  match l with [] => UB | p :: l' => Ok (0 :: accum_from 0 (po_p p) l') end.
(** Loader.cpp:388-398 get_total_length *)
Fixpoint length_from (acc : R) (prev : v3) (l : list pose) : R :=
  match l with [] => acc | p :: l' => length_from (acc + v3norm (v3sub (po_p p) prev)) (po_p p) l' end.
(** Loader.cpp:388-398 (as above) *)
Definition get_total_length (l : list pose) : R := match l with [] => 0 | p :: l' => length_from 0 (po_p p) l' end.

(** ResultTrajectory.h:169-198 compute_comparison_indices_length; None is -1 *)
Fixpoint seg_scan (target : R) (be : R) (bi : option nat) (i : nat) (l : list R) : option nat :=
  match l with
  | [] => bi
  | d :: l' => if Rltb (Rabs (d - target)) be then seg_scan target (Rabs (d - target)) (Some i) (S i) l'
               else seg_scan target be bi (S i) l'
  end.
(** ResultTrajectory.h:169-198 (as above) *)
Fixpoint seg_all (dist maxd : R) (i : nat) (l : list R) : list (option nat) :=
  match l with [] => [] | d :: l' => seg_scan (d + dist) maxd None i l :: seg_all dist maxd (S i) l' end.
(** ResultTrajectory.h:169-198 (as above) *)
Definition compute_comparison_indices_length (ds : list R) (dist maxd : R) : list (option nat) := seg_all dist maxd 0 ds.

(** ResultTrajectory.cpp:180-229: error of one segment, (orientation degrees, position) *)
Definition pose_se3 (p : pose) : se3 := SE3 (m3tr (quat_2_Rot (po_q p))) (po_p p).
(** ResultTrajectory.cpp:180-229 (as above) *)
Definition rpe_one (c1 c2 g1 g2 : pose) : R * R :=
  let T12 := se3mul (Inv_se3 (pose_se3 c1)) (pose_se3 c2) in
  let M12 := se3mul (Inv_se3 (pose_se3 g1)) (pose_se3 g2) in
  let E := se3mul (Inv_se3 M12) T12 in
  let Rc2 := seR (pose_se3 c2) in
  let Ew := se3mul (se3mul (SE3 Rc2 v3zero) E) (SE3 (m3tr Rc2) v3zero) in
  (180 / PI * v3norm (log_so3 (seR Ew)), v3norm (set_ Ew)).
(** ResultTrajectory.cpp:140-242 calculate_rpe for one segment length; the statistics of each length are fresh *)
Definition rpe_errors (r : result) (dist : R) : outcome (list (R * R)) :=
  do acc <- accum_distances (t_poses (r_gt r));
  let cmp := compute_comparison_indices_length acc dist 0.5 in
  do l <- omap (fun ic => match snd ic with
      | None => Ok []
      | Some j =>
        do c1 <- vat (r_est2gt r) (fst ic); do c2 <- vat (r_est2gt r) j;
        do g1 <- vat (t_poses (r_gt r)) (fst ic); do g2 <- vat (t_poses (r_gt r)) j;
        do _ <- vat (t_times (r_est r)) (fst ic);
        Ok [rpe_one c1 c2 g1 g2]
      end) (combine (seq 0 (length cmp)) cmp);
  Ok (concat l).
(** ResultTrajectory.cpp:140-242 (as above) *)
Definition calculate_rpe (r : result) (dists : list R) : outcome (list (R * (stats * stats))) :=
  omap (fun d => do l <- rpe_errors r d; Ok (d, (stats_of_values stats_new (map fst l), stats_of_values stats_new (map snd l)))) dists.
