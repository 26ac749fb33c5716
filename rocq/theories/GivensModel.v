(** Model of the Givens-rotation based functions: UpdaterHelper::nullspace_project_inplace and
    measurement_compress_inplace (ov_msckf/src/update/UpdaterHelper.cpp 426-487) and the shared
    elimination loop of StateHelper::initialize.

    Eigen's JacobiRotation is an external library; [make_givens] and [rot_rows] transcribe its
    documented real-valued algorithm (Eigen/src/Jacobi/Jacobi.h: makeGivens and
    apply_rotation_in_the_plane) over exact reals. *)
From Coq Require Import Reals List Arith.
From Verif Require Import RBool Outcome Lin.
Import ListNotations.
Open Scope R_scope.

(** Matrices with run-time dimensions (Eigen::MatrixXd / VectorXd). [UpdaterHelper.cpp 426-487, StateHelper.cpp 428-443] *)
Record dmat := DMat { dr : nat; dc : nat; dm : mat }.
(** UpdaterHelper.cpp 426-487, StateHelper.cpp 428-443 *)
Record dvec := DVec { dn : nat; dv : vec }.

(** JacobiRotation::makeGivens(p, q): the pair (c, s). [UpdaterHelper.cpp 426-487, StateHelper.cpp 428-443] *)
Definition make_givens (p q : R) : R * R :=
  if Reqb q 0 then (if Rltb p 0 then -1 else 1, 0)
  else if Reqb p 0 then (0, if Rltb q 0 then 1 else -1)
  else if Rltb (Rabs q) (Rabs p) then
    let t := q / p in
    let u := if Rltb p 0 then - sqrt (1 + t * t) else sqrt (1 + t * t) in
    let c := / u in (c, - t * c)
  else
    let t := p / q in
    let u := if Rltb q 0 then - sqrt (1 + t * t) else sqrt (1 + t * t) in
    let s := - / u in (- t * s, s).

(** [M.block(a, c0, 2, cols - c0).applyOnTheLeft(0, 1, G.adjoint())] with b = a + 1: rows a, b
    are replaced by (c*row_a - s*row_b, s*row_a + c*row_b) in the columns >= c0. [UpdaterHelper.cpp 426-487, StateHelper.cpp 428-443] *)
Definition rot_rows (g : R * R) (a b c0 : nat) (A : mat) : mat := fun i j =>
  if (j <? c0)%nat then A i j
  else if (i =? a)%nat then fst g * A a j - snd g * A b j
  else if (i =? b)%nat then snd g * A a j + fst g * A b j
  else A i j.
(** UpdaterHelper.cpp 426-487, StateHelper.cpp 428-443 *)
Definition rot_vec (g : R * R) (a b : nat) (x : vec) : vec := fun i =>
  if (i =? a)%nat then fst g * x a - snd g * x b
  else if (i =? b)%nat then snd g * x a + fst g * x b
  else x i.

(** The two nested loops [for n = 0 .. cols-1] [for m = rows-1 downto n+1]: the (n, m) visited,
    in order. [UpdaterHelper.cpp 426-487, StateHelper.cpp 428-443] *)
Definition sched (rows cols : nat) : list (nat * nat) :=
  flat_map (fun n => map (fun k => (n, (rows - 1 - k)%nat)) (seq 0 (rows - 1 - n))) (seq 0 cols).

(** UpdaterHelper.cpp 433-446: one inner iteration on (H_f, H_x, res). *)
Definition nullspace_step (s : mat * mat * vec) (nm : nat * nat) : mat * mat * vec :=
  let '(Hf, Hx, res) := s in
  let '(n, m) := nm in
  let g := make_givens (Hf (m - 1)%nat n) (Hf m n) in
  (rot_rows g (m - 1) m n Hf, rot_rows g (m - 1) m 0 Hx, rot_vec g (m - 1) m res).

(** UpdaterHelper.cpp 426-454.  Returns the new (H_f, H_x, res).  Eigen asserts (more columns
    than rows in H_f, or mismatching row counts) are [UB]. *)
Definition nullspace_project (Hf Hx : dmat) (res : dvec) : outcome (dmat * dmat * dvec) :=
  if ((dc Hf <=? dr Hf) && (dr Hx =? dr Hf) && (dn res =? dr Hf))%nat%bool then
    let '(F, X, r) := fold_left nullspace_step (sched (dr Hf) (dc Hf)) (dm Hf, dm Hx, dv res) in
    Ok (DMat (dr Hf) (dc Hf) F,
          DMat (dr Hx - dc Hf) (dc Hx) (fun i j => X (dc Hf + i)%nat j),
          DVec (dn res - dc Hf) (fun i => r (dc Hf + i)%nat))
  else UB.

(** UpdaterHelper.cpp 467-477: one inner iteration on (H_x, res). *)
Definition compress_step (s : mat * vec) (nm : nat * nat) : mat * vec :=
  let '(Hx, res) := s in
  let '(n, m) := nm in
  let g := make_givens (Hx (m - 1)%nat n) (Hx m n) in
  (rot_rows g (m - 1) m n Hx, rot_vec g (m - 1) m res).

(** UpdaterHelper.cpp 456-487; mismatching row counts (Eigen assert) are [UB]. *)
Definition measurement_compress (Hx : dmat) (res : dvec) : outcome (dmat * dvec) :=
  if (dr Hx <=? dc Hx)%nat then Ok (Hx, res)
  else if (dr Hx =? dn res)%nat then
    let '(X, r) := fold_left compress_step (sched (dr Hx) (dc Hx)) (dm Hx, dv res) in
    let k := Nat.min (dr Hx) (dc Hx) in
    Ok (DMat k (dc Hx) X, DVec k r)
  else UB.
