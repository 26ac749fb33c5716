(** Specifications for the QR-style functions (C14, C15): linear algebra only. *)
From Coq Require Import Reals Arith.
From Verif Require Import Lin.
Open Scope R_scope.

(** square orthogonal matrix *)
Definition orth (n : nat) (G : mat) : Prop :=
  meq n n (mmul n G (mtr G)) mid /\ meq n n (mmul n (mtr G) G) mid.
(** the k columns of the r x k matrix N are orthonormal *)
Definition orthonormal_cols (r k : nat) (N : mat) : Prop := meq k k (mmul r (mtr N) N) mid.
(** columns of A are linearly independent *)
Definition full_col_rank (r c : nat) (A : mat) : Prop :=
  forall x, veq r (mvec c A x) (fun _ => 0) -> veq c x (fun _ => 0).
