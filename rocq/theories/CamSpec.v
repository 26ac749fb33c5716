(** What it means for the camera Jacobians to be right (C32, C33): along every differentiable curve of
    normalized coordinates and intrinsics, the pixel moves with the velocity the Jacobians predict. *)
From Coq Require Import Reals.
From Coquelicot Require Import Coquelicot.
From Verif Require Import Lin.
Open Scope R_scope.

(** entrywise derivative of the first n entries of a curve of vectors *)
Definition vec_derive (n : nat) (f : R -> vec) (t : R) (D : vec) : Prop :=
  forall i, (i < n)%nat -> is_derive (fun s => f s i) t (D i).

(** [Hz], [Hd] (2 x 2 and 2 x 8) are the derivatives of [h] with respect to its two arguments *)
Definition pixel_jacobians (h : vec -> vec -> vec) (d z : vec) (Hz Hd : mat) : Prop :=
  forall (dc zc : R -> vec) (t : R) (d' z' : vec), (forall i, dc t i = d i) -> (forall i, zc t i = z i) ->
  vec_derive 8 dc t d' -> vec_derive 2 zc t z' ->
  vec_derive 2 (fun s => h (dc s) (zc s)) t (fun i => mvec 2 Hz z' i + mvec 8 Hd d' i).

(** distance from the optical axis *)
Definition radius (z : vec) : R := sqrt (z 0%nat * z 0%nat + z 1%nat * z 1%nat).
