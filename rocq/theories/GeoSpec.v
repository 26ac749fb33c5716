(** Specifications for the geometry properties; independent of quat_ops.h. *)
From Coq Require Import Reals.
From Verif Require Import GeoModel.
Open Scope R_scope.

(** proper rotation: orthonormal with determinant one *)
Definition is_rot (r : m3) : Prop :=
  m3mul r (m3tr r) = m3id /\ m3mul (m3tr r) r = m3id /\ m3det r = 1.

Definition unit_q (q : q4) : Prop := qx q * qx q + qy q * qy q + qz q * qz q + qw q * qw q = 1.
Definition unit_v (v : v3) : Prop := v3dot v v = 1.
