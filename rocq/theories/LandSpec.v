(** What C34 means: the points each parametrization can express. *)
From Coq Require Import Reals.
From Verif Require Import GeoModel LandModel.
Open Scope R_scope.

Definition expressible (r : rep) (p : v3) : Prop :=
  match r with
  | Global3D | Anch3D => True
  | GlobalFullInv | AnchFullInv => p <> v3zero
  | AnchMsckf | AnchSingle => vz p <> 0
  | RepUnknown => False
  end.
