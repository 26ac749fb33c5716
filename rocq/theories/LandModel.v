(** Model of ov_core/src/types/Landmark.cpp, Landmark.h and LandmarkRepresentation.h.

    Simplifications: doubles are exact reals; a division by zero (inf or nan in C++) is the real number
    Coq's total division gives, and every theorem excludes it by its hypotheses.  The assert(false) of
    lines 61 and 143 and a value of the wrong size are [UB]. *)
From Coq Require Import Reals List.
From Verif Require Import Outcome GeoModel.
Import ListNotations.
Open Scope R_scope.

(** LandmarkRepresentation.h 38-46 *)
Inductive rep := Global3D | GlobalFullInv | Anch3D | AnchFullInv | AnchMsckf | AnchSingle | RepUnknown.
(** LandmarkRepresentation.h 98-102 *)
Definition is_relative (r : rep) : bool := match r with Anch3D | AnchFullInv | AnchMsckf | AnchSingle => true | _ => false end.

(** Landmark: representation, value, first estimate, first bearings.  Fields not used by the two
    functions are left out [Landmark.h 39-71] *)
Record lmk := mkLmk { l_rep : rep; l_val : list R; l_fej : list R; l_uv0 : v3; l_uv0f : v3 }.
(** helper: value() of a Vec(3), Landmark.cpp 29-131 *)
Definition v3of (l : list R) : outcome v3 := match l with [a; b; c] => Ok (V3 a b c) | _ => UB end.
(** helper: value() of a Vec(3), Landmark.cpp 29-131 *)
Definition v3list (v : v3) : list R := [vx v; vy v; vz v].

(** Landmark.cpp 38-42 *)
Definition full_inv_xyz (p : v3) : v3 :=
  V3 (1 / vz p * cos (vx p) * sin (vy p)) (1 / vz p * sin (vx p) * sin (vy p)) (1 / vz p * cos (vy p)).
(** Landmark.cpp 47-50 *)
Definition msckf_xyz (p : v3) : v3 := V3 (1 / vz p * vx p) (1 / vz p * vy p) (1 / vz p).
(** Landmark.cpp 85-93 *)
Definition full_inv_of (p : v3) : v3 :=
  let rho := 1 / v3norm p in
  V3 (atan2 (vy p) (vx p)) (acos (rho * vz p)) rho.
(** Landmark.cpp 107-110 *)
Definition msckf_of (p : v3) : v3 := V3 (vx p / vz p) (vy p / vz p) (1 / vz p).

(** Landmark.cpp 26-63 get_xyz *)
Definition get_xyz (l : lmk) (getfej : bool) : outcome v3 :=
  match l_rep l with
  | Global3D | Anch3D => v3of (if getfej then l_fej l else l_val l)
  | GlobalFullInv | AnchFullInv => do p <- v3of (if getfej then l_fej l else l_val l); Ok (full_inv_xyz p)
  | AnchMsckf => do p <- v3of (l_val l); Ok (msckf_xyz p)
  | AnchSingle => match l_val l with [r] => Ok (v3scal (1 / r) (l_uv0 l)) | _ => UB end
  | RepUnknown => UB
  end.

(** helper: value() of a Vec(3), Landmark.cpp 29-131 *)
Definition set_lv (l : lmk) (isfej : bool) (v : list R) : lmk :=
  if isfej then mkLmk (l_rep l) (l_val l) v (l_uv0 l) (l_uv0f l) else mkLmk (l_rep l) v (l_fej l) (l_uv0 l) (l_uv0f l).
(** Landmark.cpp 65-144 set_from_xyz *)
Definition set_from_xyz (l : lmk) (p : v3) (isfej : bool) : outcome lmk :=
  match l_rep l with
  | Global3D | Anch3D => Ok (set_lv l isfej (v3list p))
  | GlobalFullInv | AnchFullInv => Ok (set_lv l isfej (v3list (full_inv_of p)))
  | AnchMsckf => Ok (set_lv l isfej (v3list (msckf_of p)))
  | AnchSingle =>
      let b := v3scal (1 / vz p) p in
      let l' := if isfej then mkLmk (l_rep l) (l_val l) (l_fej l) (l_uv0 l) b else mkLmk (l_rep l) (l_val l) (l_fej l) b (l_uv0f l) in
      Ok (set_lv l' isfej [1 / vz p])
  | RepUnknown => UB
  end.
