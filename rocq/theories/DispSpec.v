(** Which two measurements of a track count for the disparity, for tracks of any order and with repeated times. *)
From Coq Require Import Reals List.
From Verif Require Import GeoModel DbModel DbSpec InitSpec.
Import ListNotations.
Open Scope R_scope.

(** [u] is the first entry of the track with time [t] *)
Definition first_at (track : list obs) (t : R) (u : uv) : Prop :=
  exists l1 n l2, track = l1 ++ (t, u, n) :: l2 /\ forall o, In o l1 -> otime o <> t.
(** [u0] is the first entry newer than [lo], [u1] the last entry stored behind it that is older than [hi];
    -1 disables a bound *)
Definition outer_ends (lo hi : R) (track : list obs) (u0 u1 : uv) : Prop :=
  exists l1 a l2 b l3, track = l1 ++ a :: l2 ++ b :: l3 /\
    (lo = -1 \/ lo < otime a) /\ (forall o, In o l1 -> lo <> -1 /\ otime o <= lo) /\
    (hi = -1 \/ otime b < hi) /\ (forall o, In o l3 -> hi <> -1 /\ hi <= otime o) /\
    u0 = raw a /\ u1 = raw b.
