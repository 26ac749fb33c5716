(** What the B-spline of the simulator is expected to do (C39, C40); independent of BsplModel's functions. *)
From Coq Require Import Reals List Sorted.
From Verif Require Import GeoModel GeoSpec.
Import ListNotations.
Open Scope R_scope.

(** keys strictly increasing, as in any std::map *)
Definition by_time (l : list (R * se3)) : Prop := StronglySorted (fun a b => fst a < fst b) l.

(** [a] and [b] are neighbouring entries and [t] lies in between *)
Definition between (t : R) (l : list (R * se3)) (a b : R * se3) : Prop :=
  exists l1 l2, l = l1 ++ a :: b :: l2 /\ fst a <= t < fst b.

(** [a b c d] are four neighbouring entries and [t] lies between the middle two *)
Definition around (t : R) (l : list (R * se3)) (a b c d : R * se3) : Prop :=
  exists l1 l2, l = l1 ++ a :: b :: c :: d :: l2 /\ fst b <= t < fst c.

(** [n] uniformly spaced times *)
Definition grid (tmin dt : R) (n : nat) : list R := map (fun k => tmin + INR k * dt) (seq 0 n).

(** relative rotations for which the logarithm is exact: none, or away from log_so3's two switches *)
Definition log_safe (r : m3) : Prop :=
  is_rot r /\ (r = m3id \/ (1 / 10 ^ 10 <= m3trace r + 1 /\ m3trace r - 3 < - (1 / 10 ^ 7))).

(** [P] lies the fraction [k] of the way from [A] to [B] along a motion of constant twist *)
Definition geodesic (k : R) (A B P : se3) : Prop :=
  exists w u, P = se3mul (exp_se3 (v3scal k w) (v3scal k u)) A /\
    (is_rot (seR A) -> log_safe (m3mul (seR B) (m3tr (seR A))) -> B = se3mul (exp_se3 w u) A).
