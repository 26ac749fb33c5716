(** What "apply the error dx to a variable" means (C31, C06); independent of the update code. *)
From Coq Require Import Reals List.
From Coquelicot Require Import Coquelicot.
From Verif Require Import GeoModel GeoSpec TypesModel StateSpec.
Import ListNotations.
Open Scope R_scope.

(** rotation of the small-angle quaternion [d/2; 1] normalised, for an error of any size *)
Definition cayley (d : v3) : m3 :=
  let c := / (1 + v3dot d d / 4) in
  let x := vx d in let y := vy d in let z := vz d in
  M3 (1 - c / 2 * (y * y + z * z)) (c * z + c / 2 * (x * y)) (- (c * y) + c / 2 * (x * z))
     (- (c * z) + c / 2 * (x * y)) (1 - c / 2 * (x * x + z * z)) (c * x + c / 2 * (y * z))
     (c * y + c / 2 * (x * z)) (- (c * x) + c / 2 * (y * z)) (1 - c / 2 * (x * x + y * y)).

(** the orientation [q] turned by the error [d] (applied on the left) *)
Definition turned (d : v3) (q q' : q4) : Prop :=
  unit_q q' /\ 0 <= qw q' /\ quat_2_Rot q' = m3mul (cayley d) (quat_2_Rot q).

(** components k, k+1, k+2 *)
Definition part (d : list R) (k : nat) : v3 := V3 (nth k d 0) (nth (S k) d 0) (nth (S (S k)) d 0).

(** [v'] is the estimate [v] moved by the error vector [d] *)
Definition moved (d : list R) (v v' : tval) : Prop :=
  match v, v' with
  | VVec x, VVec x' => length x' = length x /\ length d = length x /\
      forall i, (i < length x)%nat -> nth i x' 0 = nth i x 0 + nth i d 0
  | VV3 x, VV3 x' => x' = v3add x (part d 0)
  | VQuat q, VQuat q' => turned (part d 0) q q'
  | VPose p, VPose p' => turned (part d 0) (pv_q p) (pv_q p') /\ pv_p p' = v3add (pv_p p) (part d 3)
  | VImu s, VImu s' => turned (part d 0) (iv_q s) (iv_q s') /\ iv_p s' = v3add (iv_p s) (part d 3) /\
      iv_v s' = v3add (iv_v s) (part d 6) /\ iv_bg s' = v3add (iv_bg s) (part d 9) /\
      iv_ba s' = v3add (iv_ba s) (part d 12)
  | _, _ => False
  end.

(** the scalar part of the orientation is non-negative *)
Definition canonical (v : tval) : Prop :=
  match v with
  | VVec _ | VV3 _ => True
  | VQuat q => 0 <= qw q | VPose p => 0 <= qw (pv_q p) | VImu s => 0 <= qw (iv_q s)
  end.

(** variable [t] moved by its own block of the state correction [dx]; nothing else changes *)
Definition applied (dx : nat -> R) (t t' : ty) : Prop :=
  exists id, ty_id t = Some id /\ ty_id t' = Some id /\ ty_ptrs t' = ty_ptrs t /\ fej_of t' = fej_of t /\
    moved (map dx (seq id (ty_size t))) (value_of t) (value_of t').
