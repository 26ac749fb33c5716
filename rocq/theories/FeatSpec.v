(** What C37 and C38 mean. *)
From Coq Require Import Reals List.
From Coquelicot Require Import Coquelicot.
From Verif Require Import GeoModel GeoSpec FeatModel.
Import ListNotations.
Open Scope R_scope.

(** a measurement: camera pose R_GtoC, p_CinG and normalized coordinates *)
Definition meas := (m3 * v3 * (R * R))%type.
(** all measurements in order; [None] if a pose is missing *)
Fixpoint cam_meas (cs : clones) (c : nat) (ts : list (R * (R * R))) : option (list meas) :=
  match ts with
  | [] => Some []
  | (t, uv) :: r => match cs c t, cam_meas cs c r with Some (M, p), Some l => Some ((M, p, uv) :: l) | _, _ => None end
  end.
Fixpoint all_meas (cs : clones) (f : obs) : option (list meas) :=
  match f with
  | [] => Some []
  | (c, ts) :: r => match cam_meas cs c ts, all_meas cs r with Some a, Some b => Some (a ++ b) | _, _ => None end
  end.
Definition rotations (cs : clones) : Prop := forall c t M p, cs c t = Some (M, p) -> is_rot M.

(** the point P, not in the camera's focal plane, appears at (u, v) *)
Definition appears (P : v3) (m : meas) : Prop :=
  let '(M, p, (u, v)) := m in let q := m3v M (v3sub P p) in vz q <> 0 /\ u = vx q / vz q /\ v = vy q / vz q.
(** direction of the viewing ray in the global frame *)
Definition ray (m : meas) : v3 := let '(M, p, (u, v)) := m in m3v (m3tr M) (V3 u v 1).
Definition centre (m : meas) : v3 := let '(M, p, _) := m in p.
(** squared distance of a point from the viewing line *)
Definition line_dist2 (P : v3) (m : meas) : R :=
  let c := v3cross (ray m) (v3sub P (centre m)) in v3dot c c / v3dot (ray m) (ray m).
Definition rsum (l : list R) : R := fold_right Rplus 0 l.
Definition ray_cost (ms : list meas) (P : v3) : R := rsum (map (line_dist2 P) ms).
(** sum of squared reprojection errors *)
Definition reproj2 (P : v3) (m : meas) : R :=
  let '(M, p, (u, v)) := m in let q := m3v M (v3sub P p) in
  (u - vx q / vz q) * (u - vx q / vz q) + (v - vy q / vz q) * (v - vy q / vz q).
Definition reproj_cost (ms : list meas) (P : v3) : R := rsum (map (reproj2 P) ms).
Definition off_planes (ms : list meas) (P : v3) : Prop := forall M p uv, In (M, p, uv) ms -> vz (m3v M (v3sub P p)) <> 0.

(** the linear solver solves nonsingular systems *)
Definition solves (solve : m3 -> v3 -> v3) : Prop := forall A b, m3det A <> 0 -> m3v A (solve A b) = b.
(** householderQ: orthogonal, first column along the vector *)
Definition house (Q : v3 -> m3) : Prop := forall p, p <> v3zero -> m3mul (Q p) (m3tr (Q p)) = m3id /\ m3mul (m3tr (Q p)) (Q p) = m3id /\
  exists k, V3 (m00 (Q p)) (m10 (Q p)) (m20 (Q p)) = v3scal k p.
(** distance of a point from the line through the origin along d *)
Definition off_line (d q : v3) : R := v3norm (v3cross d q) / v3norm d.

(** the global point of (alpha, beta, rho) in an anchor frame *)
Definition inv_point (RA : m3) (pA x : v3) : v3 := v3add (m3v (m3tr RA) (V3 (vx x / vz x) (vy x / vz x) (1 / vz x))) pA.

(** two viewing rays that are not parallel *)
Definition two_rays (ms : list meas) : Prop := exists m1 m2, In m1 ms /\ In m2 ms /\ v3cross (ray m1) (ray m2) <> v3zero.
(** the matrix of the normal equations in the anchor frame *)
Definition symm (A : m3) : Prop := forall x y, v3dot x (m3v A y) = v3dot y (m3v A x).
Definition normal_matrix (RA : m3) (ms : list meas) (A : m3) : Prop := symm A /\
  forall y, v3dot (m3v RA y) (m3v A (m3v RA y)) = rsum (map (fun m => let c := v3cross (ray m) y in v3dot c c / v3dot (ray m) (ray m)) ms).
(** moving from x along d *)
Definition shift (x d : v3) (s : R) : v3 := v3add x (v3scal s d).
