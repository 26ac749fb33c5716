(** What C94 and C95 mean. *)
From Coq Require Import Reals List Arith.
From Verif Require Import RBool Outcome GeoModel GeoSpec DbModel FeatModel FeatSpec RetriModel.
Import ListNotations.
Open Scope R_scope.

(** the camera with pose C = (R_ItoC, p_IinC) on the body with pose B = (R_GtoI, p_IinG): its orientation and the
    point that it maps to zero *)
Definition eye (B C : m3 * v3) : m3 * v3 :=
  (m3mul (fst C) (fst B), v3add (snd B) (m3v (m3tr (fst B)) (m3v (m3tr (fst C)) (v3neg (snd C))))).
(** the observations of [id] by camera c in the tracker's last frame, as viewing rays *)
Definition cam_views (i : rin) (id c : nat) : list meas :=
  match ri_clone i (ri_time i), ri_calib i c, alook (ri_obs i) c, alook (ri_ids i) c, ri_und i c with
  | Some B, Some C, Some pts, Some ids, Some u =>
      map (fun e => (fst (eye B C), snd (eye B C), u (snd e))) (filter (fun e => Nat.eqb (fst e) id) (combine ids pts))
  | _, _, _, _, _ => []
  end.
(** the observations of a feature that is no landmark, over the cameras of the message in their order *)
Definition views (i : rin) (id : nat) : list meas :=
  match alook (ri_slam i) id with Some _ => [] | None => flat_map (cam_views i id) (ri_cams i) end.
(** the observations kept of a feature, the newest message first: the messages without interruption up to the
    newest one, of each one view: of the oldest message the first, of the later ones the last *)
Fixpoint kept (id : nat) (hist : list rin) : list meas :=
  match hist with
  | [] => []
  | i :: r => match views i id with
              | [] => []
              | v :: vs => match kept id r with [] => [v] | l => last (v :: vs) v :: l end
              end
  end.
(** all observations since the last message without one *)
Fixpoint whole (id : nat) (hist : list rin) : list meas :=
  match hist with
  | [] => []
  | i :: r => match views i id with [] => [] | vs => vs ++ whole id r end
  end.

(** the projection along a direction *)
Definition across (r : v3) : m3 := m3sub m3id (m3scal (/ v3dot r r) (m3outer r r)).
Fixpoint normal (ms : list meas) : m3 * v3 :=
  match ms with
  | [] => (M3 0 0 0 0 0 0 0 0 0, v3zero)
  | m :: r => (m3add (across (ray m)) (fst (normal r)), v3add (m3v (across (ray m)) (centre m)) (snd (normal r)))
  end.
(** the stored system of these observations: the sums and their number *)
Definition stored (ms : list meas) : option sys := match ms with [] => None | _ => Some (fst (normal ms), snd (normal ms), length ms) end.
(** depth of a point in the camera of a view *)
Definition depth (m : meas) (P : v3) : R := let '(M, c, _) := m in vz (m3v M (v3sub P c)).
Definition rots (i : rin) : Prop :=
  (forall t M p, ri_clone i t = Some (M, p) -> is_rot M) /\ (forall c M p, ri_calib i c = Some (M, p) -> is_rot M).
(** the smallest singular value of a matrix is zero exactly for singular ones *)
Definition sv_ok (svals : m3 -> R * R) : Prop := forall A, snd (svals A) = 0 <-> m3det A = 0.
(** P is the one point with the least sum of squared distances from the viewing lines *)
Definition closest (ms : list meas) (P : v3) : Prop := forall Q, Q <> P -> ray_cost ms P < ray_cost ms Q.
(** the landmarks of the state are stored under their ids *)
Definition keyed (i : rin) : Prop := NoDup (map fst (ri_slam i)) /\ forall k f, In (k, f) (ri_slam i) -> sl_id f = k.
(** the point P is the position of a landmark in the global frame *)
Definition stands (i : rin) (f : slam) (P : v3) : Prop :=
  if sl_rel f then exists c C B, sl_cam f = Some c /\ ri_calib i c = Some C /\ ri_clone i (sl_time f) = Some B /\
                   v3add (m3v (fst C) (m3v (fst B) (v3sub P (snd B)))) (snd C) = sl_xyz f
  else P = sl_xyz f.
(** the pixel of [id] in camera 0; of several the last *)
Definition pixel0 (i : rin) (id : nat) : option (R * R) :=
  if existsb (Nat.eqb 0) (ri_cams i) then
    match alook (ri_obs i) 0, alook (ri_ids i) 0 with
    | Some pts, Some ids => match filter (fun e => Nat.eqb (fst e) id) (combine ids pts) with [] => None | e :: l => Some (snd (last l e)) end
    | _, _ => None
    end
  else None.
(** everything the call looks up is there *)
Definition complete (i : rin) : Prop :=
  ri_clone i (ri_time i) <> None /\ ri_calib i 0 <> None /\
  (forall c, In c (ri_cams i) -> ri_calib i c <> None /\ ri_und i c <> None /\ exists pts ids, alook (ri_obs i) c = Some pts /\ alook (ri_ids i) c = Some ids /\ length ids = length pts) /\
  (forall k f, In (k, f) (ri_slam i) -> sl_rel f = true -> exists c, sl_cam f = Some c /\ ri_calib i c <> None /\ ri_clone i (sl_time f) <> None).
