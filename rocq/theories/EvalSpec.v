(** Specification of trajectory evaluation. *)
From Coq Require Import Reals List Arith Bool Sorted Permutation.
From Verif Require Import RBool Outcome GeoModel GeoSpec InitModel InitSpec EvalModel.
Import ListNotations.
Open Scope R_scope.

(** [pairs] matches every estimate, oldest first, to the nearest groundtruth entry not yet passed
    ([free] on), provided it is nearer than [maxd] *)
Inductive greedy_match (off maxd : R) (gt : list R) : nat -> nat -> list R -> list (nat * nat) -> Prop :=
| gm_nil free i : greedy_match off maxd gt free i [] []
| gm_match free i e est j g pairs :
    (free <= j)%nat -> nth_error gt j = Some g -> Rabs (g - (e + off)) < maxd ->
    (forall k gk, (free <= k)%nat -> nth_error gt k = Some gk -> k <> j ->
       Rabs (g - (e + off)) <= Rabs (gk - (e + off)) /\ ((k < j)%nat -> Rabs (g - (e + off)) < Rabs (gk - (e + off)))) ->
    greedy_match off maxd gt (S j) (S i) est pairs ->
    greedy_match off maxd gt free i (e :: est) ((i, j) :: pairs)
| gm_none free i e est pairs :
    (forall k gk, (free <= k)%nat -> nth_error gt k = Some gk -> maxd <= Rabs (gk - (e + off))) ->
    greedy_match off maxd gt free (S i) est pairs ->
    greedy_match off maxd gt free i (e :: est) pairs.

(** each element of [l] is the element of [src] with the index listed *)
Definition picks {A} (src : list A) (idx : list nat) (l : list A) : Prop := Forall2 (fun i x => nth_error src i = Some x) idx l.

(** the middle element, or the average of the two middle ones: equally many below and above *)
Definition is_median (l : list R) (m : R) : Prop :=
  exists lo mid hi, Permutation l (lo ++ mid ++ hi) /\ length lo = length hi /\
    (forall x y, In x lo -> In y mid -> x <= y) /\ (forall y z, In y mid -> In z hi -> y <= z) /\
    (mid = [m] \/ exists x y, mid = [x; y] /\ 2 * m = x + y).

(** sum of squared residuals of the alignment [m ~ s R d + t] *)
Definition residual (Rm : m3) (t : v3) (s : R) (p : v3 * v3) : R :=
  let e := v3sub (snd p) (v3add (v3scal s (m3v Rm (fst p))) t) in v3dot e e.
Definition cost (Rm : m3) (t : v3) (s : R) (l : list (v3 * v3)) : R := total (map (residual Rm t s) l).

(** contract of a singular value decomposition of a 3x3 matrix *)
Definition orth (A : m3) : Prop := m3mul A (m3tr A) = m3id /\ m3mul (m3tr A) A = m3id.
Definition svd_of (C : m3) (r : m3 * v3 * m3) : Prop :=
  let '(U, D, V) := r in
  orth U /\ orth V /\ vx D >= vy D /\ vy D >= vz D /\ vz D >= 0 /\ C = m3mul (m3mul U (M3 (vx D) 0 0  0 (vy D) 0  0 0 (vz D))) (m3tr V).

(** [j] is the first index from [i] on whose value is nearest to [target], nearer than [maxd] *)
Definition nearest_from (ds : list R) (target maxd : R) (i : nat) (r : option nat) : Prop :=
  match r with
  | Some j => (i <= j)%nat /\ exists d, nth_error ds j = Some d /\ Rabs (d - target) < maxd /\
      forall k dk, (i <= k)%nat -> nth_error ds k = Some dk ->
        Rabs (d - target) <= Rabs (dk - target) /\ ((k < j)%nat -> Rabs (d - target) < Rabs (dk - target))
  | None => forall k dk, (i <= k)%nat -> nth_error ds k = Some dk -> maxd <= Rabs (dk - target)
  end.

(** later in both index lists; times nearer than the tolerance *)
Definition lt2 (a b : nat * nat) : Prop := (fst a < fst b)%nat /\ (snd a < snd b)%nat.
Definition near (off maxd : R) (est gt : list R) (p : nat * nat) : Prop :=
  exists e g, nth_error est (fst p) = Some e /\ nth_error gt (snd p) = Some g /\ Rabs (g - (e + off)) < maxd.

(** parallel lists; covariances absent or parallel *)
Definition traj_wf (t : traj) : Prop :=
  length (t_poses t) = length (t_times t) /\
  (t_co t = [] \/ length (t_co t) = length (t_times t) /\ length (t_cp t) = length (t_times t)).

(** what the statistics of [v] have to be; [st] holds the previous numbers *)
Definition calc_facts (st st' : stats) (v : list R) : Prop :=
  s_values st' = v /\
  is_mean v (s_mean st') /\ is_median v (s_median st') /\
  (In (s_min st') v /\ forall x, In x v -> s_min st' <= x) /\ (In (s_max st') v /\ forall x, In x v -> x <= s_max st') /\
  s_min st' <= s_median st' <= s_max st' /\ s_min st' <= s_mean st' <= s_max st' /\
  (0 <= s_rmse st' /\ INR (length v) * (s_rmse st' * s_rmse st') = s_rmse st + total (map (fun x => x * x) v)) /\
  (length v = 1%nat -> s_std st' = None /\ s_99 st' = None) /\
  (length v <> 1%nat -> exists s, s_std st' = Some s /\ is_std v (s_mean st') s /\ s_99 st' = Some (s_mean st' + 2.326 * s) /\
     INR (length v) * (s_rmse st' * s_rmse st') = s_rmse st + INR (length v) * (s_mean st' * s_mean st') + (INR (length v) - 1) * (s * s)).

(** rigid motion of a pose *)
Definition moves (Rm : m3) (t : v3) (p p' : pose) : Prop :=
  po_p p' = v3add (m3v Rm (po_p p)) t /\ m3tr (quat_2_Rot (po_q p')) = m3mul Rm (m3tr (quat_2_Rot (po_q p))).

(** correlation of the centred points, of which align_umeyama takes the singular value decomposition *)
Definition correlation (l : list (v3 * v3)) : m3 :=
  m3scal (1 / INR (length l)) (m3sum (map (fun p => m3outer (v3sub (snd p) (v3avg (map snd l))) (v3sub (fst p) (v3avg (map fst l)))) l)).

(** ** Errors between poses *)
(** sum of the products of the entries: 1 + 2 cos of the angle between two rotations *)
Definition inner (A B : m3) : R :=
  m00 A * m00 B + m01 A * m01 B + m02 A * m02 B + m10 A * m10 B + m11 A * m11 B + m12 A * m12 B + m20 A * m20 B + m21 A * m21 B + m22 A * m22 B.
(** [a] degrees is the angle between two rotations: up to 2e-5 rad, exactly unless the angle is nearly 0 or a half turn *)
Definition apart (A B : m3) (a : R) : Prop :=
  let th := acos ((inner A B - 1) / 2) in
  0 <= a /\ Rabs (a * PI / 180 - th) <= 2 / 10 ^ 5 /\
  (inner A B < 3 - 1 / 10 ^ 7 -> 1 / 10 ^ 10 - 1 <= inner A B -> a * PI / 180 = th).
(** attitude of a pose (body to world); position and attitude of pose [b] seen from pose [a] *)
Definition att (p : pose) : m3 := m3tr (quat_2_Rot (po_q p)).
Definition dist (a b : v3) : R := sqrt ((vx a - vx b) * (vx a - vx b) + (vy a - vy b) * (vy a - vy b) + (vz a - vz b) * (vz a - vz b)).
Definition rel_p (a b : pose) : v3 := m3v (m3tr (att a)) (v3sub (po_p b) (po_p a)).
Definition rel_R (a b : pose) : m3 := m3mul (m3tr (att a)) (att b).
(** a trajectory with unit quaternions; the part of the contract of the singular value decomposition that makes every alignment rigid *)
Definition unit_traj (t : traj) : Prop := forall p, In p (t_poses t) -> unit_q (po_q p).
Definition orth_svd (svd : m3 -> m3 * v3 * m3) : Prop := forall C, let '(U, _, V) := svd C in orth U /\ orth V.
(** [e] is the pair of errors between estimate and groundtruth *)
Definition abs_error (e : R * R) (p : pose * pose) : Prop := apart (att (fst p)) (att (snd p)) (fst e) /\ snd e = dist (po_p (fst p)) (po_p (snd p)).
