(** Specification of C84-C87: the dynamic initializer's poses, linear system, solution and initial guess. *)
From Coq Require Import Reals List Arith ZArith Bool Sorted.
From Verif Require Import RBool Outcome GeoModel GeoSpec Lin TypesModel ImuModel DbModel DbSpec InitModel PropModel PropSpec CpiModel CpiSpec DynModel.
Import ListNotations.
Open Scope R_scope.

(** ** C84 *)
(** different times are at least [dt] apart *)
Definition spaced (dt : R) (l : list R) : Prop := forall x y, In x l -> In y l -> x <> y -> dt <= Rabs (x - y).
(** [t] is the time of an observation of [f] *)
Definition obs_time (f : feature) (t : R) : Prop := exists cam ts, In (cam, ts) (f_ts f) /\ In t ts.
(** the number of observations of [f] at the given times, all cameras *)
Definition at_poses (P : list R) (f : feature) : nat :=
  fold_right (fun ct n => (length (filter (tfind P) (snd ct)) + n)%nat) O (f_ts f).
Definition total (P : list R) (l : list (nat * feature)) : nat := fold_right (fun e n => (at_poses P (snd e) + n)%nat) O l.

(** every camera that saw something is calibrated *)
Definition cams_known (o : yopts) (d : db) : Prop := forall id f cam ts, In (id, f) d -> In (cam, ts) (f_ts f) -> exists e, alook (yo_ext o) cam = Some e.

(** ** C85: a world without noise *)
(** the body is at [pos t]; from the first pose on it moves as the readings between the poses say (biases taken off) *)
Definition travels (o : yopts) (data : list imu) (first : R) (g : v3) (pos : R -> body) (P : list R) : Prop :=
  forall t l, In t P -> t <> first -> init_select_imu_readings data (first + yo_dt o) (t + yo_dt o) = Ok l ->
    moves g (map (piece true (yo_bg o) (yo_ba o)) (pairs_of l)) (pos first) (pos t) /\ rates rate_ok true (yo_bg o) (pairs_of l).
(** [p] as camera [e] of the body [y] sees it *)
Definition in_cam (e : q4 * v3) (y : body) (p : v3) : v3 := v3add (m3v (quat_2_Rot (fst e)) (m3v (bo_R y) (v3sub p (bo_p y)))) (snd e).
(** every observation of [f] at the poses is the projection of the point [p] *)
Definition sees (o : yopts) (pos : R -> body) (P : list R) (p : v3) (f : feature) : Prop :=
  forall cam e ob, alook (yo_ext o) cam = Some e -> In ob (ftrack f cam) -> In (otime ob) P ->
    let c := in_cam e (pos (otime ob)) p in vz c <> 0 /\ fst (snd ob) = vx c / vz c /\ snd (snd ob) = vy c / vz c.
(** the unknowns: features, velocity and gravity in the frame of the first pose *)
Definition truth (x0 : body) (g : v3) (ps : list v3) : vec := fun j =>
  let n := length ps in let loc v := m3v (bo_R x0) v in
  if (3 * n + 3 <=? j)%nat then v3nth (loc g) (j - (3 * n + 3))
  else if (3 * n <=? j)%nat then v3nth (loc (bo_v x0)) (j - 3 * n)
  else v3nth (loc (v3sub (nth (j / 3) ps v3zero) (bo_p x0))) (j mod 3).

(** ** C86: least squares with the length of gravity given.  [A] has [m] rows and [n] + 3 columns, gravity last *)
Definition join (n : nat) (f : vec) (u : v3) : vec := fun j => if (j <? n)%nat then f j else v3nth u (j - n).
Definition residual (m n : nat) (A : mat) (b : vec) (f : vec) (u : v3) : vec := fun i => mvec (n + 3) A (join n f u) i - b i.
Definition sq_len (m : nat) (x : vec) : R := dot m x x.
(** no other features and velocity do better with this gravity *)
Definition normal (m n : nat) (A : mat) (b : vec) (f : vec) (u : v3) : Prop := forall j, (j < n)%nat -> dot m (fun i => A i j) (residual m n A b f u) = 0.
(** the gradient in gravity *)
Definition grad_g (m n : nat) (A : mat) (b : vec) (f : vec) (u : v3) : v3 :=
  let c k := dot m (fun i => A i (n + k)%nat) (residual m n A b f u) in V3 (c 0%nat) (c 1%nat) (c 2%nat).
(** [D], [d]: the gradient in gravity once features and velocity are eliminated *)
Definition reduced (m n : nat) (A : mat) (b : vec) (D : m3) (d : v3) : Prop := forall f u, normal m n A b f u -> grad_g m n A b f u = v3sub (m3v D u) d.
Definition minimum (m n : nat) (A : mat) (b : vec) (f : vec) (u : v3) : Prop :=
  forall f' u', v3norm u' = v3norm u -> sq_len m (residual m n A b f u) <= sq_len m (residual m n A b f' u').
Definition pd3 (M : m3) : Prop := forall u, u <> v3zero -> 0 < v3dot u (m3v M u).
Definition inverse (n : nat) (M N : mat) : Prop := meq n n (mmul n M N) mid /\ meq n n (mmul n N M) mid.
Definition gram (m : nat) (A : mat) : mat := mmul m (mtr A) A.
(** what is assumed of Eigen: Cholesky inverts what is positive definite; a (companion) matrix of full rank has no kernel; eigenvalues are eigenvalues *)
Definition inv3_ok (L : alg) : Prop := forall M, m3tr M = M -> pd3 M -> m3mul M (ya_inv3 L M) = m3id.
Definition rank_ok (L : alg) : Prop := forall c u, ya_rank L (companion c) = 6%nat -> (forall j, (j < 6)%nat -> sumn 6 (fun i => u i * companion c i j) = 0) -> forall i, (i < 6)%nat -> u i = 0.
Definition eigs_ok (L : alg) : Prop := forall c ev l, ya_eigs L (companion c) = Some ev -> In (l, 0) ev ->
  exists u, ~ (forall i, (i < 6)%nat -> u i = 0) /\ forall j, (j < 6)%nat -> sumn 6 (fun i => u i * companion c i j) = l * u j.
