(** Specification of the initialization helpers. *)
From Coq Require Import Reals List Arith Bool.
From Verif Require Import RBool GeoModel GeoSpec Lin ImuModel ImuSpec DbModel DbSpec InitModel.
Import ListNotations.
Open Scope R_scope.

(** prior standard deviations of the statically initialized state: orientation, position, velocity,
    gyroscope bias, accelerometer bias *)
Definition prior_std : list R :=
  [2/100; 2/100; 2/100; 5/100; 5/100; 5/100; 1/100; 1/100; 1/100; 2/100; 2/100; 2/100; 2/100; 2/100; 2/100].
Definition prior_cov (P : nat -> nat -> R) : Prop :=
  (forall i s, nth_error prior_std i = Some s -> P i i = s * s) /\ (forall i j, i <> j -> P i j = 0).
(** mean and sample deviation *)
Definition total (l : list R) : R := fold_right Rplus 0 l.
Definition is_mean (l : list R) (m : R) : Prop := INR (length l) * m = total l.
Definition is_std (l : list R) (m s : R) : Prop :=
  0 <= s /\ (INR (length l) - 1) * (s * s) = total (map (fun x => (x - m) * (x - m)) l).
(** mean of vectors, componentwise *)
Definition is_vmean (l : list v3) (m : v3) : Prop :=
  is_mean (map vx l) (vx m) /\ is_mean (map vy l) (vy m) /\ is_mean (map vz l) (vz m).
(** (n-1) s^2 = sum of squared distances to the mean *)
Definition is_vstd (l : list v3) (m : v3) (s : R) : Prop :=
  0 <= s /\ (INR (length l) - 1) * (s * s) =
    total (map (fun a => (vx a - vx m) * (vx a - vx m) + (vy a - vy m) * (vy a - vy m) + (vz a - vz m) * (vz a - vz m)) l).

(** readings with [lo < t <= hi] *)
Definition within (lo hi : R) (data l : list imu) : Prop :=
  exists sel, (forall m, sel m = true <-> lo < i_t m <= hi) /\ l = filter sel data.

(** feature [id] observed by [cam] at [t] as [u] *)
Definition observed (d : db) (id cam : nat) (t : R) (u : uv) : Prop :=
  exists f n, alook d id = Some f /\ In (t, u, n) (ftrack f cam).
(** at most one observation per camera and time *)
Definition single_obs (d : db) : Prop := forall id f cam, alook d id = Some f -> NoDup (map otime (ftrack f cam)).
Definition displacement (a b : uv) (x : R) : Prop :=
  0 <= x /\ x * x = (fst b - fst a) * (fst b - fst a) + (snd b - snd a) * (snd b - snd a).

(** value of a polynomial, highest coefficient first *)
Definition horner (c : list R) (x : R) : R := fold_left (fun a k => a * x + k) c 0.
(** transposed cofactors *)
Definition adj3 (A : m3) : m3 :=
  M3 (m11 A * m22 A - m12 A * m21 A) (m02 A * m21 A - m01 A * m22 A) (m01 A * m12 A - m02 A * m11 A)
     (m12 A * m20 A - m10 A * m22 A) (m00 A * m22 A - m02 A * m20 A) (m02 A * m10 A - m00 A * m12 A)
     (m10 A * m21 A - m11 A * m20 A) (m01 A * m20 A - m00 A * m21 A) (m00 A * m11 A - m01 A * m10 A).
Definition shifted (D : m3) (l : R) : m3 := m3sub D (m3scal l m3id).

(** inside the open range of times, [-1] disabling an end *)
Definition in_range (lo hi t : R) : Prop := (lo = -1 \/ lo < t) /\ (hi = -1 \/ t < hi).
Definition raw (o : obs) : uv := snd (fst o).
(** first and last of at least two observations of a track inside the range *)
Definition range_ends (lo hi : R) (track : list obs) (u0 u1 : uv) : Prop :=
  exists sel a mid b, (forall o, sel o = true <-> in_range lo hi (otime o)) /\ filter sel track = a :: mid ++ [b] /\ u0 = raw a /\ u1 = raw b.
Definition strictly_chron (d : db) : Prop := forall id f cam, alook d id = Some f ->
  forall l1 a l2 b l3, ftrack f cam = l1 ++ a :: l2 ++ b :: l3 -> otime a < otime b.
