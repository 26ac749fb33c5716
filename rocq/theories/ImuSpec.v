(** Specification of inertial data selection, on lists of readings in time order. *)
From Coq Require Import Reals List Bool.
From Verif Require Import RBool Outcome GeoModel ImuModel.
Import ListNotations.
Open Scope R_scope.

(** strictly increasing times *)
Fixpoint chrono (l : list imu) : Prop :=
  match l with
  | [] => True
  | a :: l' => (forall b, In b l' -> i_t a < i_t b) /\ chrono l'
  end.
Definition adjacent (l : list imu) (a b : imu) : Prop := exists l1 l2, l = l1 ++ a :: b :: l2.
(** [r] is the signal's value at its time: a reading, or a point on the straight line between two
    neighbouring readings around it *)
Definition on_line (a b r : imu) : Prop :=
  let k := i_t b - i_t a in let x := i_t r - i_t a in
  v3scal k (i_w r) = v3add (v3scal (k - x) (i_w a)) (v3scal x (i_w b)) /\
  v3scal k (i_a r) = v3add (v3scal (k - x) (i_a a)) (v3scal x (i_a b)).
Definition on_signal (data : list imu) (r : imu) : Prop :=
  In r data \/ exists a b, adjacent data a b /\ i_t a <= i_t r <= i_t b /\ on_line a b r.
(** the readings strictly inside an interval, in order *)
Definition inside (t0 t1 : R) (data : list imu) : list imu :=
  filter (fun r => (Rltb t0 (i_t r) && Rltb (i_t r) t1)%bool) data.
(** consecutive times at least [g] apart *)
Fixpoint spaced (g : R) (l : list imu) : Prop :=
  match l with
  | a :: ((b :: _) as l') => g <= i_t b - i_t a /\ spaced g l'
  | _ => True
  end.
(** the data begin at or before [t0] and reach [t1] *)
Definition covers (data : list imu) (t0 t1 : R) : Prop :=
  (exists a, In a data /\ i_t a <= t0) /\ (exists b, In b data /\ t1 <= i_t b).
(** total duration integrated *)
Fixpoint durations (l : list imu) : R :=
  match l with
  | a :: ((b :: _) as l') => (i_t b - i_t a) + durations l'
  | _ => 0
  end.
Definition first_at (l : list imu) (t : R) : Prop := exists a l', l = a :: l' /\ i_t a = t.
Definition last_at (l : list imu) (t : R) : Prop := exists a l', l = l' ++ [a] /\ i_t a = t.

(** buffer of messages: message k was fed with discard time [snd]; it survives when no discard time
    from its own feed on is more than 0.10 s later than it *)
Fixpoint buffered (msgs : list (imu * R)) : list imu :=
  match msgs with
  | [] => []
  | (m, o) :: rest =>
      if forallb (fun x => Rltb (snd x - 10 / 100) 0 || Rleb (snd x - 10 / 100) (i_t m))%bool ((m, o) :: rest)
      then m :: buffered rest else buffered rest
  end.
