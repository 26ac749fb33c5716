(** Specification of C65 (which initializer runs) and C81 (images that arrive while it runs). *)
From Coq Require Import Reals List Arith ZArith Bool.
From Verif Require Import RBool Outcome GeoModel Lin TypesModel StateModel ReachModel ReachSpec ImuModel DbModel DbSpec InitModel InitSpec StartModel.
Import ListNotations.
Open Scope R_scope.

(** ** C65 *)
(** some camera measured something at [t] *)
Definition measured (d : db) (t : R) : Prop := exists id f, alook d id = Some f /\ seen f t.
Definition newest (d : db) (t : R) : Prop := measured d t /\ forall t', measured d t' -> t' <= t.
(** how far each track moved in the image between its first and its last observation inside the open range *)
Definition flow (d : db) (lo hi : R) (ds : list R) : Prop :=
  exists pairs, NoDup (map (fun p : nat * nat * uv * uv => fst (fst p)) pairs) /\
    (forall id cam u0 u1, In (id, cam, u0, u1) pairs <-> exists f, alook d id = Some f /\ range_ends lo hi (ftrack f cam) u0 u1) /\
    Forall2 (fun p x => displacement (snd (fst p)) (snd p) x) pairs ds.
(** enough tracks to judge; on average they moved further than the threshold *)
Definition judged (ds : list R) : Prop := (15 <= length ds)%nat.
Definition moved (ds : list R) (thr : R) : Prop := exists m, is_mean ds m /\ thr < m.
(** the halves of the window of length [w] that ends with the newest image at [tn], with the flows in them *)
Definition halves (d : db) (w tn : R) (old new : list R) : Prop :=
  flow d (-1) (tn - w / 2) old /\ flow d (tn - w / 2) tn new.
(** the buffers without what is older than [t] (images) and [t + dt] (inertial readings before the first that is not) *)
Definition cut_at (t dt : R) (d d' : db) (data data' : list imu) : Prop :=
  cleaned (fun x => t < x) d d' /\
  exists old, data = old ++ data' /\ (forall m, In m old -> i_t m < t + dt) /\ (forall m, hd_error data' = Some m -> t + dt <= i_t m).

(** at rest in the first half and moving in the second / at rest in both / what the disparity check concludes *)
Inductive finding := Jerk | Still | Moving.
Definition concluded (d : db) (w tn thr : R) (x : finding) : Prop :=
  (thr <= 0 /\ x = Still) \/
  (0 < thr /\ exists old new, halves d w tn old new /\ judged old /\ judged new /\
    match x with
    | Jerk => ~ moved old thr /\ moved new thr
    | Still => ~ moved old thr /\ ~ moved new thr
    | Moving => moved old thr
    end).
(** the static initializer is for a jerk that was waited for, or for rest if none is; the dynamic one for any motion *)
Definition static_case (thresh : R) (wait : bool) (x : finding) : Prop :=
  0 < thresh /\ ((x = Jerk /\ wait = true) \/ (x = Still /\ wait = false)).

Definition dispatched {A} (o : dopts) (dyn : db -> list imu -> outcome (option A)) (d : db) (data : list imu) (wait : bool)
  (v : verdict A) (d' : db) (data' : list imu) : Prop :=
  let w := io_window (do_stat o) in
  (* no image, or not a full window of images after time zero *)
  ((forall t, measured d t -> t < 0 \/ t < w + 10 / 100) /\ v = VWait /\ d' = d /\ data' = data) \/
  (exists tn, newest d tn /\ 0 <= tn /\ w + 10 / 100 <= tn /\ cut_at (tn - w - 10 / 100) (do_dt o) d d' data data' /\
    ((0 < do_disp o /\ (exists old new, halves d' w tn old new /\ (~ judged old \/ ~ judged new)) /\ v = VFew) \/
     (exists x, concluded d' w tn (do_disp o) x /\
       ((static_case (io_thresh (do_stat o)) wait x /\ exists r, static_initialize (do_stat o) data' wait = Ok r /\ v = VStatic r) \/
        (~ static_case (io_thresh (do_stat o)) wait x /\ do_dyn o = true /\ x <> Still /\ exists r, dyn d' data' = Ok r /\ v = VDyn r) \/
        (~ static_case (io_thresh (do_stat o)) wait x /\ (do_dyn o = false \/ x = Still) /\ v = VNone))))).

(** ** C81 *)
(** some of the queued times newer than [ts], in order: at most [mx], the first of them always, all of them if they fit *)
Definition picked (queue : list R) (ts : R) (mx : Z) (l : list R) : Prop :=
  exists sel q r, (forall t, sel t = true <-> ts < t) /\ q = filter sel queue /\ (1 <= r)%nat /\
    (forall k, nth_error l k = nth_error q (k * r)) /\ (Z.of_nat (length l) <= mx)%Z /\ ((Z.of_nat (length q) < mx)%Z -> l = q).
(** what an initializer hands over *)
Definition fresh (chi2q : nat -> R) (ts : R) (st : state) : Prop :=
  reach chi2q st /\ s_clones st = [] /\ (1 <= o_max_clones (s_opts st))%Z /\ s_time st = ts.
Definition pin_ok (pin : state -> R -> prop_in) : Prop := forall s t, prop_ok (s_opts s) (pin s t).
(** the order of events two threads can produce: the thread ends and stops only while it runs *)
Fixpoint orderly (chi2q : nat -> R) (run fin ok : bool) (l : list tevent) : Prop :=
  match l with
  | [] => True
  | TMsg t :: l' => orderly chi2q (if run then true else negb ok) (if run || ok then fin else false)%bool ok l'
  | TEnd r :: l' => run = true /\ fin = false /\ (forall ts st, r = Some (ts, st) -> fresh chi2q ts st) /\
      orderly chi2q run true (match r with Some _ => true | None => false end) l'
  | TStop :: l' => fin = true /\ orderly chi2q false false ok l'
  end.
Definition msg_times (l : list tevent) : list R := flat_map (fun e => match e with TMsg t => [t] | _ => [] end) l.
(** the answers: true exactly when the thread has ended with success and stopped *)
Fixpoint answers (run fin ok : bool) (l : list tevent) : list (option bool) :=
  match l with
  | [] => []
  | TMsg t :: l' => Some (negb run && ok)%bool :: answers (if run then true else negb ok) (if run || ok then fin else false)%bool ok l'
  | TEnd r :: l' => None :: answers run true (match r with Some _ => true | None => false end) l'
  | TStop :: l' => None :: answers false false ok l'
  end.
(** what is known once the initialization thread was successful: the clones are at images of the meantime *)
Definition started (chi2q : nat -> R) (seen : list R) (s : tinit) : Prop :=
  ti_ok s = true -> filter_state chi2q (ti_st s) /\ forall t, In t (map fst (s_clones (ti_st s))) -> In t seen.
