(** Specification vocabulary for the feature database: what has been observed. *)
From Coq Require Import Reals List Arith ZArith Bool Sorted.
From Verif Require Import Outcome DbModel.
Import ListNotations.
Open Scope R_scope.

Definition obs := (R * uv * uv)%type.
Definition otime (o : obs) : R := fst (fst o).

Fixpoint zip3 (a : list R) (b c : list uv) : list obs :=
  match a, b, c with
  | x :: a', y :: b', z :: c' => (x, y, z) :: zip3 a' b' c'
  | _, _, _ => []
  end.

(** the track of a feature in one camera *)
Definition ftrack (f : feature) (cam : nat) : list obs :=
  zip3 (aget (f_ts f) cam) (aget (f_uvs f) cam) (aget (f_uvn f) cam).
Definition track (d : db) (id cam : nat) : list obs :=
  match alook d id with Some f => ftrack f cam | None => [] end.

(** time, raw and normalized coordinates are parallel, per camera *)
Definition parallel (f : feature) : Prop := forall cam,
  match alook (f_ts f) cam, alook (f_uvs f) cam, alook (f_uvn f) cam with
  | Some a, Some b, Some c => length b = length a /\ length c = length a
  | None, None, None => True
  | _, _, _ => False
  end.
Definition feat_ok (f : feature) : Prop :=
  NoDup (map fst (f_ts f)) /\ parallel f.
Definition db_ok (d : db) : Prop :=
  NoDup (map fst d) /\ (forall id f, In (id, f) d -> f_id f = id /\ feat_ok f).

(** everything about a feature except its measurements *)
Definition same_info (f g : feature) : Prop :=
  f_id f = f_id g /\ f_del f = f_del g /\ f_pos f = f_pos g.

(** seen at time [t] by some camera *)
Definition seen (f : feature) (t : R) : Prop := exists cam o, In o (ftrack f cam) /\ otime o = t.

(** chronologically ordered tracks *)
Definition chron (f : feature) : Prop :=
  forall cam, StronglySorted Rle (map otime (ftrack f cam)).
Definition db_chron (d : db) : Prop := forall id f, alook d id = Some f -> chron f.

(** databases that can come out of the calls of the system *)
Inductive db_reach : db -> Prop :=
| dr_new : db_reach []
| dr_step d o d' :
    db_reach d ->
    (forall other, o = DAppend other -> db_reach other) ->
    dbexec d o = Ok d' ->
    db_reach d'.

(** Result of a selecting query: exactly the features satisfying [P] (and not skipped), each
    once; removed from the database exactly when asked for. *)
Definition selects (P : feature -> Prop) (remove skip : bool) (d : db)
  (res : list feature) (d' : db) : Prop :=
  NoDup (map f_id res) /\
  (forall f, In f res <->
     (exists id, alook d id = Some f) /\ (skip = true -> f_del f = false) /\ P f) /\
  (forall id, alook d' id =
     match alook d id with
     | None => None
     | Some f => if (remove && existsb (Nat.eqb id) (map f_id res))%bool then None else Some f
     end).

(** observations fed in chronological order *)
Fixpoint fed (d : db) (l : list (nat * nat * obs)) : db :=
  match l with
  | [] => d
  | (id, cam, (t, u, n)) :: l' => fed (update_feature d id t cam u n) l'
  end.

(** The observations of [new] at times that do not occur in [old], in order. *)
Definition unseen (old new : list obs) : list obs :=
  filter (fun o => if in_dec Req_EM_T (otime o) (map otime old) then false else true) new.

(** [d'] is [d] with exactly the observations rejected by [keep] taken out, and then without the
    features that have no observation left; nothing else changes. *)
Definition cleaned (keep : R -> Prop) (d d' : db) : Prop :=
  forall id,
    match alook d id with
    | None => alook d' id = None
    | Some f =>
        (forall f', alook d' id = Some f' ->
           same_info f' f /\
           exists sel : obs -> bool, (forall o, sel o = true <-> keep (otime o)) /\
             forall cam, ftrack f' cam = filter sel (ftrack f cam)) /\
        (alook d' id = None <-> forall t, seen f t -> ~ keep t)
    end.
