(** What the text files mean, without the reading loops. *)
From Coq Require Import Reals List Arith Ascii.
From Verif Require Import GeoModel EvalModel.
Import ListNotations.
Open Scope R_scope.

(** the pieces of a text that end at [dl]; nothing follows a last [dl] *)
Inductive cells (dl : ascii) : list ascii -> list (list ascii) -> Prop :=
| ce_nil : cells dl [] []
| ce_last w : w <> [] -> ~ In dl w -> cells dl w [w]
| ce_cons w s ws : ~ In dl w -> cells dl s ws -> cells dl (w ++ dl :: s) (w :: ws).
(** its maximal pieces without [dl] *)
Inductive words (dl : ascii) : list ascii -> list (list ascii) -> Prop :=
| wo_nil : words dl [] []
| wo_sep s ws : words dl s ws -> words dl (dl :: s) ws
| wo_word w s ws : w <> [] -> ~ In dl w -> (s = [] \/ exists s', s = dl :: s') -> words dl s ws -> words dl (w ++ s) (w :: ws).
Definition lines (s : list ascii) (ls : list (list ascii)) : Prop := cells "010"%char s ls.
Definition noted (l : list ascii) : Prop := exists l', l = "#"%char :: l'.
(** the results of the lines that have one, in order *)
Inductive through {A} (P : list ascii -> option A -> Prop) : list (list ascii) -> list A -> Prop :=
| th_nil : through P [] []
| th_skip l ls es : P l None -> through P ls es -> through P (l :: ls) es
| th_take l ls a es : P l (Some a) -> through P ls es -> through P (l :: ls) (a :: es).

(** ** trajectories *)
Record sample := mkSa { sa_t : R; sa_p : pose; sa_c : option (m3 * m3) }.
Definition sym3 (a b c d e f : R) : m3 := M3 a b c b d e c e f.
(** time, position, quaternion (x y z w), and, if there are 20 words, the upper triangles of two covariances *)
Definition pose_line (num : list ascii -> R) (l : list ascii) (o : option sample) : Prop :=
  noted l /\ o = None \/
  ~ noted l /\ exists ws, words " " l ws /\
    o = match map num ws with
        | t :: x :: y :: z :: a :: b :: c :: d :: r =>
            Some (mkSa t (mkPose (V3 x y z) (Q4 a b c d))
              match r with
              | a1 :: a2 :: a3 :: a4 :: a5 :: a6 :: b1 :: b2 :: b3 :: b4 :: b5 :: b6 :: _ => Some (sym3 a1 a2 a3 a4 a5 a6, sym3 b1 b2 b3 b4 b5 b6)
              | _ => None
              end)
        | _ => None
        end.
Definition with_cov (e : sample) : Prop := sa_c e <> None.
(** the covariances of the samples that have them, in order *)
Definition covs_of (es : list sample) : list (m3 * m3) := flat_map (fun e => match sa_c e with Some c => [c] | None => [] end) es.
(** ASL format: nanoseconds, position, quaternion (w x y z) *)
Definition csv_line (num : list ascii -> R) (l : list ascii) (o : option (R * pose)) : Prop :=
  noted l /\ o = None \/
  ~ noted l /\ exists ws, words "," l ws /\
    o = match map num ws with
        | t :: x :: y :: z :: w :: a :: b :: c :: _ => Some (t / 10 ^ 9, mkPose (V3 x y z) (Q4 a b c w))
        | _ => None
        end.
Definition row8_line (num : list ascii -> R) (l : list ascii) (o : option (list R)) : Prop :=
  noted l /\ o = None \/
  ~ noted l /\ exists ws, words " " l ws /\ (length ws < 8 /\ o = None \/ 8 <= length ws /\ o = Some (firstn 8 (map num ws)))%nat.
Definition row_line (dl : ascii) (num : list ascii -> R) (l : list ascii) (o : option (list R)) : Prop :=
  noted l /\ o = None \/ ~ noted l /\ exists ws, words dl l ws /\ o = Some (map num ws).

(** ** groundtruth *)
(** entry [i] of a line is its field [i], or zero if the line is too short *)
Definition gt_line (num : list ascii -> R) (l : list ascii) (v : nat -> R) : Prop :=
  exists fs, cells "," l fs /\ (length fs <= 17)%nat /\
    forall i, (forall f, nth_error fs i = Some f -> v i = num f) /\ (nth_error fs i = None -> v i = 0).
Definition too_long (l : list ascii) : Prop := exists fs, cells "," l fs /\ (17 < length fs)%nat.
Definition ascending {A} (m : list (R * A)) : Prop := forall l1 a l2 b l3, m = l1 ++ a :: l2 ++ b :: l3 -> fst a < fst b.
(** the map of the first state for each time *)
Definition first_wins (vs : list (nat -> R)) (m : list (R * (nat -> R))) : Prop :=
  ascending m /\ forall k v, In (k, v) m <->
    exists l1 l2, vs = l1 ++ v :: l2 /\ k = v 0%nat / 10 ^ 9 /\ forall u, In u l1 -> u 0%nat / 10 ^ 9 <> k.
(** [k] is the time nearest to [t], the older one of two *)
Definition nearest {A} (m : list (R * A)) (t k : R) : Prop :=
  forall k' v', In (k', v') m -> Rabs (k - t) < Rabs (k' - t) \/ Rabs (k - t) = Rabs (k' - t) /\ k <= k'.
(** the state handed out for the entry [(k, v)]: time, quaternion x y z w, position, velocity and biases *)
Definition handed (k : R) (v r : nat -> R) : Prop :=
  r 0%nat = k /\ (r 1 = v 5 /\ r 2 = v 6 /\ r 3 = v 7 /\ r 4 = v 4)%nat /\ (r 5 = v 1 /\ r 6 = v 2 /\ r 7 = v 3)%nat /\ forall i, (8 <= i)%nat -> r i = v i.
