(** Specification vocabulary for the trackers. *)
From Coq Require Import Reals List Arith ZArith Bool.
From Verif Require Import Outcome DbModel DbSpec TrackModel.
Import ListNotations.
Open Scope R_scope.

(** the points camera [cam] is tracking, with their ids *)
Definition tracked (s : ktrk) (cam : nat) : list (nat * pt) :=
  combine (aget (k_ids s) cam) (aget (k_pts s) cam).

(** the id is known for that camera: it is being tracked, or the database has observations *)
Definition sees (s : ktrk) (id cam : nat) : Prop :=
  In id (aget (k_ids s) cam) \/ track (k_db s) id cam <> [].

(** Between frames the estimator takes observations out of the database. *)
Definition db_shrunk (s s' : ktrk) : Prop :=
  exists d, s' = mkK (k_cur s) (k_pts s) (k_ids s) (k_last s) d /\ db_ok d /\
    forall id cam, track d id cam <> [] -> track (k_db s) id cam <> [].

(** One step of the system: a camera message or a database clean-up. [P] relates the cameras
    that are ever sent together to a stereo tracker. *)
Inductive tstep (o : kopts) (P : nat -> nat -> Prop) : ktrk -> ktrk -> Prop :=
| ts_feed s und t imgs s' :
    (ko_stereo o = true -> forall l r, imgs = [l; r] -> P (ci_cam l) (ci_cam r) /\ P (ci_cam r) (ci_cam l)) ->
    feed_new_camera o und s t imgs = Ok s' -> tstep o P s s'
| ts_db s s' : db_shrunk s s' -> tstep o P s s'.
Inductive tsteps (o : kopts) (P : nat -> nat -> Prop) : ktrk -> ktrk -> Prop :=
| tss_refl s : tsteps o P s s
| tss_step s1 s2 s3 : tsteps o P s1 s2 -> tstep o P s2 s3 -> tsteps o P s1 s3.
Definition treach (o : kopts) (P : nat -> nat -> Prop) (s : ktrk) : Prop := tsteps o P (track_new o) s.

Inductive subseq {A} : list A -> list A -> Prop :=
| ss_nil l : subseq [] l
| ss_keep x a b : subseq a b -> subseq (x :: a) (x :: b)
| ss_skip x a b : subseq a b -> subseq a (x :: b).

(** A point that may stay: ten pixels inside the image, inside the part of the image covered by
    whole cells, and not masked. *)
Definition stays (o : kopts) (fr : frame) (p : pt) : Prop :=
  10 <= fst p < IZR (fr_w fr) - 10 /\ 10 <= snd p < IZR (fr_h fr) - 10 /\
  fst p < IZR (ko_px o) * IZR (Int_part (IZR (fr_w fr) / IZR (ko_px o))) /\
  snd p < IZR (ko_px o) * IZR (Int_part (IZR (fr_h fr) / IZR (ko_px o))) /\
  fr_mask fr (Int_part (fst p)) (Int_part (snd p)) = false.
(** In the same square of side min_px_dist of the fixed raster (for non-negative coordinates). *)
Definition same_cell (o : kopts) (p q : pt) : Prop :=
  exists a b : Z,
    IZR a * IZR (ko_px o) <= fst p < (IZR a + 1) * IZR (ko_px o) /\
    IZR b * IZR (ko_px o) <= snd p < (IZR b + 1) * IZR (ko_px o) /\
    IZR a * IZR (ko_px o) <= fst q < (IZR a + 1) * IZR (ko_px o) /\
    IZR b * IZR (ko_px o) <= snd q < (IZR b + 1) * IZR (ko_px o).
(** no two points (at different positions of the list) in the same cell *)
Definition one_per_cell (o : kopts) (l : list pt) : Prop :=
  forall i j p q, nth_error l i = Some p -> nth_error l j = Some q -> same_cell o p q -> i = j.
