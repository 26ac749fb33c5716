(** Specification vocabulary for the descriptor based tracker. *)
From Coq Require Import Reals List Arith ZArith Bool.
From Verif Require Import Outcome DbModel DbSpec TrackModel TrackSpec DescModel.
Import ListNotations.
Open Scope R_scope.

(** What is assumed of cv::DescriptorMatcher::knnMatch: one entry per query, whose matches name the
    query and a train descriptor that exists, with non-negative distances. *)
Definition knn_ok {D} (v : vision D) : Prop :=
  forall a b, length (v_knn v a b) = length a /\
    forall i m x, nth_error (v_knn v a b) i = Some m -> In x m -> dm_q x = i /\ (dm_t x < length b)%nat /\ 0 <= dm_d x.
(** What is assumed of cv::findFundamentalMat: the mask has an entry per point pair. *)
Definition rsc_ok {D} (v : vision D) : Prop :=
  forall c0 c1 l, length (v_rsc v c0 c1 l) = length l.

(** The nearest neighbour of descriptor [i] of [a] among [b] is [j], and it is nearer than [ratio]
    times the second nearest. *)
Definition stands_out {D} (ratio : R) (v : vision D) (a b : list D) (i j : nat) : Prop :=
  exists x y l, nth_error (v_knn v a b) i = Some (x :: y :: l) /\ dm_t x = j /\ dm_d x <= ratio * dm_d y.
(** ... in both directions *)
Definition agree {D} (ratio : R) (v : vision D) (p0 p1 : list (pt * D)) (i j : nat) : Prop :=
  stands_out ratio v (map snd p0) (map snd p1) i j /\ stands_out ratio v (map snd p1) (map snd p0) j i.

(** point [i] of the one and point [j] of the other image are matched *)
Definition matched (ms : list dmatch) (i j : nat) : Prop := exists m, In m ms /\ dm_q m = i /\ dm_t m = j.

(** The id is known for that camera. *)
Definition dsees {D} (s : dtrk D) (id cam : nat) : Prop :=
  In id (aget (d_ids s) cam) \/ track (d_db s) id cam <> [].

(** One step of the system: a camera message (whatever the images contain) or a database clean-up.
    [P] relates the cameras that are ever sent together to a stereo tracker. *)
Inductive dstep {D} (o : kopts) (ratio : R) (P : nat -> nat -> Prop) : dtrk D -> dtrk D -> Prop :=
| ds_feed s v t imgs s' :
    knn_ok v ->
    (ko_stereo o = true -> forall l r, imgs = [l; r] -> P (di_cam l) (di_cam r) /\ P (di_cam r) (di_cam l)) ->
    desc_feed o ratio v s t imgs = Ok s' -> dstep o ratio P s s'
| ds_db s d :
    db_ok d -> (forall id cam, track d id cam <> [] -> track (d_db s) id cam <> []) ->
    dstep o ratio P s (mkDT (d_cur s) (d_pts s) (d_ids s) d).
Inductive dreach {D} (o : kopts) (ratio : R) (P : nat -> nat -> Prop) : dtrk D -> Prop :=
| dr_new : dreach o ratio P (desc_new D o)
| dr_step s s' : dreach o ratio P s -> dstep o ratio P s s' -> dreach o ratio P s'.

(** inside the image *)
Definition in_frame (fr : frame) (p : pt) : Prop :=
  -1 < fst p < IZR (fr_w fr) /\ -1 < snd p < IZR (fr_h fr).

(** Every point [k] of the new frame of camera [cam] was observed once more, under the id it has now,
    and nothing else was recorded for that camera. *)
Definition observed {D} (v : vision D) (s s' : dtrk D) (t : R) (cam : nat) : Prop :=
  (forall k id e, nth_error (aget (d_ids s') cam) k = Some id -> nth_error (aget (d_pts s') cam) k = Some e ->
     track (d_db s') id cam = track (d_db s) id cam ++ [(t, fst e, v_und v cam (fst e))]) /\
  (forall id, ~ In id (aget (d_ids s') cam) -> track (d_db s') id cam = track (d_db s) id cam).

(** What an image of one camera may change: the tracked points become detections of this image, one
    per cell and inside it; with no points before they get fresh ids and nothing is recorded; otherwise
    a point has the id of the point it is matched with, or a fresh id if it has no match, and is
    recorded under it. *)
Record mono_res {D} (o : kopts) (ratio : R) (v : vision D) (s s' : dtrk D) (t : R) (im : dimg D) : Prop := {
  mr_other : forall c, c <> di_cam im -> aget (d_pts s') c = aget (d_pts s) c /\ aget (d_ids s') c = aget (d_ids s) c /\
               forall id, track (d_db s') id c = track (d_db s) id c;
  mr_pts : subseq (aget (d_pts s') (di_cam im)) (di_ext im);
  mr_cell : one_per_cell o (map fst (aget (d_pts s') (di_cam im)));
  mr_in : forall e, In e (aget (d_pts s') (di_cam im)) -> in_frame (di_frame im) (fst e);
  mr_cur : d_cur s' = (d_cur s + length (aget (d_pts s') (di_cam im)))%nat;
  mr_len : length (aget (d_ids s') (di_cam im)) = length (aget (d_pts s') (di_cam im));
  mr_nodup : NoDup (aget (d_ids s') (di_cam im));
  mr_db : db_ok (d_db s');
  mr_first : aget (d_pts s) (di_cam im) = [] -> d_db s' = d_db s /\
    forall k id, nth_error (aget (d_ids s') (di_cam im)) k = Some id -> id = (d_cur s + 1 + k)%nat;
  mr_next : aget (d_pts s) (di_cam im) <> [] -> observed v s s' t (di_cam im) /\
    exists ms, robust_match ratio v (aget (d_pts s) (di_cam im)) (aget (d_pts s') (di_cam im)) (di_cam im) (di_cam im) = Ok ms /\
      forall k id, nth_error (aget (d_ids s') (di_cam im)) k = Some id ->
        (exists j, matched ms j k /\ nth_error (aget (d_ids s) (di_cam im)) j = Some id) \/
        ((forall j, ~ matched ms j k) /\ id = (d_cur s + 1 + k)%nat) }.

(** What a stereo pair may change: the points of the two cameras are pairs matched between the images,
    with the same ids on both sides. A pair keeps an id only if its left and its right point are
    matched with points that had this same id. *)
Record stereo_res {D} (o : kopts) (ratio : R) (v : vision D) (s s' : dtrk D) (t : R) (l r : dimg D) : Prop := {
  sr_cams : di_cam l <> di_cam r;
  sr_other : forall c, c <> di_cam l -> c <> di_cam r -> aget (d_pts s') c = aget (d_pts s) c /\ aget (d_ids s') c = aget (d_ids s) c /\
               forall id, track (d_db s') id c = track (d_db s) id c;
  sr_pairs : exists ms, robust_match ratio v (di_ext l) (di_ext r) (di_cam l) (di_cam r) = Ok ms /\
    forall k a b, nth_error (aget (d_pts s') (di_cam l)) k = Some a -> nth_error (aget (d_pts s') (di_cam r)) k = Some b ->
      (exists i j, matched ms i j /\ nth_error (di_ext l) i = Some a /\ nth_error (di_ext r) j = Some b) /\
      in_frame (di_frame l) (fst a) /\ in_frame (di_frame r) (fst b);
  sr_cur : d_cur s' = (d_cur s + length (aget (d_pts s') (di_cam l)))%nat;
  sr_ids : aget (d_ids s') (di_cam l) = aget (d_ids s') (di_cam r);
  sr_len0 : length (aget (d_ids s') (di_cam l)) = length (aget (d_pts s') (di_cam l));
  sr_len1 : length (aget (d_ids s') (di_cam l)) = length (aget (d_pts s') (di_cam r));
  sr_nodup : NoDup (aget (d_ids s') (di_cam l));
  sr_db : db_ok (d_db s');
  sr_first : aget (d_pts s) (di_cam l) = [] \/ aget (d_pts s) (di_cam r) = [] -> d_db s' = d_db s /\
    forall k id, nth_error (aget (d_ids s') (di_cam l)) k = Some id -> id = (d_cur s + 1 + k)%nat;
  sr_next : aget (d_pts s) (di_cam l) <> [] -> aget (d_pts s) (di_cam r) <> [] ->
    observed v s s' t (di_cam l) /\ observed v s s' t (di_cam r) /\
    length (aget (d_pts s) (di_cam l)) = length (aget (d_pts s) (di_cam r)) /\
    exists ml mr, robust_match ratio v (aget (d_pts s) (di_cam l)) (aget (d_pts s') (di_cam l)) (di_cam l) (di_cam l) = Ok ml /\
      robust_match ratio v (aget (d_pts s) (di_cam r)) (aget (d_pts s') (di_cam r)) (di_cam r) (di_cam r) = Ok mr /\
      forall k id, nth_error (aget (d_ids s') (di_cam l)) k = Some id ->
        (exists i j, matched ml i k /\ matched mr j k /\ nth_error (aget (d_ids s) (di_cam l)) i = Some id /\ nth_error (aget (d_ids s) (di_cam r)) j = Some id) \/
        (~ (exists i j x, matched ml i k /\ matched mr j k /\ nth_error (aget (d_ids s) (di_cam l)) i = Some x /\ nth_error (aget (d_ids s) (di_cam r)) j = Some x) /\
         id = (d_cur s + 1 + k)%nat) }.

