(** Model of the descriptor based tracker: ov_core/src/track/TrackDescriptor.cpp.

    Simplifications: a keypoint is its position together with the row of the descriptor matrix that
    belongs to it (the code keeps two parallel containers; ORB may drop keypoints, the pairs are what
    is left); descriptors are of an arbitrary type [D]; floats are reals. The answers of OpenCV are
    arguments: Grider_FAST::perform_griding followed by orb->compute per image ([di_ext]),
    matcher->knnMatch with two neighbours ([v_knn]) and the mask of findFundamentalMat on the
    undistorted points ([v_rsc], given the camera ids and the pixel pairs). Mutexes, histogram
    equalization, timing and printing are not modelled; parallel_for_ runs in index order, as in
    TrackModel. *)
From Coq Require Import Reals List Arith ZArith Bool.
From Verif Require Import RBool Outcome DbModel TrackModel FeatModel.
Import ListNotations.
Open Scope R_scope.

(** cv::DMatch: queryIdx, trainIdx, distance. [TrackDescriptor.cpp 568] *)
Record dmatch := mkDM { dm_q : nat; dm_t : nat; dm_d : R }.
(** The image processing answers. [TrackDescriptor.cpp 484-485, 523-531, 300-301] *)
Record vision (D : Type) := mkV {
  v_knn : list D -> list D -> list (list dmatch);
  v_rsc : nat -> nat -> list (pt * pt) -> list bool;
  v_und : nat -> pt -> pt }.
Arguments mkV {D}. Arguments v_knn {D}. Arguments v_rsc {D}. Arguments v_und {D}.
(** One image of a camera message: its camera, its size, the extracted keypoints with descriptors.
    [TrackDescriptor.cpp 361-366] *)
Record dimg (D : Type) := mkDI { di_cam : nat; di_frame : frame; di_ext : list (pt * D) }.
Arguments mkDI {D}. Arguments di_cam {D}. Arguments di_frame {D}. Arguments di_ext {D}.
(** TrackBase.h 176-192 and desc_last (TrackDescriptor.h): currid, points with descriptors and ids
    per camera, database. *)
Record dtrk (D : Type) := mkDT { d_cur : nat; d_pts : amap (list (pt * D)); d_ids : amap (list nat); d_db : db }.
Arguments mkDT {D}. Arguments d_cur {D}. Arguments d_pts {D}. Arguments d_ids {D}. Arguments d_db {D}.
(** TrackBase.cpp 30-42 *)
Definition desc_new (D : Type) (o : kopts) : dtrk D := mkDT (4 * ko_aruco o + 1) [] [] [].

(** ** Matching *)

(** match[0].distance / match[1].distance > knn_ratio: for a zero divisor the quotient is NaN (the
    comparison is false) or infinite (it is true). [TrackDescriptor.cpp 540-541] *)
Definition ratio_over (ratio : R) (a b : dmatch) : bool :=
  if Reqb (dm_d b) 0 then negb (Reqb (dm_d a) 0) else Rltb ratio (dm_d a / dm_d b).
(** TrackDescriptor.cpp 534-549 *)
Definition ratio_test (ratio : R) (ms : list (list dmatch)) : list (list dmatch) :=
  map (fun m => match m with
                | a :: b :: _ => if ratio_over ratio a b then [] else m
                | _ => []
                end) ms.
(** TrackDescriptor.cpp 559-566: the test on one pair of entries *)
Definition symmetric (a : dmatch) (m2 : list dmatch) : bool :=
  match m2 with
  | b :: _ :: _ => Nat.eqb (dm_q a) (dm_t b) && Nat.eqb (dm_q b) (dm_t a)
  | _ => false
  end.
(** TrackDescriptor.cpp 551-575; the inner loop breaks at the first hit *)
Definition symmetry_test (ms1 ms2 : list (list dmatch)) : list dmatch :=
  flat_map (fun m => match m with
                     | a :: _ :: _ => if existsb (symmetric a) ms2 then [mkDM (dm_q a) (dm_t a) (dm_d a)] else []
                     | _ => []
                     end) ms1.
(** TrackDescriptor.cpp 496-504: the pixels of the matches; an index outside is UB *)
Fixpoint match_pts {D} (p0 p1 : list (pt * D)) (ms : list dmatch) : outcome (list (pt * pt)) :=
  match ms with
  | [] => Ok []
  | m :: ms' =>
      do a <- look (nth_error p0 (dm_q m));
      do b <- look (nth_error p1 (dm_t m));
      do r <- match_pts p0 p1 ms';
      Ok ((fst a, fst b) :: r)
  end.
(** TrackDescriptor.cpp 525-532; a mask shorter than the matches is read out of bounds *)
Fixpoint mask_keep (ms : list dmatch) (mask : list bool) : outcome (list dmatch) :=
  match ms, mask with
  | [], _ => Ok []
  | _ :: _, [] => UB
  | m :: ms', b :: mask' =>
      do r <- mask_keep ms' mask';
      Ok (if b then m :: r else r)
  end.
(** TrackDescriptor.cpp 475-532 *)
Definition robust_match {D} (ratio : R) (v : vision D) (p0 p1 : list (pt * D)) (c0 c1 : nat) : outcome (list dmatch) :=
  let k01 := ratio_test ratio (v_knn v (map snd p0) (map snd p1)) in
  let k10 := ratio_test ratio (v_knn v (map snd p1) (map snd p0)) in
  let good := symmetry_test k01 k10 in
  do pr <- match_pts p0 p1 good;
  if (length pr <? 10)%nat then Ok []
  else mask_keep good (v_rsc v c0 c1 pr).

(** ** Detection *)

(** The division by min_px_dist and the cv::Mat sizes are meaningful. [TrackDescriptor.cpp 371-372] *)
Definition px_ok (o : kopts) (fr : frame) : bool := ((0 <? ko_px o) && (0 <=? fr_w fr) && (0 <=? fr_h fr))%Z%bool.
(** TrackDescriptor.cpp 379-401 *)
Fixpoint pick_desc {D} (o : kopts) (fr : frame) (ext : list (pt * D)) (g : occ) : list (pt * D) :=
  match ext with
  | [] => []
  | e :: ext' =>
      let c := cell o (fst e) in
      if (cell_in o fr c && in_img fr (fst e) && negb (occupied g c))%bool
      then e :: pick_desc o fr ext' (c :: g)
      else pick_desc o fr ext' g
  end.
(** TrackDescriptor.cpp 354-402: points, ids, currid *)
Definition desc_mono {D} (o : kopts) (im : dimg D) (cur : nat) : outcome (list (pt * D) * list nat * nat) :=
  guard (px_ok o (di_frame im)) UB
    (let new := pick_desc o (di_frame im) (di_ext im) [] in
     Ok (new, seq (S cur) (length new), (cur + length new)%nat)).
(** TrackDescriptor.cpp 437-472. The right point is compared with the size of the left image (as
    the code does); both grids stay empty, so that the test of line 457 never rejects. *)
Fixpoint pick_pairs {D} (o : kopts) (fr0 fr1 : frame) (p0 p1 : list (pt * D)) (ms : list dmatch)
  : outcome (list ((pt * D) * (pt * D))) :=
  match ms with
  | [] => Ok []
  | m :: ms' =>
      do a <- look (nth_error p0 (dm_q m));
      do b <- look (nth_error p1 (dm_t m));
      do r <- pick_pairs o fr0 fr1 p0 p1 ms';
      Ok (if (cell_in o fr0 (cell o (fst a)) && in_img fr0 (fst a) &&
              cell_in o fr1 (cell o (fst b)) && in_img fr0 (fst b))%bool
          then (a, b) :: r else r)
  end.
(** TrackDescriptor.cpp 404-473: left points, right points, ids (the same for both), currid *)
Definition desc_stereo {D} (o : kopts) (ratio : R) (v : vision D) (l r : dimg D) (cur : nat)
  : outcome (list (pt * D) * list (pt * D) * list nat * nat) :=
  guard (px_ok o (di_frame l) && px_ok o (di_frame r))%bool UB
    (do ms <- robust_match ratio v (di_ext l) (di_ext r) (di_cam l) (di_cam r);
     do ps <- pick_pairs o (di_frame l) (di_frame r) (di_ext l) (di_ext r) ms;
     Ok (map fst ps, map snd ps, seq (S cur) (length ps), (cur + length ps)%nat)).

(** ** Feeding *)

(** TrackDescriptor.cpp 127-132, 259-264: the last match that points at [i] *)
Definition idx_match (ms : list dmatch) (i : nat) : option nat :=
  fold_left (fun acc m => if Nat.eqb (dm_t m) i then Some (dm_q m) else acc) ms None.
(** TrackDescriptor.cpp 124-145: [i] the index of the first of the new points *)
Fixpoint merge_ids (ms : list dmatch) (old : list nat) (i : nat) (new : list nat) : outcome (list nat) :=
  match new with
  | [] => Ok []
  | n :: new' =>
      do x <- match idx_match ms i with Some k => look (nth_error old k) | None => Ok n end;
      do r <- merge_ids ms old (S i) new';
      Ok (x :: r)
  end.
(** TrackDescriptor.cpp 256-296: the ids of the left and of the right points *)
Fixpoint merge_stereo (ml mr : list dmatch) (old0 old1 : list nat) (i : nat) (new : list nat)
  : outcome (list nat * list nat) :=
  match new with
  | [] => Ok ([], [])
  | n :: new' =>
      do x <- match idx_match ml i, idx_match mr i with
              | Some k0, Some k1 =>
                  do a <- look (nth_error old0 k0);
                  do b <- look (nth_error old1 k1);
                  Ok (if Nat.eqb a b then (a, b) else (n, n))
              | _, _ => Ok (n, n)
              end;
      do r <- merge_stereo ml mr old0 old1 (S i) new';
      Ok (fst x :: fst r, snd x :: snd r)
  end.
(** TrackDescriptor.cpp 303-315: both observations of a point under the left id; the ids of the two
    sides are asserted to be equal *)
Fixpoint record_pairs (und : nat -> pt -> pt) (d : db) (t : R) (c0 c1 : nat) (p0 p1 : list pt) (i0 i1 : list nat)
  : outcome db :=
  match p0, p1, i0, i1 with
  | a :: p0', b :: p1', i :: i0', j :: i1' =>
      guard (Nat.eqb i j) UB
        (record_pairs und (update_feature (update_feature d i t c0 a (und c0 a)) i t c1 b (und c1 b)) t c0 c1 p0' p1' i0' i1')
  | [], _, _, _ => Ok d
  | _, _, _, _ => UB
  end.
(** TrackDescriptor.cpp 91-95, 160-164: the last frame of a camera *)
Definition desc_last {D} (s : dtrk D) (cam : nat) (ps : list (pt * D)) (is_ : list nat) (cur : nat) (d : db) : dtrk D :=
  mkDT cur (aset (d_pts s) cam ps) (aset (d_ids s) cam is_) d.
(** TrackDescriptor.cpp 63-174 *)
Definition desc_feed_mono {D} (o : kopts) (ratio : R) (v : vision D) (s : dtrk D) (t : R) (im : dimg D) : outcome (dtrk D) :=
  let cam := di_cam im in
  guard (cam <? ko_cams o)%nat UB
    (do x <- desc_mono o im (d_cur s);
     let '(ps, new, cur) := x in
     match aget (d_pts s) cam with
     | [] => Ok (desc_last s cam ps new cur (d_db s))
     | _ :: _ =>
         do ms <- robust_match ratio v (aget (d_pts s) cam) ps cam cam;
         do is_ <- merge_ids ms (aget (d_ids s) cam) 0 new;
         Ok (desc_last s cam ps is_ cur (record_all (v_und v) (d_db s) t cam (map fst ps) is_))
     end).
(** TrackDescriptor.cpp 176-352. Two locks on the same camera would be a double lock (UB). *)
Definition desc_feed_stereo {D} (o : kopts) (ratio : R) (v : vision D) (s : dtrk D) (t : R) (l r : dimg D) : outcome (dtrk D) :=
  let c0 := di_cam l in let c1 := di_cam r in
  guard ((c0 <? ko_cams o) && (c1 <? ko_cams o) && negb (c0 =? c1))%nat%bool UB
    (do x <- desc_stereo o ratio v l r (d_cur s);
     let '(p0, p1, new, cur) := x in
     match aget (d_pts s) c0, aget (d_pts s) c1 with
     | _ :: _, _ :: _ =>
         do ml <- robust_match ratio v (aget (d_pts s) c0) p0 c0 c0;
         do mr <- robust_match ratio v (aget (d_pts s) c1) p1 c1 c1;
         guard (length (aget (d_pts s) c0) =? length (aget (d_pts s) c1))%nat UB
         (guard (length p0 =? length p1)%nat UB
         (do is_ <- merge_stereo ml mr (aget (d_ids s) c0) (aget (d_ids s) c1) 0 new;
          do d <- record_pairs (v_und v) (d_db s) t c0 c1 (map fst p0) (map fst p1) (fst is_) (snd is_);
          Ok (desc_last (desc_last s c0 p0 (fst is_) cur d) c1 p1 (snd is_) cur d)))
     | _, _ => Ok (desc_last (desc_last s c0 p0 new cur (d_db s)) c1 p1 new cur (d_db s))
     end).
(** TrackDescriptor.cpp 33-61. The sizes of the message are consistent by construction of [imgs]. *)
Definition desc_feed {D} (o : kopts) (ratio : R) (v : vision D) (s : dtrk D) (t : R) (imgs : list (dimg D)) : outcome (dtrk D) :=
  match imgs with
  | [] => Exit
  | [im] => desc_feed_mono o ratio v s t im
  | l :: r :: _ =>
      if ((length imgs =? 2)%nat && ko_stereo o)%bool then desc_feed_stereo o ratio v s t l r
      else if negb (ko_stereo o) then ofold (fun s im => desc_feed_mono o ratio v s t im) imgs s
      else Exit
  end.
