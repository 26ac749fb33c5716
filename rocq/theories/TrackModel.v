(** Model of the sparse feature trackers: ov_core/src/track/TrackBase.cpp, TrackKLT.cpp,
    TrackSIM.cpp and the id assignment of TrackAruco.cpp.

    Simplifications: a cv::KeyPoint is its position [pt]; floats are reals; an image is its size
    together with the 'mask > 127' predicate (masks have the size of their image); the mutexes are
    not modelled and the parallel_for_ over the cameras is executed camera by camera (the atomic
    counter makes every interleaving hand out the ids of some such order, up to which of the
    fresh ids goes to which camera); (int) casts do not overflow. The answers of OpenCV are
    arguments: the keypoints a call of Grider_GRID::perform_griding returns ([ci_det]) and, per
    point, the position and the success flag coming out of calcOpticalFlowPyrLK and
    findFundamentalMat ([ci_klt], [ci_lr]). Image content, pyramids, timing and printing are not
    modelled. *)
From Coq Require Import Reals List Arith ZArith Bool.
From Verif Require Import RBool Outcome DbModel.
Import ListNotations.
Open Scope R_scope.

(** cv::KeyPoint::pt, TrackBase.h 186 *)
Definition pt := uv.

(** C++ (int) conversion of a floating point number: truncation towards zero. [TrackKLT.cpp 423-424] *)
Definition to_int (x : R) : Z := if Rleb 0 x then Int_part x else (- Int_part (- x))%Z.

(** img_last, pts_last and ids_last of one camera, TrackBase.h 180-189 *)
Record frame := mkFrame { fr_w : Z; fr_h : Z; fr_mask : Z -> Z -> bool }.

(** The tracker parameters (TrackBase.cpp 30-34, TrackKLT.h constructor). *)
Record kopts := mkKO {
  ko_feats : Z; ko_aruco : nat; ko_stereo : bool; ko_cams : nat;
  ko_gx : Z; ko_gy : Z; ko_px : Z }.

(** TrackBase.h 176-192: last points, ids, images and masks per camera, currid, database. *)
Record ktrk := mkK {
  k_cur : nat; k_pts : amap (list pt); k_ids : amap (list nat); k_last : amap frame; k_db : db }.

(** TrackBase.cpp 30-42 *)
Definition track_new (o : kopts) : ktrk := mkK (4 * ko_aruco o + 1) [] [] [] [].

(** One image of a camera message with the answers of OpenCV concerning it. [sensor_data.h 55-80] *)
Record camimg := mkCI {
  ci_cam : nat; ci_frame : frame;
  ci_det : list pt;                (* Grider_GRID::perform_griding *)
  ci_klt : nat -> pt * bool;       (* temporal KLT and RANSAC, per point index *)
  ci_lr : nat -> pt * bool }.      (* KLT of new left points into the right image *)

(** ** Detection *)

(** [grid_2d_close]: the cells that are set. [TrackKLT.cpp 403, 439-452] *)
Definition occ := list (Z * Z).
(** TrackKLT.cpp 403, 439-452 *)
Definition cell_eqb (a b : Z * Z) : bool := ((fst a =? fst b) && (snd a =? snd b))%Z%bool.
(** TrackKLT.cpp 403, 439-452 *)
Definition occupied (g : occ) (c : Z * Z) : bool := existsb (cell_eqb c) g.
(** TrackKLT.cpp 401-402 *)
Definition size_close (o : kopts) (n : Z) : Z := to_int (IZR n / IZR (ko_px o)).
(** TrackKLT.cpp 423-424: cell of a point *)
Definition cell (o : kopts) (p : pt) : Z * Z :=
  (to_int (fst p / IZR (ko_px o)), to_int (snd p / IZR (ko_px o))).
(** TrackKLT.cpp 425 *)
Definition cell_in (o : kopts) (fr : frame) (c : Z * Z) : bool :=
  ((0 <=? fst c) && (fst c <? size_close o (fr_w fr)) &&
   (0 <=? snd c) && (snd c <? size_close o (fr_h fr)))%Z%bool.
(** TrackKLT.cpp 418: at least 10 pixels from the border *)
Definition inner (fr : frame) (p : pt) : bool :=
  let x := to_int (fst p) in let y := to_int (snd p) in
  ((10 <=? x) && (x <? fr_w fr - 10) && (10 <=? y) && (y <? fr_h fr - 10))%Z%bool.
(** TrackKLT.cpp 431-433: the extraction grid; std::floor is [Int_part] *)
Definition grid_in (o : kopts) (fr : frame) (p : pt) : bool :=
  let x := Int_part (fst p / (IZR (fr_w fr) / IZR (ko_gx o))) in
  let y := Int_part (snd p / (IZR (fr_h fr) / IZR (ko_gy o))) in
  ((0 <=? x) && (x <? ko_gx o) && (0 <=? y) && (y <? ko_gy o))%Z%bool.

(** The while loop of TrackKLT.cpp 411-464 and 547-600 (monocular and left, [stereo] constantly false) and 724-782 (right
    image, [stereo id] says whether the id is also in the left list). The counters of the
    extraction grid and the mask copies with rectangles are only input of the detector and not
    modelled. Erasing past the end of a shorter id list is UB. *)
Fixpoint thin (o : kopts) (fr : frame) (stereo : nat -> bool) (pts : list pt) (ids : list nat) (g : occ)
  : outcome (list pt * list nat * occ) :=
  match pts with
  | [] => Ok ([], ids, g)
  | p :: pts' =>
      match ids with
      | [] => UB
      | i :: ids' =>
          let c := cell o p in
          if (negb (inner fr p) || negb (cell_in o fr c) || negb (grid_in o fr p) ||
              (occupied g c && negb (stereo i)) || fr_mask fr (to_int (fst p)) (to_int (snd p)))%bool
          then thin o fr stereo pts' ids' g
          else
            do r <- thin o fr stereo pts' ids' (c :: g);
            let '(ps, is_, g') := r in
            Ok (p :: ps, i :: is_, g')
      end
  end.

(** TrackKLT.cpp 499-511, 637-650 and 811-825: the detections whose cell is inside the grid and free. *)
Fixpoint pick_new (o : kopts) (fr : frame) (det : list pt) (g : occ) : list pt :=
  match det with
  | [] => []
  | p :: det' =>
      let c := cell o p in
      if (cell_in o fr c && negb (occupied g c))%bool
      then p :: pick_new o fr det' (c :: g)
      else pick_new o fr det' g
  end.

(** The parameters for which the divisions are defined (float division by zero followed by an
    int conversion, or a cv::Mat of negative size, otherwise). [TrackKLT.cpp 401-406] *)
Definition dims_ok (o : kopts) (fr : frame) : bool :=
  ((0 <? ko_px o) && (0 <? ko_gx o) && (0 <? ko_gy o) && (0 <? fr_w fr) && (0 <? fr_h fr))%Z%bool.
(** TrackKLT.cpp 470 and 598: [std::min(20, (int)(min_feat_percent * num_features))] *)
Definition few (o : kopts) : Z := Z.min 20 (Z.quot (ko_feats o) 2).

(** TrackKLT.cpp 395-528: new points, ids and currid. *)
Definition detect_mono (o : kopts) (fr : frame) (det : list pt) (pts : list pt) (ids : list nat) (cur : nat)
  : outcome (list pt * list nat * nat) :=
  guard (dims_ok o fr) UB
    (do r <- thin o fr (fun _ => false) pts ids [];
     let '(ps, is_, g) := r in
     if (ko_feats o - Z.of_nat (length ps) <? few o)%Z then Ok (ps, is_, cur)
     else
       let new := pick_new o fr det g in
       Ok (ps ++ new, is_ ++ seq (S cur) (length new), (cur + length new)%nat)).

(** TrackKLT.cpp 678-681: (int) of the coordinates inside the image *)
Definition in_img (fr : frame) (p : pt) : bool :=
  let x := to_int (fst p) in let y := to_int (snd p) in
  ((0 <=? x) && (x <? fr_w fr) && (0 <=? y) && (y <? fr_h fr))%Z%bool.

(** TrackKLT.cpp 675-709: new left points with their KLT result in the right image (index [k] onwards). *)
Fixpoint add_stereo (fr0 fr1 : frame) (lr : nat -> pt * bool) (k : nat) (new : list pt)
  (pts0 pts1 : list pt) (ids0 ids1 : list nat) (cur : nat)
  : list pt * list pt * list nat * list nat * nat :=
  match new with
  | [] => (pts0, pts1, ids0, ids1, cur)
  | p :: new' =>
      let '(q, ok) := lr k in
      if (in_img fr0 p && in_img fr1 q && ok)%bool
      then add_stereo fr0 fr1 lr (S k) new' (pts0 ++ [p]) (pts1 ++ [q]) (ids0 ++ [S cur]) (ids1 ++ [S cur]) (S cur)
      else if in_img fr0 p
      then add_stereo fr0 fr1 lr (S k) new' (pts0 ++ [p]) pts1 (ids0 ++ [S cur]) ids1 (S cur)
      else add_stereo fr0 fr1 lr (S k) new' pts0 pts1 ids0 ids1 cur
  end.

(** std::find(l.begin(), l.end(), i) != l.end() [TrackKLT.cpp 314-320] *)
Definition mem (i : nat) (l : list nat) : bool := existsb (Nat.eqb i) l.

(** TrackKLT.cpp 530-827 *)
Definition detect_stereo (o : kopts) (fr0 fr1 : frame) (det0 det1 : list pt) (lr : nat -> pt * bool)
  (pts0 pts1 : list pt) (ids0 ids1 : list nat) (cur : nat)
  : outcome (list pt * list pt * list nat * list nat * nat) :=
  guard (dims_ok o fr0 && dims_ok o fr1)%bool UB
    (do r0 <- thin o fr0 (fun _ => false) pts0 ids0 [];
     let '(p0, i0, g0) := r0 in
     let '(p0', p1', i0', i1', cur') :=
       if (few o <? ko_feats o - Z.of_nat (length p0))%Z
       then add_stereo fr0 fr1 lr 0 (pick_new o fr0 det0 g0) p0 pts1 i0 ids1 cur
       else (p0, pts1, i0, ids1, cur) in
     do r1 <- thin o fr1 (fun i => mem i i0') p1' i1' [];
     let '(q1, j1, g1) := r1 in
     if (few o <? ko_feats o - Z.of_nat (length q1))%Z
     then
       let new := pick_new o fr1 det1 g1 in
       Ok (p0', q1 ++ new, i0', j1 ++ seq (S cur') (length new), (cur' + length new)%nat)
     else Ok (p0', q1, i0', j1, cur')).

(** ** Matching: TrackKLT.cpp 829-886. The per-point result: new position and mask. An empty mask
    is returned exactly for an empty point list. *)
Definition matching (klt : nat -> pt * bool) (pts : list pt) : list (pt * bool) :=
  if (length pts <? 10)%nat then map (fun p => (p, false)) pts
  else map klt (seq 0 (length pts)).

(** TrackKLT.cpp 161-163, 325-327 and 343-345: negative or beyond the image; the left loop of the stereo case
    (308-309) compares with > instead of >=. *)
Definition bad_pt (strict : bool) (fr : frame) (p : pt) : bool :=
  let x := to_int (fst p) in let y := to_int (snd p) in
  (Rltb (fst p) 0 || Rltb (snd p) 0 ||
   (if strict then (fr_w fr <? x) || (fr_h fr <? y) else (fr_w fr <=? x) || (fr_h fr <=? y)))%Z%bool.

(** TrackKLT.cpp 159-173 *)
Fixpoint keep_mono (fr : frame) (m : list (pt * bool)) (ids : list nat) : outcome (list pt * list nat) :=
  match m with
  | [] => Ok ([], [])
  | (p, ok) :: m' =>
      match ids with
      | [] => UB
      | i :: ids' =>
          do r <- keep_mono fr m' ids';
          if (bad_pt false fr p || fr_mask fr (to_int (fst p)) (to_int (snd p)) || negb ok)%bool then Ok r
          else Ok (p :: fst r, i :: snd r)
      end
  end.

(** The update_feature loops TrackKLT.cpp 176-179, 357-361, 362-366. *)
Fixpoint record_all (und : nat -> pt -> pt) (d : db) (t : R) (cam : nat) (pts : list pt) (ids : list nat) : db :=
  match pts, ids with
  | p :: pts', i :: ids' => record_all und (update_feature d i t cam p (und cam p)) t cam pts' ids'
  | _, _ => d
  end.

(** TrackKLT.cpp 117-121: the last frame of a camera *)
Definition set_last (s : ktrk) (cam : nat) (fr : frame) (pts : list pt) (ids : list nat) (cur : nat) (d : db) : ktrk :=
  mkK cur (aset (k_pts s) cam pts) (aset (k_ids s) cam ids) (aset (k_last s) cam fr) d.

(** TrackKLT.cpp 95-200. [und] is CamBase::undistort_cv. *)
Definition feed_monocular (o : kopts) (und : nat -> pt -> pt) (s : ktrk) (t : R) (ci : camimg) : outcome ktrk :=
  let cam := ci_cam ci in let fr := ci_frame ci in
  guard (cam <? ko_cams o)%nat UB
  (match aget (k_pts s) cam with
   | [] =>
       do r <- detect_mono o fr (ci_det ci) [] [] (k_cur s);
       let '(ps, is_, cur) := r in
       Ok (set_last s cam fr ps is_ cur (k_db s))
   | _ :: _ =>
       match alook (k_last s) cam with
       | None => UB
       | Some lf =>
           do r <- detect_mono o lf (ci_det ci) (aget (k_pts s) cam) (aget (k_ids s) cam) (k_cur s);
           let '(ps, is_, cur) := r in
           let m := matching (ci_klt ci) ps in
           match m with
           | [] => Ok (set_last s cam fr [] [] cur (k_db s))
           | _ :: _ =>
               do g <- keep_mono fr m is_;
               Ok (set_last s cam fr (fst g) (snd g) cur (record_all und (k_db s) t cam (fst g) (snd g)))
           end
       end
   end).

(** TrackKLT.cpp 314-320: the first index of an id *)
Fixpoint find_ix (l : list nat) (i : nat) : option nat :=
  match l with
  | [] => None
  | j :: l' => if Nat.eqb i j then Some 0%nat else option_map S (find_ix l' i)
  end.

(** TrackKLT.cpp 306-338: the loop over the left points. *)
Fixpoint keep_left (fr0 fr1 : frame) (m0 m1 : list (pt * bool)) (ids0 ids1 : list nat)
  : outcome (list pt * list nat * list pt * list nat) :=
  match m0 with
  | [] => Ok ([], [], [], [])
  | (p, ok) :: m0' =>
      match ids0 with
      | [] => UB
      | i :: ids0' =>
          do r <- keep_left fr0 fr1 m0' m1 ids0' ids1;
          let '(a, b, c, d) := r in
          if bad_pt true fr0 p then Ok (a, b, c, d)
          else
            match find_ix ids1 i with
            | Some n =>
                match nth_error m1 n with
                | None => UB
                | Some (q, okq) =>
                    if (ok && okq)%bool then
                      if bad_pt false fr1 q then Ok (a, b, c, d) else Ok (p :: a, i :: b, q :: c, i :: d)
                    else if ok then Ok (p :: a, i :: b, c, d) else Ok (a, b, c, d)
                end
            | None => if ok then Ok (p :: a, i :: b, c, d) else Ok (a, b, c, d)
            end
      end
  end.
(** TrackKLT.cpp 341-354: the loop over the right points, appending to the right lists. *)
Fixpoint keep_right (fr1 : frame) (m1 : list (pt * bool)) (ids1 : list nat) (pts : list pt) (ids : list nat)
  : outcome (list pt * list nat) :=
  match m1 with
  | [] => Ok (pts, ids)
  | (q, ok) :: m1' =>
      match ids1 with
      | [] => UB
      | i :: ids1' =>
          if (bad_pt false fr1 q || negb ok || mem i ids)%bool then keep_right fr1 m1' ids1' pts ids
          else keep_right fr1 m1' ids1' (pts ++ [q]) (ids ++ [i])
      end
  end.

(** TrackKLT.cpp 202-393. Both locks on the same camera would be a double lock (UB). *)
Definition feed_stereo (o : kopts) (und : nat -> pt -> pt) (s : ktrk) (t : R) (l r : camimg) : outcome ktrk :=
  let c0 := ci_cam l in let c1 := ci_cam r in
  guard ((c0 <? ko_cams o) && (c1 <? ko_cams o) && negb (c0 =? c1))%nat%bool UB
  (let start fr0 fr1 p0 p1 i0 i1 k :=
     do x <- detect_stereo o fr0 fr1 (ci_det l) (ci_det r) (ci_lr l) p0 p1 i0 i1 (k_cur s); k x in
   match aget (k_pts s) c0, aget (k_pts s) c1 with
   | [], [] =>
       start (ci_frame l) (ci_frame r) [] [] [] [] (fun x =>
         let '(p0, p1, i0, i1, cur) := x in
         Ok (set_last (set_last s c0 (ci_frame l) p0 i0 cur (k_db s)) c1 (ci_frame r) p1 i1 cur (k_db s)))
   | _, _ =>
       match alook (k_last s) c0, alook (k_last s) c1 with
       | Some f0, Some f1 =>
           start f0 f1 (aget (k_pts s) c0) (aget (k_pts s) c1) (aget (k_ids s) c0) (aget (k_ids s) c1) (fun x =>
             let '(p0, p1, i0, i1, cur) := x in
             let m0 := matching (ci_klt l) p0 in
             let m1 := matching (ci_klt r) p1 in
             match m0, m1 with
             | [], [] =>
                 Ok (set_last (set_last s c0 (ci_frame l) [] [] cur (k_db s)) c1 (ci_frame r) [] [] cur (k_db s))
             | _, _ =>
                 do kl <- keep_left (ci_frame l) (ci_frame r) m0 m1 i0 i1;
                 let '(a, b, c, d) := kl in
                 do kr <- keep_right (ci_frame r) m1 i1 c d;
                 let db' := record_all und (record_all und (k_db s) t c0 a b) t c1 (fst kr) (snd kr) in
                 Ok (set_last (set_last s c0 (ci_frame l) a b cur db') c1 (ci_frame r) (fst kr) (snd kr) cur db')
             end)
       | _, _ => UB
       end
   end).

(** TrackKLT.cpp 34-93. The sizes of the message are consistent by construction of [imgs]. *)
Definition feed_new_camera (o : kopts) (und : nat -> pt -> pt) (s : ktrk) (t : R) (imgs : list camimg) : outcome ktrk :=
  match imgs with
  | [] => Exit
  | [ci] => feed_monocular o und s t ci
  | l :: r :: rest =>
      if (ko_stereo o && (length imgs =? 2)%nat)%bool then feed_stereo o und s t l r
      else if negb (ko_stereo o) then ofold (fun s ci => feed_monocular o und s t ci) imgs s
      else Exit
  end.

(** ** TrackSIM.cpp 30-79 *)
Fixpoint sim_record (und : nat -> pt -> pt) (cur : nat) (d : db) (t : R) (cam : nat) (fs : list (nat * pt)) : db :=
  match fs with
  | [] => d
  | (f, p) :: fs' => sim_record und cur (update_feature d (f + cur) t cam p (und cam p)) t cam fs'
  end.
(** one camera of the message; [fr] is the all-zero image of the camera's size [TrackSIM.cpp 30-79] *)
Definition sim_feed1 (und : nat -> pt -> pt) (s : ktrk) (t : R) (fr : frame) (cam : nat) (fs : list (nat * pt)) : ktrk :=
  set_last s cam fr (map snd fs) (map (fun f => fst f + k_cur s)%nat fs) (k_cur s)
    (sim_record und (k_cur s) (k_db s) t cam fs).
(** TrackSIM.cpp 30-79 *)
Fixpoint sim_feed (und : nat -> pt -> pt) (s : ktrk) (t : R) (size : nat -> frame) (l : list (nat * list (nat * pt))) : ktrk :=
  match l with
  | [] => s
  | (cam, fs) :: l' => sim_feed und (sim_feed1 und s t (size cam) cam fs) t size l'
  end.

(** ** TrackAruco.cpp 126-149: ids and measurements of the detected tags ([tags]: tag id and its
    four corners); the detector, downsizing and histogram equalization are not modelled.
    size_t arithmetic does not overflow; reading the mask outside the image is not represented (the
    mask is total; the code has no bounds check on the corners). *)
Definition aruco_id (maxtag tag corner : nat) : nat := (tag + corner * maxtag)%nat.
(** TrackAruco.cpp 126-149 (as above) *)
Fixpoint aruco_corners (maxtag : nat) (fr : frame) (tag n : nat) (cs : list pt) : list (nat * pt) :=
  match cs with
  | [] => []
  | p :: cs' =>
      let rest := aruco_corners maxtag fr tag (S n) cs' in
      if fr_mask fr (to_int (fst p)) (to_int (snd p)) then rest else (aruco_id maxtag tag n, p) :: rest
  end.
(** TrackAruco.cpp 126-149 (as above) *)
Fixpoint aruco_tags (maxtag : nat) (fr : frame) (tags : list (nat * list pt)) : outcome (list (nat * pt)) :=
  match tags with
  | [] => Ok []
  | (tag, cs) :: tags' =>
      if (maxtag <? tag)%nat then aruco_tags maxtag fr tags'
      else
        guard (length cs =? 4)%nat Exit
          (do r <- aruco_tags maxtag fr tags'; Ok (aruco_corners maxtag fr tag 0 cs ++ r))
  end.
(** TrackAruco.cpp 126-149 (as above) *)
Definition aruco_track (o : kopts) (und : nat -> pt -> pt) (s : ktrk) (t : R) (fr : frame) (cam : nat)
  (tags : list (nat * list pt)) : outcome ktrk :=
  guard (cam <? ko_cams o)%nat UB
    (do l <- aruco_tags (ko_aruco o) fr tags;
     Ok (set_last s cam fr (map snd l) (map fst l) (k_cur s)
           (record_all und (k_db s) t cam (map snd l) (map fst l)))).

(** ** TrackBase.cpp 230-247. unordered_map::insert keeps an existing entry. *)
Definition rename_feature (f : feature) (id : nat) : feature :=
  mkF id (f_del f) (f_uvs f) (f_uvn f) (f_ts f) (f_pos f).
(** TrackBase.cpp 230-247 (as above) *)
Definition change_feat_id (s : ktrk) (old new : nat) : ktrk :=
  let d' :=
    match alook (k_db s) old with
    | None => k_db s
    | Some f =>
        let d := aerase (k_db s) old in
        match alook d new with
        | Some _ => d
        | None => d ++ [(new, rename_feature f new)]
        end
    end in
  mkK (k_cur s) (k_pts s)
    (map (fun e => (fst e, map (fun i => if Nat.eqb i old then new else i) (snd e))) (k_ids s))
    (k_last s) d'.
