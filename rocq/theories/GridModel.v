(** Model of Grider_GRID::perform_griding, ov_core/src/track/Grider_GRID.h 74-178, and of its call in
    TrackKLT::perform_detection_monocular, TrackKLT.cpp 402-494.

    Simplifications: as in TrackModel.v; a keypoint is its position and its response; the parallel loop over the cells is
    executed cell by cell (each cell writes its own list). The answers of OpenCV are arguments: the FAST corners of a
    region [fast], std::sort by response [srt], cv::cornerSubPix [sub] and the mask resized to the grid [mg]. *)
From Coq Require Import Reals List Arith ZArith Bool.
From Verif Require Import RBool Outcome DbModel TrackModel.
Import ListNotations.
Open Scope R_scope.

(** cv::KeyPoint: pt and response, Grider_FAST.h 57 *)
Record kpt := mkKP { kp_pt : pt; kp_resp : R }.
(** std::ceil, Grider_GRID.h 91-92 *)
Definition ceilZ (x : R) : Z := (- Int_part (- x))%Z.
(** Grider_GRID.h 89-93; the square root of a negative number or a division by zero, followed by the conversion to
    int, is UB *)
Definition regrid (nf gx gy : Z) : outcome (Z * Z) :=
  if (nf <? gx * gy)%Z then
    guard (negb (gy =? 0)%Z && negb (gx =? 0)%Z) UB
      (let ratio := IZR gx / IZR gy in
       guard (Rleb 0 (IZR nf / ratio)) UB
         (let gy' := ceilZ (sqrt (IZR nf / ratio)) in Ok (ceilZ (IZR gy' * ratio), gy')))
  else Ok (gx, gy).
(** Grider_GRID.h 94, TrackKLT.cpp 483 *)
Definition per_cell (nf gx gy : Z) : outcome Z :=
  guard (negb (gx * gy =? 0)%Z) UB (Ok (to_int (IZR nf / IZR (gx * gy)) + 1)%Z).
(** Grider_GRID.h 131-146: [x], [y] is the corner of the region *)
Fixpoint keep_pts (fr : frame) (x y : Z) (l : list kpt) : outcome (list kpt) :=
  match l with
  | [] => Ok []
  | k :: r =>
      let p := (fst (kp_pt k) + IZR x, snd (kp_pt k) + IZR y) in
      let u := to_int (fst p) in let v := to_int (snd p) in
      if ((u <? 0) || (fr_w fr <? u) || (v <? 0) || (fr_h fr <? v))%Z%bool then keep_pts fr x y r
      else
        (* cv::Mat::at outside of the mask *)
        guard ((u <? fr_w fr) && (v <? fr_h fr))%Z UB
          (if fr_mask fr u v then keep_pts fr x y r
           else do s <- keep_pts fr x y r; Ok (mkKP p (kp_resp k) :: s))
  end.
(** Grider_GRID.h 111-147: one valid cell. A region that begins outside of the image throws. *)
Definition cell_pts (fr : frame) (fast : Z -> Z -> Z -> Z -> list kpt) (srt : list kpt -> list kpt) (nfg sx sy : Z) (g : Z * Z)
  : outcome (list kpt) :=
  let x := (fst g * sx)%Z in let y := (snd g * sy)%Z in
  if ((fr_w fr <? x + sx) || (fr_h fr <? y + sy))%Z%bool then Ok []
  else guard ((0 <=? x) && (0 <=? y))%Z UB (keep_pts fr x y (firstn (Z.to_nat nfg) (srt (fast x y sx sy)))).
(** Grider_GRID.h 107-153: the lists of the cells one after the other *)
Fixpoint all_cells (fr : frame) (fast : Z -> Z -> Z -> Z -> list kpt) (srt : list kpt -> list kpt) (nfg sx sy : Z) (locs : list (Z * Z))
  : outcome (list kpt) :=
  match locs with
  | [] => Ok []
  | g :: r => do a <- cell_pts fr fast srt nfg sx sy g; do b <- all_cells fr fast srt nfg sx sy r; Ok (a ++ b)
  end.
(** Grider_GRID.h 89-153: the points before the refinement; failed assertions (95-97, 104-105) are UB *)
Definition extract (fr : frame) (fast : Z -> Z -> Z -> Z -> list kpt) (srt : list kpt -> list kpt) (nf gx gy : Z) (locs : list (Z * Z))
  : outcome (list kpt) :=
  do g <- regrid nf gx gy;
  let '(gx', gy') := g in
  do nfg <- per_cell nf gx' gy';
  guard ((0 <? gx') && (0 <? gy') && (0 <? nfg))%Z UB
    (let sx := Z.quot (fr_w fr) gx' in let sy := Z.quot (fr_h fr) gy' in
     guard ((0 <? sx) && (0 <? sy))%Z UB (all_cells fr fast srt nfg sx sy locs)).
(** Grider_GRID.h 172-177: the refined positions are written back by index *)
Fixpoint write_back (ps : list kpt) (qs : list pt) : outcome (list kpt) :=
  match ps, qs with
  | [], _ => Ok []
  | k :: ps', q :: qs' => do r <- write_back ps' qs'; Ok (mkKP q (kp_resp k) :: r)
  | _ :: _, [] => UB
  end.
(** Grider_GRID.h 74-178; the callers pass an empty list of points *)
Definition perform_griding (fr : frame) (fast : Z -> Z -> Z -> Z -> list kpt) (srt : list kpt -> list kpt) (sub : list pt -> list pt)
  (nf gx gy : Z) (locs : list (Z * Z)) : outcome (list kpt) :=
  match locs with
  | [] => Ok []
  | _ => do l <- extract fr fast srt nf gx gy locs;
         match l with [] => Ok [] | _ => write_back l (sub (map kp_pt l)) end
  end.

(** TrackKLT.cpp 431-432: the cell of the extraction grid a point is in *)
Definition grid_cell (o : kopts) (fr : frame) (p : pt) : Z * Z :=
  (Int_part (fst p / (IZR (fr_w fr) / IZR (ko_gx o))), Int_part (snd p / (IZR (fr_h fr) / IZR (ko_gy o)))).
(** TrackKLT.cpp 407, 453-455: the counter of a cell, a byte that stays at 255 *)
Definition grid_count (o : kopts) (fr : frame) (ps : list pt) (c : Z * Z) : Z :=
  Z.min 255 (Z.of_nat (length (filter (fun p => cell_eqb c (grid_cell o fr p)) ps))).
(** TrackKLT.cpp 456-461: the mask with a filled square around every kept point whose square is inside of the image *)
Definition mask_updated (o : kopts) (fr : frame) (ps : list pt) : frame :=
  mkFrame (fr_w fr) (fr_h fr) (fun u v =>
    fr_mask fr u v || existsb (fun p =>
      let x := to_int (fst p) in let y := to_int (snd p) in
      ((0 <=? x - ko_px o) && (x + ko_px o <? fr_w fr) && (0 <=? y - ko_px o) && (y + ko_px o <? fr_h fr) &&
       (x - ko_px o <=? u) && (u <=? x + ko_px o) && (y - ko_px o <=? v) && (v <=? y + ko_px o))%Z%bool) ps).
(** 0, 1, ..., n - 1 as loop indices, TrackKLT.cpp 486-487 *)
Definition upto (n : Z) : list Z := map Z.of_nat (seq 0 (Z.to_nat n)).
(** TrackKLT.cpp 483-492; [mg x y] is the resized mask *)
Definition valid_locs (o : kopts) (fr : frame) (mg : Z -> Z -> Z) (ps : list pt) : outcome (list (Z * Z)) :=
  do nfg <- per_cell (ko_feats o) (ko_gx o) (ko_gy o);
  let req := Z.max 1 (to_int (1 / 2 * IZR nfg)) in
  Ok (flat_map (fun x => flat_map (fun y =>
        if ((grid_count o fr ps (x, y) <? req) && negb (mg x y =? 255))%Z%bool then [(x, y)] else []) (upto (ko_gy o))) (upto (ko_gx o))).
(** TrackKLT.cpp 478-494: the new points before the refinement, [ps] being the kept ones *)
Definition search (o : kopts) (fr : frame) (fast : Z -> Z -> Z -> Z -> list kpt) (srt : list kpt -> list kpt) (mg : Z -> Z -> Z) (ps : list pt)
  : outcome (list kpt) :=
  do locs <- valid_locs o fr mg ps;
  match locs with [] => Ok [] | _ => extract (mask_updated o fr ps) fast srt (ko_feats o) (ko_gx o) (ko_gy o) locs end.
(** TrackKLT.cpp 478-494: what perform_griding returns *)
Definition detections (o : kopts) (fr : frame) (fast : Z -> Z -> Z -> Z -> list kpt) (srt : list kpt -> list kpt) (sub : list pt -> list pt)
  (mg : Z -> Z -> Z) (ps : list pt) : outcome (list kpt) :=
  do locs <- valid_locs o fr mg ps;
  perform_griding (mask_updated o fr ps) fast srt sub (ko_feats o) (ko_gx o) (ko_gy o) locs.
