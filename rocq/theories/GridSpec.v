(** What C97 and C98 mean. *)
From Coq Require Import Reals List Arith ZArith Permutation Sorted.
From Verif Require Import RBool DbModel TrackModel GridModel.
Import ListNotations.
Open Scope R_scope.

(** FAST answers with points of the region, relative to its corner; std::sort orders by falling response *)
Definition fast_ok (fast : Z -> Z -> Z -> Z -> list kpt) : Prop :=
  forall x y sx sy k, In k (fast x y sx sy) -> 0 <= fst (kp_pt k) < IZR sx /\ 0 <= snd (kp_pt k) < IZR sy.
Definition sort_ok (srt : list kpt -> list kpt) : Prop :=
  forall l, Permutation l (srt l) /\ StronglySorted (fun a b => kp_resp b <= kp_resp a) (srt l).

(** the grid that is used: the given one if there is a feature for every cell, else the smallest of the same ratio
    with a cell for every feature *)
Definition grid_used (nf gx gy gx' gy' : Z) : Prop :=
  (gx * gy <= nf /\ gx' = gx /\ gy' = gy \/
   nf < gx * gy /\ 0 < gy' /\ (gy' - 1) * (gy' - 1) * gx < nf * gy <= gy' * gy' * gx /\ (gx' - 1) * gy < gy' * gx <= gx' * gy)%Z.

(** region of a cell *)
Definition inside (x y sx sy : Z) (p : pt) : Prop := IZR x <= fst p < IZR x + IZR sx /\ IZR y <= snd p < IZR y + IZR sy.
Definition fits (fr : frame) (sx sy : Z) (g : Z * Z) : Prop := (fst g * sx + sx <= fr_w fr /\ snd g * sy + sy <= fr_h fr)%Z.
(** the pixel of a point is masked *)
Definition masked (fr : frame) (p : pt) : Prop := fr_mask fr (Int_part (fst p)) (Int_part (snd p)) = true.
(** the corners FAST finds in a cell, in image coordinates *)
Definition corners (fast : Z -> Z -> Z -> Z -> list kpt) (sx sy : Z) (g : Z * Z) : list kpt :=
  map (fun k => mkKP (fst (kp_pt k) + IZR (fst g * sx), snd (kp_pt k) + IZR (snd g * sy)) (kp_resp k)) (fast (fst g * sx) (snd g * sy) sx sy)%Z.

(** what a cell gives: nothing if it does not fit into the image; else at most n corners of it, none masked, and a
    corner is left out only if it is masked or n others are as strong *)
Definition cell_result (fr : frame) (fast : Z -> Z -> Z -> Z -> list kpt) (n sx sy : Z) (g : Z * Z) (part : list kpt) : Prop :=
  (~ fits fr sx sy g -> part = []) /\
  (fits fr sx sy g ->
   (Z.of_nat (length part) <= n)%Z /\
   (forall k, In k part -> In k (corners fast sx sy g) /\ inside (fst g * sx) (snd g * sy) sx sy (kp_pt k) /\ ~ masked fr (kp_pt k)) /\
   (forall d, In d (corners fast sx sy g) -> In d part \/ masked fr (kp_pt d) \/
      exists top rest, Permutation (corners fast sx sy g) (top ++ d :: rest) /\ Z.of_nat (length top) = n /\ forall t, In t top -> kp_resp d <= kp_resp t)).

(** the cell of the tracker's grid, w/gx by h/gy pixels *)
Definition in_cell (fr : frame) (gx gy : Z) (g : Z * Z) (p : pt) : Prop :=
  IZR (fst g) * (IZR (fr_w fr) / IZR gx) <= fst p < (IZR (fst g) + 1) * (IZR (fr_w fr) / IZR gx) /\
  IZR (snd g) * (IZR (fr_h fr) / IZR gy) <= snd p < (IZR (snd g) + 1) * (IZR (fr_h fr) / IZR gy).
(** at least n of the points are in the cell *)
Definition crowded (fr : frame) (gx gy : Z) (ps : list pt) (g : Z * Z) (n : Z) : Prop :=
  exists qs, NoDup qs /\ (n <= Z.of_nat (length qs))%Z /\ forall i, In i qs -> exists p, nth_error ps i = Some p /\ in_cell fr gx gy g p.
(** the square around a kept point that is blocked, if it is inside of the image *)
Definition square (o : kopts) (fr : frame) (p q : pt) : Prop :=
  let x := to_int (fst p) in let y := to_int (snd p) in let u := to_int (fst q) in let v := to_int (snd q) in
  (0 <= x - ko_px o /\ x + ko_px o < fr_w fr /\ 0 <= y - ko_px o /\ y + ko_px o < fr_h fr /\
   Z.abs (u - x) <= ko_px o /\ Z.abs (v - y) <= ko_px o)%Z.
