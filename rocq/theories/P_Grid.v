(** C97: the extraction of corners cell by cell (Grider_GRID.h); C98: where the tracker looks for new points (TrackKLT.cpp 402-494). *)
From Coq Require Import Reals List Arith ZArith Bool Permutation.
From Verif Require Import RBool Outcome DbModel TrackModel GridModel GridSpec GridProofs GridThms.
Import ListNotations.
Open Scope R_scope.

(** C97: the grid that is used is the specified one, no larger than the given one, with room for all features *)
Theorem C97_grid nf gx gy : (0 < nf)%Z -> (0 < gx)%Z -> (0 < gy)%Z ->
  exists gx' gy', regrid nf gx gy = Ok (gx', gy') /\ grid_used nf gx gy gx' gy' /\ (0 < gx' <= gx /\ 0 < gy' <= gy /\ (nf < gx * gy -> nf <= gx' * gy') /\ nf < gx' * gy' * (nf / (gx' * gy') + 1))%Z.
Proof. exact (grid_thm nf gx gy). Qed.
Print Assumptions C97_grid.

(** every valid cell gives its strongest corners that are not masked, and nothing else is returned *)
Theorem C97_cells fr fast srt nf gx gy locs : (0 < nf)%Z -> (0 < gx <= fr_w fr)%Z -> (0 < gy <= fr_h fr)%Z -> fast_ok fast -> sort_ok srt ->
  (forall g, In g locs -> 0 <= fst g /\ 0 <= snd g)%Z ->
  exists gx' gy' parts, grid_used nf gx gy gx' gy' /\ extract fr fast srt nf gx gy locs = Ok (concat parts) /\
    Forall2 (cell_result fr fast (nf / (gx' * gy') + 1) (fr_w fr / gx') (fr_h fr / gy'))%Z locs parts.
Proof. exact (extract_thm fr fast srt nf gx gy locs). Qed.
Print Assumptions C97_cells.

(** the call returns, with the refined positions and the responses in the same order *)
Theorem C97_defined fr fast srt sub nf gx gy locs : (0 < nf)%Z -> (0 < gx <= fr_w fr)%Z -> (0 < gy <= fr_h fr)%Z -> fast_ok fast -> sort_ok srt ->
  (forall l, length (sub l) = length l) -> (forall g, In g locs -> 0 <= fst g /\ 0 <= snd g)%Z ->
  exists l, perform_griding fr fast srt sub nf gx gy locs = Ok l /\
    (locs = [] /\ l = [] \/ exists e, extract fr fast srt nf gx gy locs = Ok e /\ (e = [] /\ l = [] \/ map kp_pt l = sub (map kp_pt e)) /\ map kp_resp l = map kp_resp e).
Proof. exact (griding_defined fr fast srt sub nf gx gy locs). Qed.
Print Assumptions C97_defined.

(** a cell can give nothing though it has a corner that is not masked: stronger masked ones use up its places *)
Theorem C97_quota_refuted : exists o fr fast srt mg d, (ko_gx o * ko_gy o <= ko_feats o)%Z /\ (0 < ko_gx o <= fr_w fr)%Z /\ (0 < ko_gy o <= fr_h fr)%Z /\ (ko_gx o | fr_w fr)%Z /\ (ko_gy o | fr_h fr)%Z /\ fast_ok fast /\ sort_ok srt /\
  (forall u v, mg u v <> 255%Z) /\ In d (corners fast (fr_w fr / ko_gx o) (fr_h fr / ko_gy o) (0, 0)%Z) /\ ~ masked fr (kp_pt d) /\ search o fr fast srt mg [] = Ok [].
Proof. exact quota_refuted. Qed.
Print Assumptions C97_quota_refuted.

(** C98: the cells searched are those with fewer than half of their share of points, and not masked *)
Theorem C98_search o fr fast srt mg ps : (0 < ko_feats o)%Z -> (0 < ko_gx o <= fr_w fr)%Z -> (0 < ko_gy o <= fr_h fr)%Z -> fast_ok fast -> sort_ok srt ->
  exists gx' gy' locs parts, search o fr fast srt mg ps = Ok (concat parts) /\ grid_used (ko_feats o) (ko_gx o) (ko_gy o) gx' gy' /\ NoDup locs /\
    (forall g, In g locs <-> (0 <= fst g < ko_gx o /\ 0 <= snd g < ko_gy o)%Z /\
       ((255 < Z.max 1 ((ko_feats o / (ko_gx o * ko_gy o) + 1) / 2))%Z \/ ~ crowded fr (ko_gx o) (ko_gy o) ps g (Z.max 1 ((ko_feats o / (ko_gx o * ko_gy o) + 1) / 2))) /\ mg (fst g) (snd g) <> 255%Z) /\
    Forall2 (cell_result (mask_updated o fr ps) fast (ko_feats o / (gx' * gy') + 1) (fr_w fr / gx') (fr_h fr / gy'))%Z locs parts.
Proof. exact (search_thm o fr fast srt mg ps). Qed.
Print Assumptions C98_search.

(** the mask of the search is the given one and the squares around the kept points *)
Theorem C98_mask o fr ps q : 0 <= fst q -> 0 <= snd q ->
  masked (mask_updated o fr ps) q <-> masked fr q \/ exists p, In p ps /\ square o fr p q.
Proof. exact (mask_thm o fr ps q). Qed.
Print Assumptions C98_mask.

(** if there is a feature for every cell and the cells divide the image, a new point is in a cell of the tracker that
    has too few points, not masked and not near a kept point *)
Theorem C98_free o fr fast srt mg ps l k : (ko_gx o * ko_gy o <= ko_feats o)%Z -> (0 < ko_gx o <= fr_w fr)%Z -> (0 < ko_gy o <= fr_h fr)%Z -> (ko_gx o | fr_w fr)%Z -> (ko_gy o | fr_h fr)%Z ->
  fast_ok fast -> sort_ok srt -> search o fr fast srt mg ps = Ok l -> In k l ->
  ~ masked fr (kp_pt k) /\ (forall p, In p ps -> ~ square o fr p (kp_pt k)) /\
  exists g, (0 <= fst g < ko_gx o /\ 0 <= snd g < ko_gy o)%Z /\ in_cell fr (ko_gx o) (ko_gy o) g (kp_pt k) /\
    ((255 < Z.max 1 ((ko_feats o / (ko_gx o * ko_gy o) + 1) / 2))%Z \/ ~ crowded fr (ko_gx o) (ko_gy o) ps g (Z.max 1 ((ko_feats o / (ko_gx o * ko_gy o) + 1) / 2))) /\ mg (fst g) (snd g) <> 255%Z.
Proof. exact (free_thm o fr fast srt mg ps l k). Qed.
Print Assumptions C98_free.

(** and a corner in a cell with too few points is found, unless it is masked, near a kept point, or its share of
    others of the cell are as strong *)
Theorem C98_found o fr fast srt mg ps l g : (ko_gx o * ko_gy o <= ko_feats o)%Z -> (0 < ko_gx o <= fr_w fr)%Z -> (0 < ko_gy o <= fr_h fr)%Z ->
  fast_ok fast -> sort_ok srt -> search o fr fast srt mg ps = Ok l -> (0 <= fst g < ko_gx o)%Z -> (0 <= snd g < ko_gy o)%Z -> mg (fst g) (snd g) <> 255%Z ->
  ~ crowded fr (ko_gx o) (ko_gy o) ps g (Z.max 1 ((ko_feats o / (ko_gx o * ko_gy o) + 1) / 2)) ->
  let cs := corners fast (fr_w fr / ko_gx o) (fr_h fr / ko_gy o) g in
  forall d, In d cs -> In d l \/ masked fr (kp_pt d) \/ (exists p, In p ps /\ square o fr p (kp_pt d)) \/
    exists top rest, Permutation cs (top ++ d :: rest) /\ Z.of_nat (length top) = (ko_feats o / (ko_gx o * ko_gy o) + 1)%Z /\ forall t, In t top -> kp_resp d <= kp_resp t.
Proof. exact (found_thm o fr fast srt mg ps l g). Qed.
Print Assumptions C98_found.

(** without a feature for every cell it is not: the cells are chosen in one grid and searched in another *)
Theorem C98_few_refuted : exists o fr fast srt mg g d, (0 < ko_feats o)%Z /\ (0 < ko_gx o <= fr_w fr)%Z /\ (0 < ko_gy o <= fr_h fr)%Z /\ (ko_gx o | fr_w fr)%Z /\ (ko_gy o | fr_h fr)%Z /\ fast_ok fast /\ sort_ok srt /\
  (forall u v, mg u v <> 255%Z) /\ exists ps, ~ crowded fr (ko_gx o) (ko_gy o) ps g 1 /\ In d (corners fast (fr_w fr / ko_gx o) (fr_h fr / ko_gy o) g) /\ ~ masked fr (kp_pt d) /\ (forall p, In p ps -> ~ square o fr p (kp_pt d)) /\ search o fr fast srt mg ps = Ok [].
Proof. exact few_refuted. Qed.
Print Assumptions C98_few_refuted.

(** if the cells do not divide the image, its right and lower rest is never searched *)
Theorem C98_edge o fr fast srt mg ps l k : (ko_gx o * ko_gy o <= ko_feats o)%Z -> (0 < ko_gx o <= fr_w fr)%Z -> (0 < ko_gy o <= fr_h fr)%Z -> fast_ok fast -> sort_ok srt ->
  search o fr fast srt mg ps = Ok l -> In k l ->
  0 <= fst (kp_pt k) < IZR (ko_gx o * (fr_w fr / ko_gx o)) /\ 0 <= snd (kp_pt k) < IZR (ko_gy o * (fr_h fr / ko_gy o)).
Proof. exact (edge_thm o fr fast srt mg ps l k). Qed.
Print Assumptions C98_edge.

(** with no features wanted the tracker still calls the extraction, which divides by zero *)
Theorem C98_zero_refuted : exists o fr fast srt sub mg, dims_ok o fr = true /\ ko_feats o = 0%Z /\ fast_ok fast /\ sort_ok srt /\ (forall l, length (sub l) = length l) /\ detections o fr fast srt sub mg [] = UB.
Proof. exact zero_refuted. Qed.
Print Assumptions C98_zero_refuted.

(** one corner in an empty image is found *)
Example C97_ex : fast_ok (fast_of gex_cs) /\ sort_ok isort.
Proof. split; [apply fast_of_ok|exact isort_ok]. Qed.
Example C98_ex : exists l, search (gex_o 1 1) (mkFrame 100 100 (fun _ _ => false)) (fast_of [mkKP (75, 75) 5]) isort (fun _ _ => 0%Z) [] = Ok l /\ In (mkKP (75, 75) 5) l.
Proof. exact found_ex. Qed.
