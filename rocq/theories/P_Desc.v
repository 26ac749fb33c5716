(** C99: the descriptor based tracker. *)
From Coq Require Import Reals List Arith ZArith Bool Lia.
From Verif Require Import Outcome DbModel DbSpec TrackModel TrackSpec TrackEx DescModel DescSpec DescProofs DescThms DescEx.
Import ListNotations.
Open Scope R_scope.

(** The matches between two sets of points: one to one; among the pairs that are each other's clearly
    nearest neighbour, those the RANSAC mask approves, and none when there are fewer than ten. *)
Theorem C99_match D ratio (v : vision D) p0 p1 c0 c1 ms : knn_ok v ->
  robust_match ratio v p0 p1 c0 c1 = Ok ms ->
  NoDup (map dm_q ms) /\ NoDup (map dm_t ms) /\
  exists good pr,
    (forall i j, matched good i j <-> agree ratio v p0 p1 i j) /\ NoDup (map dm_q good) /\ length pr = length good /\
    (forall k m, nth_error good k = Some m -> exists a b, nth_error p0 (dm_q m) = Some a /\ nth_error p1 (dm_t m) = Some b /\
       nth_error pr k = Some (fst a, fst b)) /\
    ((length good < 10)%nat -> ms = []) /\
    ((10 <= length good)%nat -> forall i j, matched ms i j <->
       exists k m, nth_error good k = Some m /\ dm_q m = i /\ dm_t m = j /\ nth_error (v_rsc v c0 c1 pr) k = Some true).
Proof. exact (match_spec ratio v p0 p1 c0 c1 ms). Qed.
Print Assumptions C99_match.

(** Detection: extracted points, at most one per cell, inside the image, and none is left out whose
    cell is inside and empty; fresh ids. *)
Theorem C99_detect D o (im : dimg D) cur r : desc_mono o im cur = Ok r ->
  let new := fst (fst r) in
  subseq new (di_ext im) /\ one_per_cell o (map fst new) /\ (forall e, In e new -> in_frame (di_frame im) (fst e)) /\
  snd (fst r) = seq (S cur) (length new) /\ snd r = (cur + length new)%nat.
Proof. exact (detect_spec o im cur r). Qed.
Print Assumptions C99_detect.
Theorem C99_detect_all D o fr (ext : list (pt * D)) e : In e ext ->
  cell_in o fr (cell o (fst e)) = true -> in_img fr (fst e) = true ->
  exists e', In e' (pick_desc o fr ext []) /\ cell o (fst e') = cell o (fst e).
Proof. intros H A B. destruct (proj2 (proj2 (proj2 (pick_desc_spec o fr ext []))) e H A B) as [[]|X]; exact X. Qed.
Print Assumptions C99_detect_all.

(** Over all runs, whatever the images contain: per camera as many ids as points, all different, above
    the ids of the tags and at most currid; observations only under such ids; cameras never sent
    together to a stereo tracker share no id. *)
Theorem C99_ids D o ratio P (s : dtrk D) : dreach o ratio P s ->
  (forall cam, length (aget (d_ids s) cam) = length (aget (d_pts s) cam) /\ NoDup (aget (d_ids s) cam)) /\
  (forall id cam, dsees s id cam -> (4 * ko_aruco o + 1 < id <= d_cur s)%nat) /\
  (forall id c c', dsees s id c -> dsees s id c' -> c <> c' -> P c c').
Proof. intros H. destruct (dreach_inv o ratio P s H) as ((_ & A & B) & _ & C). exact (conj A (conj B C)). Qed.
Print Assumptions C99_ids.

(** An image of one camera. *)
Theorem C99_mono D o ratio P (v : vision D) s t im s' : dreach o ratio P s -> knn_ok v ->
  desc_feed o ratio v s t [im] = Ok s' -> mono_res o ratio v s s' t im.
Proof. intros H K. exact (feed_mono_res o ratio v s t im s' (proj1 (dreach_inv o ratio P s H)) K). Qed.
Print Assumptions C99_mono.

(** A stereo pair. *)
Theorem C99_stereo D o ratio P (v : vision D) s t l r s' : dreach o ratio P s -> knn_ok v -> ko_stereo o = true ->
  desc_feed o ratio v s t [l; r] = Ok s' -> stereo_res o ratio v s s' t l r.
Proof. intros H K B. unfold desc_feed. rewrite B. exact (feed_stereo_res o ratio v s t l r s' (proj1 (dreach_inv o ratio P s H)) K). Qed.
Print Assumptions C99_stereo.

(** When OpenCV answers as assumed, an image of one camera never fails, and a stereo pair fails exactly
    if both cameras have points but not equally many. After a stereo pair the next pair of the same
    cameras does not fail. *)
Theorem C99_defined D o ratio P (v : vision D) s t : dreach o ratio P s -> knn_ok v -> rsc_ok v ->
  (forall im, (di_cam im < ko_cams o)%nat -> px_ok o (di_frame im) = true -> exists s', desc_feed o ratio v s t [im] = Ok s') /\
  (ko_stereo o = true -> forall l r, (di_cam l < ko_cams o)%nat -> (di_cam r < ko_cams o)%nat -> di_cam l <> di_cam r ->
     px_ok o (di_frame l) = true -> px_ok o (di_frame r) = true ->
     ((exists s', desc_feed o ratio v s t [l; r] = Ok s') <->
      (aget (d_pts s) (di_cam l) = [] \/ aget (d_pts s) (di_cam r) = [] \/
       length (aget (d_pts s) (di_cam l)) = length (aget (d_pts s) (di_cam r))))).
Proof.
  intros H K RS. pose proof (proj1 (dreach_inv o ratio P s H)) as W. split; [intros im; exact (mono_defined o ratio v s t im W K RS)|].
  intros B l r. unfold desc_feed. rewrite B. exact (stereo_defined o ratio v s t l r W K RS).
Qed.
Print Assumptions C99_defined.
(** An empty message, or more than two images with stereo on, stops the program. *)
Theorem C99_exit D o ratio (v : vision D) s t imgs : imgs = [] \/ (ko_stereo o = true /\ (2 < length imgs)%nat) -> desc_feed o ratio v s t imgs = Exit.
Proof.
  intros [->|[B L]]; [reflexivity|]. destruct imgs as [|a [|b [|c r]]]; cbn in L; try lia. unfold desc_feed. rewrite B. reflexivity.
Qed.
Print Assumptions C99_exit.
Theorem C99_pairs D o ratio P (v v' : vision D) s t t' l r l' r' s' : dreach o ratio P s -> P (di_cam l) (di_cam r) -> P (di_cam r) (di_cam l) ->
  knn_ok v -> knn_ok v' -> rsc_ok v' -> ko_stereo o = true -> desc_feed o ratio v s t [l; r] = Ok s' ->
  di_cam l' = di_cam l -> di_cam r' = di_cam r -> (di_cam l < ko_cams o)%nat -> (di_cam r < ko_cams o)%nat ->
  px_ok o (di_frame l') = true -> px_ok o (di_frame r') = true -> exists s'', desc_feed o ratio v' s' t' [l'; r'] = Ok s''.
Proof.
  intros H P1 P2 K K' RS B E EL ER CL CR PL PR. pose proof (C99_stereo D o ratio P v s t l r s' H K B E) as M.
  assert (H' : dreach o ratio P s').
  { eapply dr_step; [exact H|]. apply (ds_feed o ratio P s v t [l; r] s' K); [|exact E]. intros _ a b Q. injection Q as <- <-. auto. }
  apply (proj2 (C99_defined D o ratio P v' s' t' H' K' RS) B); rewrite ?EL, ?ER; auto; [exact (sr_cams _ _ _ _ _ _ _ _ M)|].
  right. right. rewrite <- (sr_len0 _ _ _ _ _ _ _ _ M). exact (sr_len1 _ _ _ _ _ _ _ _ M).
Qed.
Print Assumptions C99_pairs.

(** Not so: with a single image in between, the next pair can run into the failing assertion. *)
Theorem C99_mixed_refuted : exists (o : kopts) ratio (v : vision nat) s t l r,
  knn_ok v /\ rsc_ok v /\ dreach o ratio (fun _ _ => True) s /\ ko_stereo o = true /\
  (di_cam l < ko_cams o)%nat /\ (di_cam r < ko_cams o)%nat /\ di_cam l <> di_cam r /\ desc_feed o ratio v s t [l; r] = UB.
Proof.
  destruct dx_mixed as (s & H & E). exists ex_o, 0.7, ev, s, 2, dx_l, dx_r.
  exact (conj ev_knn_ok (conj ev_rsc_ok (conj H (conj eq_refl (conj (le_n_S 0 1 (le_S 0 0 (le_n 0))) (conj (le_n 2) (conj (O_S 0) E))))))).
Qed.
Print Assumptions C99_mixed_refuted.

(** Not so: a stereo pair keeps the points apart. *)
Theorem C99_spacing_refuted : exists (o : kopts) ratio (v : vision nat) t l r s,
  knn_ok v /\ rsc_ok v /\ desc_feed o ratio v (desc_new nat o) t [l; r] = Ok s /\ ~ one_per_cell o (map fst (aget (d_pts s) (di_cam l))).
Proof.
  destruct (dx_crowded 0) as (s & E & _ & N). exists ex_o, 0.7, ev, 0, dx_l2, dx_r2, s. exact (conj ev_knn_ok (conj ev_rsc_ok (conj E N))).
Qed.
Print Assumptions C99_spacing_refuted.

(** Not so: every matched pair of points, each inside the cells of its image, is tracked. *)
Theorem C99_size_refuted : exists (o : kopts) ratio (v : vision nat) t l r s ms,
  knn_ok v /\ rsc_ok v /\ robust_match ratio v (di_ext l) (di_ext r) (di_cam l) (di_cam r) = Ok ms /\ length ms = 12%nat /\
  (forall e, In e (di_ext r) -> cell_in o (di_frame r) (cell o (fst e)) = true /\ in_frame (di_frame r) (fst e)) /\
  desc_feed o ratio v (desc_new nat o) t [l; r] = Ok s /\ aget (d_pts s) (di_cam l) = [] /\ aget (d_pts s) (di_cam r) = [].
Proof.
  destruct (dx_larger 0) as (s & ms & A & B & C & E & F & G). exists ex_o, 0.7, ev, 0, dx_l, dx_r3, s, ms.
  exact (conj ev_knn_ok (conj ev_rsc_ok (conj A (conj B (conj C (conj E (conj F G))))))).
Qed.
Print Assumptions C99_size_refuted.

(** Not so: every tracked point has an observation in the database. *)
Theorem C99_first_refuted : exists (o : kopts) ratio (s : dtrk nat),
  dreach o ratio (fun _ _ => True) s /\ length (aget (d_pts s) 0) = 12%nat /\ forall id cam, track (d_db s) id cam = [].
Proof. exists ex_o, 0.7, dx_s1. exact (conj dx_reach1 (conj eq_refl (fun id cam => eq_refl))). Qed.
Print Assumptions C99_first_refuted.

(** A run of two pairs: all twelve points keep their ids, and both pixels of the third are recorded. *)
Example C99_ex : knn_ok ev /\ rsc_ok ev /\ dreach ex_o 0.7 (fun _ _ => True) dx_s1 /\
  exists s, desc_feed ex_o 0.7 ev dx_s1 1 [dx_l; dx_r] = Ok s /\ aget (d_ids s) 0 = seq 10 12 /\ aget (d_ids s) 1 = seq 10 12 /\
    track (d_db s) 12 0 = [(1, zp (45, 55)%Z, zp (45, 55)%Z)] /\ track (d_db s) 12 1 = [(1, zp (55, 55)%Z, zp (55, 55)%Z)].
Proof.
  split; [exact ev_knn_ok|]. split; [exact ev_rsc_ok|]. split; [exact dx_reach1|]. eexists. split; [exact (dx_second 1)|].
  split; [reflexivity|]. split; [reflexivity|]. split; reflexivity.
Qed.
