(** Properties C45-C47 and C68: feature trackers. *)
From Coq Require Import Reals List Arith ZArith Bool Lia Lra.
From Verif Require Import RBool Outcome DbModel DbSpec TrackModel TrackSpec TrackProofs TrackProofs2 TrackThms TrackEx.
Import ListNotations.
Open Scope R_scope.

(** C45 *)
Theorem C45_ids_unique : forall o P s, treach o P s ->
  (forall cam, length (aget (k_ids s) cam) = length (aget (k_pts s) cam) /\ NoDup (aget (k_ids s) cam)) /\
  (forall id cam, sees s id cam -> (4 * ko_aruco o + 1 < id <= k_cur s)%nat) /\
  (forall id c c', sees s id c -> sees s id c' -> c <> c' -> P c c').
Proof. exact ids_thm. Qed.
Print Assumptions C45_ids_unique.
(** an id that was handed out and is no longer known to a camera never comes back in it; the ids
    of two cameras are disjoint unless the cameras are fed as a stereo pair (previous theorem) *)
Theorem C45_never_reused : forall o P s s' id cam, treach o P s -> tsteps o P s s' ->
  (id <= k_cur s)%nat -> ~ sees s id cam -> ~ sees s' id cam.
Proof. exact never_reused_thm. Qed.
Print Assumptions C45_never_reused.
(** the simulated tracker: one feature per simulated id, outside the ArUco range, holding exactly
    the observations fed for it *)
Theorem C45_simulated_ids : forall o und size msgs,
  let s := sim_run und size msgs (track_new o) in
  (forall f c, track (k_db s) (f + (4 * ko_aruco o + 1)) c = sim_fed und msgs f c) /\
  (forall i c, (i <= 4 * ko_aruco o)%nat -> track (k_db s) i c = []).
Proof. exact sim_thm. Qed.
Print Assumptions C45_simulated_ids.
(** and the tracker remembers, for each camera, the points of its last list under those ids *)
Theorem C45_simulated_last : forall o und size msgs c,
  let s := sim_run und size msgs (track_new o) in
  aget (k_ids s) c = map (fun e => fst e + (4 * ko_aruco o + 1))%nat (sim_last msgs c) /\
  aget (k_pts s) c = map snd (sim_last msgs c).
Proof. exact sim_last_thm. Qed.
Print Assumptions C45_simulated_last.
Example C45_simulated_ex : sim_last [(1, [(0%nat, [(3%nat, (1, 1))]); (1%nat, [(5%nat, (2, 2))])]); (2, [(0%nat, [(4%nat, (3, 3)); (3%nat, (1, 2))])])] 0
  = [(4%nat, (3, 3)); (3%nat, (1, 2))].
Proof. reflexivity. Qed.
Theorem C45_aruco_range : forall o und s t fr cam tags s', aruco_track o und s t fr cam tags = Ok s' ->
  forall i, In i (aget (k_ids s') cam) -> (i <= 4 * ko_aruco o)%nat.
Proof. exact aruco_range_thm. Qed.
Print Assumptions C45_aruco_range.
Theorem C45_aruco_ids_distinct : forall M tag n tag' n', (tag < M)%nat -> (tag' < M)%nat ->
  aruco_id M tag n = aruco_id M tag' n' -> tag = tag' /\ n = n'.
Proof. exact aruco_inj. Qed.
Print Assumptions C45_aruco_ids_distinct.
(** The bound check lets the tag id equal to the maximum pass: its first corner gets the id of the
    second corner of tag 0. *)
Theorem C45_aruco_ids_refuted : exists o und s t fr cam tags s',
  aruco_track o und s t fr cam tags = Ok s' /\ NoDup (map fst tags) /\ ~ NoDup (aget (k_ids s') cam).
Proof.
  set (c := [(1, 1); (2, 1); (2, 2); (1, 2)] : list pt).
  exists (mkKO 30 2 true 2 1 1 10), (fun _ p => p), (track_new (mkKO 30 2 true 2 1 1 10)), 1, ex_f, 0%nat, [(0%nat, c); (2%nat, c)].
  eexists. split; [reflexivity|]. split; [cbn; repeat constructor; cbn; intuition lia|].
  cbn. intros N. inversion N as [|? ? _ N1]; subst. inversion N1 as [|? ? X _]; subst. apply X. cbn. auto.
Qed.
Print Assumptions C45_aruco_ids_refuted.

Example C45_ex : forall und, treach ex_o (fun a b => a <> b) (ex_s2 und) /\ sees (ex_s2 und) 12 0 /\ sees (ex_s2 und) 12 1 /\ ~ sees (ex_s2 und) 30 0.
Proof.
  intros und. assert (T : treach ex_o (fun a b => a <> b) (ex_s2 und)) by (apply ex_reach2; lia).
  split; [exact T|]. split; [left; cbn; tauto|]. split; [left; cbn; tauto|].
  intros X. apply (proj1 (proj2 (C45_ids_unique _ _ _ T))) in X. cbn in X. lia.
Qed.

(** C46 *)
Theorem C46_rename_keeps_track : forall s old new, db_ok (k_db s) -> old <> new -> alook (k_db s) new = None ->
  let s' := change_feat_id s old new in
  db_ok (k_db s') /\
  alook (k_db s') old = None /\
  (forall cam, track (k_db s') new cam = track (k_db s) old cam) /\
  (forall f, alook (k_db s) old = Some f -> exists f', alook (k_db s') new = Some f' /\ f_id f' = new /\ f_del f' = f_del f /\ f_pos f' = f_pos f) /\
  (forall id, id <> old -> id <> new -> alook (k_db s') id = alook (k_db s) id) /\
  k_pts s' = k_pts s /\
  (forall cam k, nth_error (aget (k_ids s') cam) k =
     option_map (fun i => if Nat.eqb i old then new else i) (nth_error (aget (k_ids s) cam) k)).
Proof. exact change_id_thm. Qed.
Print Assumptions C46_rename_keeps_track.
(** with the new id in use the measurements of the old feature are lost *)
Theorem C46_rename_collision_refuted : exists s old new cam, db_ok (k_db s) /\ old <> new /\
  track (k_db s) old cam <> [] /\
  forall id, track (k_db (change_feat_id s old new)) id cam = if Nat.eqb id new then track (k_db s) new cam else [].
Proof.
  set (d := update_feature (update_feature [] 7 1 0 (1, 1) (1, 1)) 8 1 0 (2, 2) (2, 2)).
  assert (OK : db_ok d).
  { apply DbProofs.update_feature_spec. apply DbProofs.update_feature_spec. split; [constructor|intros ? ? []]. }
  exists (mkK 9 [] [] [] d), 7%nat, 8%nat, 0%nat. split; [exact OK|]. split; [lia|]. split; [discriminate|].
  intros id. unfold track, d. cbn. destruct id as [|[|[|[|[|[|[|[|[|id]]]]]]]]]; reflexivity.
Qed.
Print Assumptions C46_rename_collision_refuted.
Example C46_ex : let d := update_feature [] 7 1 0 (1, 1) (1, 1) in
  db_ok d /\ (7 <> 8)%nat /\ alook d 8%nat = None /\ track d 7 0 = [(1, (1, 1), (1, 1))].
Proof.
  split; [apply DbProofs.update_feature_spec; split; [constructor|intros ? ? []]|]. split; [lia|]. split; reflexivity.
Qed.

(** C47 *)
Theorem C47_thinning : forall o fr det ids pts cur, dims_ok o fr = true -> length ids = length pts ->
  exists l new, detect_mono o fr det pts ids cur =
      Ok (map snd l ++ new, map fst l ++ seq (S cur) (length new), (cur + length new)%nat) /\
    subseq l (combine ids pts) /\
    (forall x, In x l -> stays o fr (snd x)) /\
    (forall x, In x (combine ids pts) -> stays o fr (snd x) -> exists y, In y l /\ same_cell o (snd y) (snd x)) /\
    one_per_cell o (map snd l) /\
    (forall p, In p new -> In p det) /\
    ((forall p, In p det -> 0 <= fst p /\ 0 <= snd p) -> one_per_cell o (map snd l ++ new)) /\
    (new = [] \/ (Z.min 20 (Z.quot (ko_feats o) 2) <= ko_feats o - Z.of_nat (length l))%Z).
Proof. exact detect_thm. Qed.
Print Assumptions C47_thinning.
(** being in different cells does not give the minimum distance *)
Theorem C47_min_distance_refuted : exists o fr pts ids ps is_ cur p q, dims_ok o fr = true /\
  detect_mono o fr [] pts ids 20 = Ok (ps, is_, cur) /\ In p ps /\ In q ps /\ p <> q /\
  (fst p - fst q)^2 + (snd p - snd q)^2 < IZR (ko_px o)^2.
Proof.
  exists ex_o, ex_f, (map zp [(39, 50); (40, 50)]%Z), [5%nat; 6%nat].
  assert (T : detect_mono ex_o ex_f [] (map zp [(39, 50); (40, 50)]%Z) [5%nat; 6%nat] 20 = Ok (map zp [(39, 50); (40, 50)]%Z ++ [], [5%nat; 6%nat] ++ [], 20%nat)).
  { unfold detect_mono. rewrite ex_dims. cbn [guard]. rewrite thin_all.
    - cbn [obind]. change (length (map zp [(39, 50); (40, 50)]%Z)) with 2%nat. change (ko_feats ex_o - Z.of_nat 2 <? few ex_o)%Z with false. reflexivity.
    - reflexivity.
    - intros p I. apply passes_stays; [exact ex_dims|]. apply in_map_iff in I. destruct I as (x & <- & I).
      apply stays_zp; [exact ex_dims|]. cbn in I. destruct I as [<-|[<-|[]]]; reflexivity.
    - right. split; [|intros p _ []]. cbn [map]. rewrite !cell_zp by (cbn; lia). cbn [fst snd ko_px ex_o].
      change (39 / 10)%Z with 3%Z. change (40 / 10)%Z with 4%Z. repeat constructor; cbn; intros H; intuition discriminate. }
  do 3 eexists. exists (zp (39, 50)%Z), (zp (40, 50)%Z). split; [exact ex_dims|]. split; [exact T|].
  split; [cbn; auto|]. split; [cbn; auto|]. split; [intros E; apply (f_equal fst) in E; cbn in E; lra|].
  unfold zp. cbn [fst snd ko_px ex_o]. lra.
Qed.
Print Assumptions C47_min_distance_refuted.
Example C47_ex : dims_ok ex_o ex_f = true /\ length ex_ids = length (map zp (ex_row 50)) /\
  (forall p, In p (map zp (ex_row 50)) -> stays ex_o ex_f p).
Proof.
  split; [reflexivity|]. split; [reflexivity|]. intros p I. apply passes_stays; [exact ex_dims|]. apply (ex_passes 50); [lia|auto].
Qed.

(** C68 *)
Theorem C68_frame_recorded : forall o P und s t ci s', treach o P s -> feed_monocular o und s t ci = Ok s' ->
  let cam := ci_cam ci in
  (forall c, c <> cam -> tracked s' c = tracked s c) /\
  (aget (k_pts s) cam = [] -> k_db s' = k_db s) /\
  (aget (k_pts s) cam <> [] ->
    exists lf ps is_, alook (k_last s) cam = Some lf /\
      detect_mono o lf (ci_det ci) (aget (k_pts s) cam) (aget (k_ids s) cam) (k_cur s) = Ok (ps, is_, k_cur s') /\
      (forall i p, In (i, p) (tracked s' cam) <->
         (10 <= length ps)%nat /\ inside (ci_frame ci) p /\ fr_mask (ci_frame ci) (Int_part (fst p)) (Int_part (snd p)) = false /\
         exists k, nth_error is_ k = Some i /\ ci_klt ci k = (p, true)) /\
      (forall i p, In (i, p) (tracked s' cam) -> track (k_db s') i cam = track (k_db s) i cam ++ [(t, p, und cam p)])) /\
  (forall i c, c <> cam \/ ~ In i (aget (k_ids s') cam) -> track (k_db s') i c = track (k_db s) i c).
Proof. exact frame_thm. Qed.
Print Assumptions C68_frame_recorded.
Theorem C68_stereo_frame_recorded : forall o P und s t l r s', treach o P s -> feed_stereo o und s t l r = Ok s' ->
  aget (k_pts s) (ci_cam l) <> [] -> aget (k_pts s) (ci_cam r) <> [] ->
  forall cam, 
    (cam <> ci_cam l -> cam <> ci_cam r -> tracked s' cam = tracked s cam /\ forall i, track (k_db s') i cam = track (k_db s) i cam) /\
    (cam = ci_cam l \/ cam = ci_cam r ->
      (forall i p, In (i, p) (tracked s' cam) -> track (k_db s') i cam = track (k_db s) i cam ++ [(t, p, und cam p)]) /\
      (forall i, ~ In i (aget (k_ids s') cam) -> track (k_db s') i cam = track (k_db s) i cam)).
Proof. exact frame_stereo_thm. Qed.
Print Assumptions C68_stereo_frame_recorded.
(** In stereo mode the recorded points need not lie in the image (left loop: > for >=) nor outside
    the mask (no mask check at all). *)
Theorem C68_stereo_inside_refuted : exists o P und s t l r s' i p i' p', treach o P s /\ feed_stereo o und s t l r = Ok s' /\
  In (i, p) (tracked s' (ci_cam l)) /\ ~ inside (ci_frame l) p /\
  In (i', p') (tracked s' (ci_cam l)) /\ inside (ci_frame l) p' /\ fr_mask (ci_frame l) (Int_part (fst p')) (Int_part (snd p')) = true.
Proof.
  exists ex_o, (fun _ _ => True), (fun _ p => p), ex_s1, 2, ex_l2, ex_r2, (ex_s2 (fun _ p => p)), 10%nat, (zp (ex_q 0)), 11%nat, (zp (ex_q 1)).
  split; [apply ex_reach1; auto|]. split; [exact (ex_run2 (fun _ p => p))|]. split; [left; reflexivity|].
  split; [unfold inside, zp, ex_q; cbn [fst snd ci_frame ex_l2 ex_f2 fr_w]; intros [[_ H] _]; apply lt_IZR in H; lia|].
  split; [right; left; reflexivity|]. split; [|reflexivity].
  unfold inside, zp, ex_q. cbn [fst snd ci_frame ex_l2 ex_f2 fr_w fr_h]. change (300 - 20 * Z.of_nat 1)%Z with 280%Z. lra.
Qed.
Print Assumptions C68_stereo_inside_refuted.
Example C68_ex : exists s', treach ex_o (fun a b => a <> b) ex_s1 /\ aget (k_pts ex_s1) 0 <> [] /\
  feed_stereo ex_o (fun _ p => p) ex_s1 2 ex_l2 ex_r2 = Ok s' /\ tracked s' 0 <> [].
Proof.
  exists (ex_s2 (fun _ p => p)). split; [apply ex_reach1; lia|]. split; [discriminate|]. split; [exact (ex_run2 (fun _ p => p))|discriminate].
Qed.
Example C68_mono_ex : exists s', treach ex_o (fun a b => a <> b) ex_s1 /\ aget (k_pts ex_s1) (ci_cam ex_l2) <> [] /\
  feed_monocular ex_o (fun _ p => p) ex_s1 2 ex_l2 = Ok s'.
Proof.
  destruct (C47_thinning ex_o ex_f [] ex_ids (map zp (ex_row 50)) 19 eq_refl eq_refl) as (l & new & E & _).
  set (ps := map snd l ++ new) in *. set (is_ := map fst l ++ seq 20 (length new)) in *.
  assert (L : length is_ = length (matching (ci_klt ex_l2) ps)).
  { unfold is_, ps. rewrite matching_length, !app_length, !map_length, seq_length. auto. }
  destruct (keep_mono_spec ex_f2 (matching (ci_klt ex_l2) ps) is_ L) as (k & K & _).
  assert (F : exists s', feed_monocular ex_o (fun _ p => p) ex_s1 2 ex_l2 = Ok s').
  { unfold feed_monocular. change (ci_cam ex_l2 <? ko_cams ex_o)%nat with true. cbn [guard].
    change (alook (k_last ex_s1) (ci_cam ex_l2)) with (Some ex_f). change (aget (k_pts ex_s1) (ci_cam ex_l2)) with (map zp (ex_row 50)).
    change (aget (k_ids ex_s1) (ci_cam ex_l2)) with ex_ids. change (ci_det ex_l2) with (@nil pt). change (k_cur ex_s1) with 19%nat.
    assert (PL : map zp (ex_row 50) <> []) by discriminate. clearbody ps is_.
    destruct (map zp (ex_row 50)) as [|p pl]; [congruence|]. rewrite E. cbn [obind]. change (ci_frame ex_l2) with ex_f2. rewrite K. cbn [obind].
    destruct (matching (ci_klt ex_l2) ps); eauto. }
  destruct F as [s' F]. exists s'. split; [apply ex_reach1; lia|]. split; [discriminate|exact F].
Qed.
