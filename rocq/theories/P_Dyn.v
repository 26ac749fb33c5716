(** C84-C87: the dynamic initializer up to its initial guess. *)
From Coq Require Import Reals List Arith ZArith Bool Sorted Lia Lra.
From Verif Require Import RBool Outcome GeoModel GeoSpec Lin TypesModel ImuModel DbModel DbSpec InitModel InitSpec PropModel CpiModel CpiSpec StartModel StartSpec
  DynModel DynSpec DynProofs DynThms DynSys DynSolve DynGuess DynTurn DynEx DynEx2.
Import ListNotations.
Open Scope R_scope.

(** C84: the poses of a guess *)
Theorem C84_poses : forall L o d data gu d' data', db_ok d -> 0 < yo_window o -> (0 <= yo_npose o)%Z -> dynamic_guess L o d data = Ok (Some gu, d', data') ->
  exists tn, newest d tn /\ let P := map (fun e : R * q4 * v3 * v3 => fst (fst (fst e))) (gu_poses gu) in
    StronglySorted Rlt P /\ In tn P /\ (forall t, In t P -> measured d t /\ tn - yo_window o < t <= tn) /\
    spaced (yo_window o / IZR (yo_npose o + 1)) P /\ (yo_npose o <= Z.of_nat (length P) <= yo_npose o + 1)%Z.
Proof. exact poses_thm. Qed.
Print Assumptions C84_poses.
(** every row of the linear system is written and none outside it *)
Theorem C84_rows : forall o d tn cs rows, db_ok d -> 0 < yo_window o -> (0 <= yo_npose o)%Z ->
  let s := scan o d tn in all_rows o (sc_poses s) cs 0 (valid_feats o s d) = Ok rows ->
  length rows = sc_meas s /\ sc_cnt s = length (valid_feats o s d).
Proof. exact rows_thm. Qed.
Print Assumptions C84_rows.
Theorem C84_defined : forall L o d data tn, db_ok d -> cams_known o d -> 0 < yo_window o -> (2 <= yo_npose o)%Z -> 1 / 1000 < yo_g o ->
  (forall t, measured d t -> tn - yo_window o < t <= tn) ->
  (forall t rd, measured d t -> t < tn -> init_select_imu_readings data (t + yo_dt o) (tn + yo_dt o) = Ok rd -> (3 <= length rd)%nat) ->
  exists r, dyn_core L o d data tn = Ok r.
Proof. exact defined_thm. Qed.
Print Assumptions C84_defined.
(** a guess needs enough rotation: bias-corrected rates up to [W] over the whole window must reach the threshold (in degrees) *)
Theorem C84_rotation : forall L o d data gu d' data' W, db_ok d -> 0 < yo_window o -> (0 <= yo_npose o)%Z -> ImuSpec.chrono data ->
  (forall m, In m data -> v3norm (v3sub (i_w m) (yo_bg o)) <= W) -> dynamic_guess L o d data = Ok (Some gu, d', data') -> yo_deg o <= 180 / PI * (W * yo_window o).
Proof. exact gate_thm. Qed.
Print Assumptions C84_rotation.
(** and the rotation it is judged by is, at a constant rate, the corrected rate times the time *)
Theorem C84_angle : forall o data t0 t1 rd w, t0 < t1 -> ImuSpec.chrono data -> (forall m, In m data -> i_w m = w) -> init_select_imu_readings data t0 t1 = Ok rd ->
  turned (yo_bg o) rd = v3norm (v3sub w (yo_bg o)) * ImuSpec.durations rd.
Proof. exact const_thm. Qed.
Print Assumptions C84_angle.
Example C84_rotation_ex : ImuSpec.chrono exy_data /\ forall m, In m exy_data -> i_w m = v3zero /\ v3norm (v3sub (i_w m) (yo_bg exy_o)) <= 0.
Proof.
  split; [cbn; repeat split; intros b H; repeat (destruct H as [<-|H]; [cbn; lra|]); destruct H|].
  intros m H. assert (E : i_w m = v3zero) by (repeat (destruct H as [<-|H]; [reflexivity|]); destruct H).
  split; [exact E|]. rewrite E. cbn [exy_o yo_bg]. unfold v3norm. replace (v3dot _ _) with 0 by (unfold v3dot; cbn; ring). rewrite sqrt_0. lra.
Qed.
(** without the last hypothesis an assert can fail *)
Theorem C84_few_readings_refuted : exists o d data tn, db_ok d /\ cams_known o d /\ 0 < yo_window o /\ (2 <= yo_npose o)%Z /\ 1 / 1000 < yo_g o /\
  (forall t, measured d t -> tn - yo_window o < t <= tn) /\ forall L, dyn_core L o d data tn = UB.
Proof.
  exists exy_o, exy_cut, [rdg 2; rdg 3; rdg 4; rdg 5], 4. split; [apply exy_dbok|]. split; [exact exy_known|]. split; [exact exy_win|]. split; [cbn; lia|]. split; [cbn; lra|]. split; [exact exy_meas|exact exy_few].
Qed.
Print Assumptions C84_few_readings_refuted.
(** eight features seen at 1, 3 and 4: poses at 3 and 4, a guess is returned *)
Example C84_ex : db_ok exy_db /\ 0 < yo_window exy_o /\ (2 <= yo_npose exy_o)%Z /\ 1 / 1000 < yo_g exy_o /\
  (exists L gu, dynamic_guess L exy_o exy_db exy_data = Ok (Some gu, exy_cut, [rdg 2; rdg 3; rdg (7 / 2); rdg 4; rdg 5])) /\
  db_ok exy_cut /\ cams_known exy_o exy_cut /\ (forall t, measured exy_cut t -> 4 - yo_window exy_o < t <= 4) /\
  (forall t rd, measured exy_cut t -> t < 4 -> init_select_imu_readings [rdg 2; rdg 3; rdg (7 / 2); rdg 4; rdg 5] (t + yo_dt exy_o) (4 + yo_dt exy_o) = Ok rd -> (3 <= length rd)%nat).
Proof.
  split; [apply exy_dbok|]. split; [exact exy_win|]. split; [cbn; lia|]. split; [cbn; lra|]. split; [exact exy_guess|]. split; [apply exy_dbok|]. split; [exact exy_known|]. split; [exact exy_meas|exact exy_enough].
Qed.

(** C85: without noise the true motion satisfies every equation of the linear system *)
Theorem C85_truth : forall o data old P cs l rows g pos ps, (forall id f, In (id, f) l -> feat_ok f) ->
  preint_all o data old 0 P = Ok (Some cs) -> all_rows o P cs 0 l = Ok rows -> is_rot (bo_R (pos old)) -> travels o data old g pos P ->
  Forall2 (fun p e => sees o pos P p (snd e)) ps l ->
  let n := length l in forall i, (i < length rows)%nat -> mvec (3 * n + 6) (sysA n rows) (truth (pos old) g ps) i = sysb rows i.
Proof. exact truth_thm. Qed.
Print Assumptions C85_truth.
(** one point seen three times from an accelerating body: six equations *)
Example C85_ex : exists cs rows, let n := length exz_l in let m := length rows in let A := sysA n rows in
  (forall id f, In (id, f) exz_l -> feat_ok f) /\ preint_all exz_o exz_data 0 0 exz_P = Ok (Some cs) /\ all_rows exz_o exz_P cs 0 exz_l = Ok rows /\ m = 6%nat /\
  is_rot (bo_R (exz_pos 0)) /\ travels exz_o exz_data 0 exz_g exz_pos exz_P /\ Forall2 (fun p e => sees exz_o exz_pos exz_P p (snd e)) [exz_p] exz_l /\
  rank_ok exz_L /\ v3norm exz_g = yo_g exz_o /\ inverse (3 * n + 3) (gram m A) (ya_inv exz_L (3 * n + 3) (gram m A)).
Proof. exact exz_all. Qed.

(** C86: what is solved *)
Theorem C86_solution : forall L g m n A b, inverse n (gram m A) (ya_inv L n (gram m A)) -> 0 < g -> inv3_ok L -> eigs_ok L ->
  forall x gr, solve L g m n A b = Some (x, gr) ->
  exists D d ev l, reduced m n A b D d /\ ya_eigs L (companion (compute_dongsi_coeff D d g)) = Some ev /\ In (l, 0) ev /\
    gr = m3v (ya_inv3 L (shifted D l)) d /\ normal m n A b x gr /\ Rabs (v3norm gr - g) <= 1 / 1000 /\
    (pd3 (shifted D l) -> v3norm gr = g /\ grad_g m n A b x gr = v3scal l gr /\ minimum m n A b x gr).
Proof. exact solution_thm. Qed.
Print Assumptions C86_solution.
Theorem C86_found : forall L g m n A b, inverse n (gram m A) (ya_inv L n (gram m A)) -> 0 < g -> inv3_ok L -> eigs_ok L ->
  forall D d ev l, reduced m n A b D d -> ya_rank L (companion (compute_dongsi_coeff D d g)) = 6%nat ->
  ya_eigs L (companion (compute_dongsi_coeff D d g)) = Some ev -> In (l, 0) ev -> pd3 (shifted D l) ->
  exists x gr, solve L g m n A b = Some (x, gr) /\ v3norm gr = g.
Proof. exact found_thm. Qed.
Print Assumptions C86_found.
Example C86_ex : inverse 1 (gram 4 mid) (ya_inv exw_L 1 (gram 4 mid)) /\ inv3_ok exw_L /\ eigs_ok exw_L /\ rank_ok exw_L /\ reduced 4 1 mid exw_b m3id (V3 0 0 12) /\ pd3 (shifted m3id (- (1 / 5))) /\
  ya_rank exw_L (companion (compute_dongsi_coeff m3id (V3 0 0 12) 10)) = 6%nat /\
  ya_eigs exw_L (companion (compute_dongsi_coeff m3id (V3 0 0 12) 10)) = Some [(- (1 / 5), 0); (11 / 5, 0); (1, 0)] /\
  exists x gr, solve exw_L 10 4 1 mid exw_b = Some (x, gr) /\ v3norm gr = 10.
Proof. split; [exact exw_inv|]. split; [exact exw_inv3|]. split; [exact exw_eigok|]. split; [apply rank6_ok|]. split; [exact exw_reduced|]. split; [exact exw_pd|]. exact exw_solved. Qed.
(** equations that hold exactly for some gravity of the given length are given up *)
Theorem C86_exact_gives_up : forall L g m n A b, inverse n (gram m A) (ya_inv L n (gram m A)) -> 0 < g -> rank_ok L ->
  forall f u, (forall i, (i < m)%nat -> residual m n A b f u i = 0) -> v3norm u = g -> solve L g m n A b = None.
Proof. exact exact_thm. Qed.
Print Assumptions C86_exact_gives_up.
(** so noise-free data never give a solution; the hypotheses are met by C85_ex *)
Theorem C86_exact_data_gives_up : forall L o data old P cs l rows g pos ps, (forall id f, In (id, f) l -> feat_ok f) ->
  preint_all o data old 0 P = Ok (Some cs) -> all_rows o P cs 0 l = Ok rows -> is_rot (bo_R (pos old)) -> travels o data old g pos P ->
  Forall2 (fun p e => sees o pos P p (snd e)) ps l -> rank_ok L -> 0 < yo_g o -> v3norm g = yo_g o ->
  let n := length l in let m := length rows in let A := sysA n rows in
  inverse (3 * n + 3) (gram m A) (ya_inv L (3 * n + 3) (gram m A)) -> solve L (yo_g o) m (3 * n + 3) A (sysb rows) = None.
Proof. exact exact_data_thm. Qed.
Print Assumptions C86_exact_data_gives_up.

(** C87: the guess is a motion of the body by the readings, gravity upright *)
Theorem C87_guess : forall L o d data tn gu, db_ok d -> 0 < yo_window o -> (0 <= yo_npose o)%Z -> 1 / 1000 < yo_g o -> (forall t, measured d t -> tn - yo_window o < t <= tn) ->
  dyn_core L o d data tn = Ok (Some gu) ->
  exists first x0 ga, is_rot (bo_R x0) /\ bo_p x0 = v3zero /\ Rabs (ga - yo_g o) <= 1 / 1000 /\
    In first (map (fun e : R * q4 * v3 * v3 => fst (fst (fst e))) (gu_poses gu)) /\
    (forall t q p v, In (t, q, p, v) (gu_poses gu) -> first <= t /\
      (t = first -> quat_2_Rot q = bo_R x0 /\ p = bo_p x0 /\ v = bo_v x0) /\
      (t <> first -> exists l, init_select_imu_readings data (first + yo_dt o) (t + yo_dt o) = Ok l /\ (2 <= length l)%nat /\ Rabs (duration (pairs_of l) - (t - first)) <= 1 / 100 /\
         (rates rate_ok true (yo_bg o) (pairs_of l) -> exists y, moves (V3 0 0 ga) (map (piece true (yo_bg o) (yo_ba o)) (pairs_of l)) x0 y /\
            unit_q q /\ quat_2_Rot q = bo_R y /\ p = bo_p y /\ v = bo_v y))) /\
    (8 <= length (gu_feats gu))%nat /\
    (forall id p, In (id, p) (gu_feats gu) -> exists f, alook d id = Some f /\ forall cam e, alook (f_ts f) cam <> None -> alook (yo_ext o) cam = Some e -> 0 <= vz (in_cam e x0 p)).
Proof. exact guess_thm. Qed.
Print Assumptions C87_guess.
Example C87_ex : db_ok exy_cut /\ 0 < yo_window exy_o /\ (0 <= yo_npose exy_o)%Z /\ 1 / 1000 < yo_g exy_o /\ (forall t, measured exy_cut t -> 4 - yo_window exy_o < t <= 4) /\
  exists L gu, dyn_core L exy_o exy_cut [rdg 2; rdg 3; rdg (7 / 2); rdg 4; rdg 5] 4 = Ok (Some gu).
Proof. split; [apply exy_dbok|]. split; [exact exy_win|]. split; [exact exy_np|]. split; [cbn; lra|]. split; [exact exy_meas|exact exy_any]. Qed.
