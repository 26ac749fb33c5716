(** Proofs about the plotted values of a simulation. *)
From Coq Require Import Reals List Arith ZArith Bool Ascii Lia Lra.
From Verif Require Import RBool Outcome GeoModel GeoSpec GeoProofs InitModel EvalModel EvalSpec FileModel FileSpec FileProofs SimFileModel SimFileSpec SimFileProofs.
Import ListNotations.
Open Scope R_scope.

Lemma omap_all {A B} (f : A -> outcome B) g l : (forall x, In x l -> f x = Ok (g x)) -> omap f l = Ok (map g l).
Proof. induction l as [|a l IH]; intros H; [reflexivity|]. cbn. rewrite (H a) by (left; auto). cbn. rewrite IH by (intros; apply H; right; auto). reflexivity. Qed.
Lemma ent_ok v i x : nth_error v i = Some x -> ent v i = Ok x.
Proof. unfold ent. intros ->. reflexivity. Qed.
Lemma vat_ok {A} (v : list A) i x : nth_error v i = Some x -> vat v i = Ok x.
Proof. unfold vat. intros ->. reflexivity. Qed.
Lemma dif_ok a b s i si n x y z : (forall j, (j < n)%nat -> nth_error a (i + j) = Some (x j)) -> (forall j, (j < n)%nat -> nth_error b (i + j) = Some (y j)) ->
  (forall j, (j < n)%nat -> nth_error s (si + j) = Some (z j)) -> dif_plots a b s i si n = Ok (map (fun j => x j - y j) (seq 0 n), map (fun j => 3 * z j) (seq 0 n)).
Proof.
  intros X Y Z. unfold dif_plots, diffs, scaled. rewrite (omap_all _ (fun j => x j - y j)).
  2:{ intros j J. apply in_seq in J. rewrite (ent_ok _ _ _ (X j ltac:(lia))), (ent_ok _ _ _ (Y j ltac:(lia))). reflexivity. }
  cbn [obind]. rewrite (omap_all _ (fun j => 3 * z j)). 2:{ intros j J. apply in_seq in J. rewrite (ent_ok _ _ _ (Z j ltac:(lia))). reflexivity. }
  reflexivity.
Qed.
Lemma quat_ok v i x : (forall j, (j < 4)%nat -> nth_error v (i + j) = Some (x j)) -> quat_at v i = Ok (Q4 (x 0%nat) (x 1%nat) (x 2%nat) (x 3%nat)).
Proof.
  intros X. unfold quat_at. pose proof (X 0%nat ltac:(lia)) as X0. rewrite Nat.add_0_r in X0. rewrite (ent_ok _ _ _ X0). cbn [obind].
  rewrite (ent_ok _ _ _ (X 1%nat ltac:(lia))), (ent_ok _ _ _ (X 2%nat ltac:(lia))), (ent_ok _ _ _ (X 3%nat ltac:(lia))). reflexivity.
Qed.
Lemma ori_ok e s g i si x y z : (forall j, (j < 4)%nat -> nth_error e (i + j) = Some (x j)) -> (forall j, (j < 4)%nat -> nth_error g (i + j) = Some (y j)) ->
  (forall j, (j < 3)%nat -> nth_error s (si + j) = Some (z j)) ->
  ori_plots e s g i si = Ok (turn (Q4 (x 0%nat) (x 1%nat) (x 2%nat) (x 3%nat)) (Q4 (y 0%nat) (y 1%nat) (y 2%nat) (y 3%nat)), map (fun j => deg3 * z j) (seq 0 3)).
Proof.
  intros X Y Z. unfold ori_plots, scaled. rewrite (quat_ok _ _ _ X), (quat_ok _ _ _ Y). cbn [obind]. rewrite (omap_all _ (fun j => deg3 * z j)).
  2:{ intros j J. apply in_seq in J. rewrite (ent_ok _ _ _ (Z j ltac:(lia))). reflexivity. }
  cbn [obind]. assert (N : -180 / PI = - (180 / PI)) by (unfold Rdiv; ring). rewrite N. reflexivity.
Qed.

Section Thms.
Variable rd : nat -> R -> R.
Ltac small j := do 9 (destruct j as [|j]; [first [reflexivity|exfalso; lia]|]); lia.
Lemma head_state t s (g : sim_truth) n : st_x g 0%nat = t ->
  exists l, state_one (vals rd (est_row t s)) (vals rd (std_pure t s)) (vals rd (gt_row n g)) = Ok l /\ shows_state rd (mkF t s g) l.
Proof.
  intros T. unfold state_one, all_plots. eexists. split; [|reflexivity]. cbn [omap f_s f_g].
  assert (S : forall id k, (id, k) = (id_q s, 1%nat) \/ (id, k) = (id_p s, 4%nat) \/ (id, k) = (id_v s, 7%nat) \/ (id, k) = (id_bg s, 10%nat) \/ (id, k) = (id_ba s, 13%nat) ->
     forall j, (j < 3)%nat -> nth_error (vals rd (std_pure t s)) (k + j) = Some (rd 6%nat (sigma s (id + j)))).
  { intros id k H j J. rewrite std_head by (decompose [or] H; try (match goal with K : (_, _) = _ |- _ => injection K as -> -> end); lia).
    decompose [or] H; match goal with K : (_, _) = _ |- _ => injection K as -> -> end; small j. }
  rewrite (ori_ok _ _ _ 1 1 (fun j => rd 6%nat (ss_q s j)) (fun j => rd 6%nat (st_x g (1 + j)%nat)) (fun j => rd 6%nat (sigma s (id_q s + j))));
    [|intros j J; small j|intros j J; small j|apply S; tauto]. cbn [obind].
  rewrite (dif_ok _ _ _ 5 4 3 (fun j => rd 6%nat (st_x g (5 + j)%nat)) (fun j => rd 6%nat (ss_p s j)) (fun j => rd 6%nat (sigma s (id_p s + j))));
    [|intros j J; small j|intros j J; small j|apply S; tauto]. cbn [obind].
  rewrite (dif_ok _ _ _ 8 7 3 (fun j => rd 6%nat (st_x g (8 + j)%nat)) (fun j => rd 6%nat (ss_v s j)) (fun j => rd 6%nat (sigma s (id_v s + j))));
    [|intros j J; small j|intros j J; small j|apply S; tauto]. cbn [obind].
  rewrite (dif_ok _ _ _ 11 10 3 (fun j => rd 6%nat (st_x g (11 + j)%nat)) (fun j => rd 6%nat (ss_bg s j)) (fun j => rd 6%nat (sigma s (id_bg s + j))));
    [|intros j J; small j|intros j J; small j|apply S; tauto]. cbn [obind].
  rewrite (dif_ok _ _ _ 14 13 3 (fun j => rd 6%nat (st_x g (14 + j)%nat)) (fun j => rd 6%nat (ss_ba s j)) (fun j => rd 6%nat (sigma s (id_ba s + j))));
    [|intros j J; small j|intros j J; small j|apply S; tauto]. cbn [obind]. reflexivity.
Qed.
Lemma std_dt t s : nth_error (vals rd (std_pure t s)) 16 = Some (rd 6%nat (if do_dt s then sigma s (id_dt s) else 0)).
Proof. rewrite std_head by lia. cbn. destruct (do_dt s); cbn; rewrite ?Nat.add_0_r; reflexivity. Qed.
Lemma head_time t s (g : sim_truth) n :
  exists l, time_one (vals rd (est_row t s)) (vals rd (std_pure t s)) (vals rd (gt_row n g)) = Ok l /\ shows_time rd (mkF t s g) l.
Proof.
  unfold time_one, all_plots. eexists. split; [|reflexivity]. cbn [omap f_s f_g].
  rewrite (dif_ok _ _ _ 17 16 1 (fun j => rd 7%nat (ss_dt s)) (fun j => rd 7%nat (st_dt g)) (fun j => rd 6%nat (if do_dt s then sigma s (id_dt s + j) else 0)));
    [|intros j J; small j|intros j J; small j|intros [|j] J; [|lia]; rewrite Nat.add_0_r, std_dt, Nat.add_0_r; reflexivity]. reflexivity.
Qed.
Lemma cams_all n s g (one : nat -> list (outcome plots)) (F : camera * ((nat -> R) * (nat -> R)) -> list plots) :
  (length (ss_cams s) = n)%nat -> (length (st_cams g) = n)%nat ->
  (forall i c d, nth_error (ss_cams s) i = Some c -> nth_error (st_cams g) i = Some d -> all_plots (one i) = Ok (F (c, d))) ->
  all_plots (flat_map one (seq 0 n)) = Ok (flat_map F (combine (ss_cams s) (st_cams g))).
Proof.
  intros L1 L2 H. assert (AP : forall a b x y, all_plots a = Ok x -> all_plots b = Ok y -> all_plots (a ++ b) = Ok (x ++ y)).
  { unfold all_plots. induction a as [|o a IH]; intros b x y A B; [injection A as <-; exact B|]. cbn in *. destruct o as [p| |]; try discriminate. cbn in *.
    destruct (omap _ a) as [q| |] eqn:Q; try discriminate. cbn in A. injection A as <-. rewrite (IH b q y eq_refl B). reflexivity. }
  assert (G : forall (a : list camera) (b : list ((nat -> R) * (nat -> R))) k, length a = length b -> (forall i c d, nth_error a i = Some c -> nth_error b i = Some d -> all_plots (one (k + i)%nat) = Ok (F (c, d))) ->
    all_plots (flat_map one (seq k (length a))) = Ok (flat_map F (combine a b))).
  { induction a as [|c a IH]; intros [|d b] k L K; try discriminate; [reflexivity|]. cbn [length seq flat_map combine]. apply AP.
    - specialize (K 0%nat c d eq_refl eq_refl). rewrite Nat.add_0_r in K. exact K.
    - apply IH; [cbn in L; lia|]. intros i c' d' A B. replace (S k + i)%nat with (k + S i)%nat by lia. apply K; assumption. }
  rewrite <- L1. apply G; [congruence|]. exact H.
Qed.
Lemma sig_at s b id n j : (j < n)%nat -> nth j (sig s b id n n) 0 = if b then sigma s (id + j) else 0.
Proof. intros J. apply nth_error_nth. apply sig_nth; auto. Qed.
Lemma head_intr t s g n : length (ss_cams s) = n -> length (st_cams g) = n ->
  exists l, intr_one n (vals rd (est_row t s)) (vals rd (std_pure t s)) (vals rd (gt_row n g)) = Ok l /\ shows_intr rd (mkF t s g) l.
Proof.
  intros L1 L2. unfold intr_one. eexists. split; [|reflexivity]. cbn [f_s f_g].
  match goal with |- all_plots (flat_map ?o _) = Ok (flat_map ?F _) => apply (cams_all n s g o F L1 L2) end.
  intros i c d C D. unfold all_plots. cbn [omap].
  rewrite (dif_ok _ _ _ (19 + 15 * i) (18 + 14 * i) 4 (fun j => rd 6%nat (cm_k c j)) (fun j => rd 6%nat (fst d j)) (fun j => rd 6%nat (if do_k s then sigma s (cm_kid c + j) else 0))).
  2:{ intros j J. rewrite <- Nat.add_assoc. rewrite (est_cam rd t s i c j C) by lia. small j. }
  2:{ intros j J. rewrite <- Nat.add_assoc. rewrite (gt_cam rd n g i d j D) by lia. small j. }
  2:{ intros j J. rewrite <- Nat.add_assoc. rewrite (std_cam rd t s i c j C) by lia. rewrite app_nth1 by (rewrite sig_length; lia). rewrite sig_at by lia. reflexivity. }
  cbn [obind].
  rewrite (dif_ok _ _ _ (19 + 4 + 15 * i) (18 + 4 + 14 * i) 4 (fun j => rd 6%nat (cm_k c (4 + j)%nat)) (fun j => rd 6%nat (fst d (4 + j)%nat)) (fun j => rd 6%nat (if do_k s then sigma s (cm_kid c + 4 + j) else 0))).
  2:{ intros j J. replace (19 + 4 + 15 * i + j)%nat with (19 + (15 * i + (4 + j)))%nat by lia. rewrite (est_cam rd t s i c (4 + j) C) by lia. small j. }
  2:{ intros j J. replace (19 + 4 + 15 * i + j)%nat with (19 + (15 * i + (4 + j)))%nat by lia. rewrite (gt_cam rd n g i d (4 + j) D) by lia. small j. }
  2:{ intros j J. replace (18 + 4 + 14 * i + j)%nat with (18 + (14 * i + (4 + j)))%nat by lia. rewrite (std_cam rd t s i c (4 + j) C) by lia. rewrite app_nth1 by (rewrite sig_length; lia). rewrite sig_at by lia. rewrite Nat.add_assoc. reflexivity. }
  reflexivity.
Qed.
Lemma head_extr t s g n : length (ss_cams s) = n -> length (st_cams g) = n ->
  exists l, extr_one n (vals rd (est_row t s)) (vals rd (std_pure t s)) (vals rd (gt_row n g)) = Ok l /\ shows_extr rd (mkF t s g) l.
Proof.
  intros L1 L2. unfold extr_one. eexists. split; [|reflexivity]. cbn [f_s f_g].
  match goal with |- all_plots (flat_map ?o _) = Ok (flat_map ?F _) => apply (cams_all n s g o F L1 L2) end.
  intros i c d C D. unfold all_plots. cbn [omap].
  rewrite (ori_ok _ _ _ (27 + 15 * i) (26 + 14 * i) (fun j => rd 6%nat (cm_e c j)) (fun j => rd 6%nat (snd d j)) (fun j => rd 6%nat (if do_e s then sigma s (cm_eid c + j) else 0))).
  2:{ intros j J. replace (27 + 15 * i + j)%nat with (19 + (15 * i + (8 + j)))%nat by lia. rewrite (est_cam rd t s i c (8 + j) C) by lia. small j. }
  2:{ intros j J. replace (27 + 15 * i + j)%nat with (19 + (15 * i + (8 + j)))%nat by lia. rewrite (gt_cam rd n g i d (8 + j) D) by lia. small j. }
  2:{ intros j J. replace (26 + 14 * i + j)%nat with (18 + (14 * i + (8 + j)))%nat by lia. rewrite (std_cam rd t s i c (8 + j) C) by lia. rewrite app_nth2; rewrite sig_length; [|lia]. replace (8 + j - 8)%nat with j by lia. rewrite sig_at by lia. reflexivity. }
  cbn [obind].
  rewrite (dif_ok _ _ _ (27 + 4 + 15 * i) (26 + 3 + 14 * i) 3 (fun j => rd 6%nat (cm_e c (4 + j)%nat)) (fun j => rd 6%nat (snd d (4 + j)%nat)) (fun j => rd 6%nat (if do_e s then sigma s (cm_eid c + 3 + j) else 0))).
  2:{ intros j J. replace (27 + 4 + 15 * i + j)%nat with (19 + (15 * i + (12 + j)))%nat by lia. rewrite (est_cam rd t s i c (12 + j) C) by lia. small j. }
  2:{ intros j J. replace (27 + 4 + 15 * i + j)%nat with (19 + (15 * i + (12 + j)))%nat by lia. rewrite (gt_cam rd n g i d (12 + j) D) by lia. small j. }
  2:{ intros j J. replace (26 + 3 + 14 * i + j)%nat with (18 + (14 * i + (11 + j)))%nat by lia. rewrite (std_cam rd t s i c (11 + j) C) by lia. rewrite app_nth2; rewrite sig_length; [|lia]. replace (11 + j - 8)%nat with (3 + j)%nat by lia. rewrite sig_at by lia. rewrite Nat.add_assoc. reflexivity. }
  reflexivity.
Qed.
Lemma imu_est t s : forall o n f, (o, n, f) = (0%nat, 6%nat, ss_dw s) \/ (o, n, f) = (6%nat, 6%nat, ss_da s) \/ (o, n, f) = (12%nat, 9%nat, ss_tg s) \/ (o, n, f) = (21%nat, 4%nat, ss_w s) \/ (o, n, f) = (25%nat, 4%nat, ss_a s) ->
  forall j, (j < n)%nat -> nth_error (vals rd (est_row t s)) (20 + 15 * length (ss_cams s) + o + j) = Some (rd 8%nat (f j)).
Proof.
  intros o n f H j J. rewrite <- (Nat.add_assoc _ o j), est_imu. decompose [or] H; match goal with K : (_, _, _) = _ |- _ => injection K as -> -> -> end; small j.
Qed.
Lemma imu_gt n g : forall o m f, (o, m, f) = (0%nat, 6%nat, st_dw g) \/ (o, m, f) = (6%nat, 6%nat, st_da g) \/ (o, m, f) = (12%nat, 9%nat, st_tg g) \/ (o, m, f) = (21%nat, 4%nat, st_w g) \/ (o, m, f) = (25%nat, 4%nat, st_a g) ->
  forall j, (j < m)%nat -> nth_error (vals rd (gt_row n g)) (20 + 15 * length (st_cams g) + o + j) = Some (rd 8%nat (f j)).
Proof.
  intros o m f H j J. rewrite <- (Nat.add_assoc _ o j), gt_imu. decompose [or] H; match goal with K : (_, _, _) = _ |- _ => injection K as -> -> -> end; small j.
Qed.
Ltac smallb b j := destruct b; small j.
Lemma imu_std t s : forall o n b id, (o, n, b, id) = (0%nat, 6%nat, do_imu s, id_dw s) \/ (o, n, b, id) = (6%nat, 6%nat, do_imu s, id_da s) \/ (o, n, b, id) = (12%nat, 9%nat, (do_imu s && do_g s)%bool, id_tg s) \/
    (o, n, b, id) = (21%nat, 3%nat, (do_imu s && kal s)%bool, id_w s) ->
  forall j, (j < n)%nat -> nth_error (vals rd (std_pure t s)) (19 + 14 * length (ss_cams s) + o + j) = Some (rd 8%nat (if b then sigma s (id + j) else 0)).
Proof.
  intros o n b id H j J. rewrite <- (Nat.add_assoc _ o j), std_imu. decompose [or] H; match goal with K : (_, _, _, _) = _ |- _ => injection K as -> -> -> -> end;
  destruct (do_imu s), (do_g s), (kal s); small j.
Qed.
(** the last three columns: right under the model RPNG, one too far under KALIBR *)
Lemma imu_last t s : exists z, (forall j, (j < 3)%nat -> nth_error (vals rd (std_pure t s)) (19 + 14 * length (ss_cams s) + 24 + j) = Some (z j)) /\
  (ss_kind s = Rpng -> forall j, (j < 3)%nat -> z j = rd 8%nat (if do_imu s then sigma s (id_a s + j) else 0)) /\
  (ss_kind s = Kalibr -> do_imu s = true -> z 0%nat = rd 8%nat (sigma s (id_w s + 3)) /\ z 1%nat = rd 8%nat 0 /\ z 2%nat = rd 8%nat 0).
Proof.
  assert (K : kal s = match ss_kind s with Kalibr => true | Rpng => false end) by reflexivity. destruct (ss_kind s).
  - exists (fun j => match j with 0 => rd 8%nat (if do_imu s then sigma s (id_w s + 3) else 0) | _ => rd 8%nat 0 end). split; [|split; [discriminate|intros _ ->; auto]].
    intros j J. rewrite <- (Nat.add_assoc _ 24 j), std_imu, K. destruct (do_imu s), (do_g s); small j.
  - exists (fun j => rd 8%nat (if do_imu s then sigma s (id_a s + j) else 0)). split; [|split; [reflexivity|discriminate]].
    intros j J. rewrite <- (Nat.add_assoc _ 24 j), std_imu, K. destruct (do_imu s), (do_g s); small j.
Qed.
Lemma head_imu t s g n : length (ss_cams s) = n -> length (st_cams g) = n ->
  exists l, imu_one n (vals rd (est_row t s)) (vals rd (std_pure t s)) (vals rd (gt_row n g)) = Ok l /\ shows_imu rd (mkF t s g) l /\
    (ss_kind s = Kalibr -> do_imu s = true -> exists d w b, l = d ++ [w; b] /\ snd b = [deg3 * rd 8%nat (sigma s (id_w s + 3)); deg3 * rd 8%nat 0; deg3 * rd 8%nat 0]).
Proof.
  intros L1 L2. destruct (imu_last t s) as (z & Z & ZR & ZK). unfold imu_one, all_plots. cbv zeta. cbn [omap]. rewrite <- L1.
  pose proof (imu_est t s) as E. pose proof (imu_gt (length (ss_cams s)) g) as G. rewrite L2, <- L1 in G. pose proof (imu_std t s) as S.
  replace (1 + 16 + 1 + 1 + 15 * length (ss_cams s) + 1)%nat with (20 + 15 * length (ss_cams s))%nat by lia. replace (1 + 15 + 1 + 1 + 14 * length (ss_cams s) + 1)%nat with (19 + 14 * length (ss_cams s))%nat by lia.
  set (ie := (20 + 15 * length (ss_cams s))%nat) in *. set (ic := (19 + 14 * length (ss_cams s))%nat) in *. clearbody ie ic.
  pose proof (E 0%nat 6%nat (ss_dw s) ltac:(tauto)) as E0. pose proof (G 0%nat 6%nat (st_dw g) ltac:(tauto)) as G0. pose proof (S 0%nat 6%nat (do_imu s) (id_dw s) ltac:(tauto)) as S0. rewrite Nat.add_0_r in E0, G0, S0.
  rewrite (dif_ok _ _ _ _ _ _ _ _ _ E0 G0 S0). cbn [obind].
  rewrite (dif_ok _ _ _ _ _ _ _ _ _ (E 6%nat 6%nat (ss_da s) ltac:(tauto)) (G 6%nat 6%nat (st_da g) ltac:(tauto)) (S 6%nat 6%nat (do_imu s) (id_da s) ltac:(tauto))). cbn [obind].
  rewrite (dif_ok _ _ _ _ _ _ _ _ _ (E 12%nat 9%nat (ss_tg s) ltac:(tauto)) (G 12%nat 9%nat (st_tg g) ltac:(tauto)) (S 12%nat 9%nat (do_imu s && do_g s)%bool (id_tg s) ltac:(tauto))). cbn [obind].
  rewrite (ori_ok _ _ _ _ _ _ _ _ (E 21%nat 4%nat (ss_w s) ltac:(tauto)) (G 21%nat 4%nat (st_w g) ltac:(tauto)) (S 21%nat 3%nat (do_imu s && kal s)%bool (id_w s) ltac:(tauto))). cbn [obind].
  rewrite (ori_ok _ _ _ _ _ _ _ _ (E 25%nat 4%nat (ss_a s) ltac:(tauto)) (G 25%nat 4%nat (st_a g) ltac:(tauto)) Z). cbn [obind].
  eexists. split; [reflexivity|]. split.
  - unfold shows_imu. cbn [f_s f_g]. eexists _, _. split; [reflexivity|]. unfold kal. destruct (ss_kind s).
    + rewrite andb_true_r. reflexivity.
    + unfold spread, quat_of. f_equal. apply map_ext_in. intros j J. apply in_seq in J. rewrite ZR by (auto; lia). reflexivity.
  - intros K D. destruct (ZK K D) as (Z0 & Z1 & Z2). eexists [_; _; _], _, _. split; [reflexivity|]. cbn [snd map seq]. rewrite Z0, Z1, Z2. reflexivity.
Qed.

(** ** loops *)
Lemma loop_ok flag one t0 tmax (fe fs fg : frame -> list R) (z : frame -> R) (P : frame -> list plots -> Prop) : forall fr done,
  (forall f, In f fr -> nth_error (fe f) 0 = Some (rd 5%nat (f_t f)) /\ nth_error (fg f) 0 = Some (rd 5%nat (f_t f)) /\
     match flag with None => z f = 1 | Some k => nth_error (fs f) k = Some (z f) end /\ exists l, one (fe f) (fs f) (fg f) = Ok l /\ P f l) ->
  exists o, sim_loop flag one t0 tmax (map fe fr) (map fs (done ++ fr)) (map fg (done ++ fr)) (length done) = Ok o /\ plotted rd fr t0 tmax z P o.
Proof.
  induction fr as [|f fr IH]; intros done H.
  - exists (Some []). split; [reflexivity|]. exists [], []. split; [reflexivity|]. split; [intros ? []|]. split; [discriminate|]. right. split; [intros ? []|]. exists []. auto.
  - destruct (H f (or_introl eq_refl)) as (T & G & F & l & O & Pl). cbn [map sim_loop]. rewrite (ent_ok _ _ _ T). cbn [obind].
    destruct (Rltb_spec tmax (rd 5%nat (f_t f) - t0)) as [B|B].
    + exists (Some []). split; [reflexivity|]. exists [], (f :: fr). split; [reflexivity|]. split; [intros ? []|]. split; [intros f0 r K; injection K as <- <-; exact B|]. right. split; [intros ? []|]. exists []. auto.
    + assert (NT : forall (X : frame -> list R), nth_error (map X (done ++ f :: fr)) (length done) = Some (X f)).
      { intros X. rewrite nth_error_map, nth_error_app2, Nat.sub_diag by lia. reflexivity. }
      rewrite (vat_ok _ _ _ (NT fg)). cbn [obind]. rewrite (ent_ok _ _ _ G). cbn [obind]. unfold guard. destruct (Reqb_spec (rd 5%nat (f_t f)) (rd 5%nat (f_t f))); [|contradiction].
      rewrite (vat_ok _ _ _ (NT fs)). cbn [obind].
      assert (FZ : match flag with None => Ok 1 | Some k => ent (fs f) k end = Ok (z f)) by (destruct flag; [apply ent_ok; exact F|rewrite F; reflexivity]). rewrite FZ. cbn [obind].
      assert (LE : forall g, f = g -> rd 5%nat (f_t g) - t0 <= tmax) by (intros g <-; lra).
      destruct (IH (done ++ [f]) (fun g I => H g (or_intror I))) as (o & E & f1 & f2 & -> & L1 & L2 & R). rewrite <- app_assoc in E. cbn [app] in E. rewrite app_length in E. cbn [length] in E. rewrite Nat.add_1_r in E.
      destruct (Reqb_spec (z f) 0) as [Z|Z].
      * exists None. split; [reflexivity|]. exists (f :: f1), f2. split; [reflexivity|]. split; [intros g [I|I]; auto|]. split; [exact L2|]. left. split; [exists f; split; [left|]; auto|reflexivity].
      * rewrite O. cbn [obind]. rewrite E. cbn [obind]. eexists. split; [reflexivity|]. exists (f :: f1), f2. split; [reflexivity|]. split; [intros g [I|I]; auto|]. split; [exact L2|].
        destruct R as [((g & I & Zg) & ->)|(NZ & r & -> & A)].
        -- left. split; [exists g; split; [right|]; auto|reflexivity].
        -- right. split; [intros g [<-|I]; auto|]. exists ((rd 5%nat (f_t f), l) :: r). split; [reflexivity|]. constructor; auto.
Qed.
End Thms.
