(** Proofs for C65 and C81. *)
From Coq Require Import Reals List Arith Lia Lra ZArith Bool.
From Verif Require Import RBool Outcome GeoModel Lin TypesModel StateModel StateSpec ReachModel ReachSpec StateReach StateFrame ImuModel DbModel DbSpec DbProofs DbThms InitModel InitSpec InitDisp StartModel StartSpec.
Import ListNotations.
Open Scope R_scope.

(** ** the newest time *)
Lemma max_spec a b : a <= std_max a b /\ b <= std_max a b /\ (std_max a b = a \/ std_max a b = b).
Proof. unfold std_max. destruct (Rltb_spec a b); split; try lra; split; try lra; auto. Qed.
Lemma fold_max l : forall m, m <= fold_left std_max l m /\ (forall t, In t l -> t <= fold_left std_max l m) /\
  (fold_left std_max l m = m \/ In (fold_left std_max l m) l).
Proof.
  induction l as [|a l IH]; intros m; cbn [fold_left].
  - split; [lra|]. split; [intros ? []|auto].
  - destruct (max_spec m a) as (A & B & C). destruct (IH (std_max m a)) as (D & E & F). split; [lra|]. split.
    + intros t [->|H]; [lra|auto].
    + destruct F as [F|F]; [|right; right; exact F]. destruct C as [C|C]; [left; congruence|right; left; congruence].
Qed.
(** the nested loops run over one list *)
Lemma fold_flat {A B C} (g : B -> C -> B) (h : A -> list C) (l : list A) : forall m,
  fold_left (fun m a => fold_left g (h a) m) l m = fold_left g (flat_map h l) m.
Proof. induction l as [|a l IH]; intros m; cbn; [reflexivity|]. rewrite IH, fold_left_app. reflexivity. Qed.
Definition all_times (d : db) : list R := flat_map (fun f => flat_map snd (f_ts f)) (map snd d).
Lemma newest_cam_eq d : newest_cam d = fold_left std_max (all_times d) (-1).
Proof.
  unfold newest_cam, all_times. rewrite <- fold_flat. generalize (-1) as m. induction (map snd d) as [|f l IH]; intros m; cbn; [reflexivity|].
  rewrite IH. f_equal. apply (fold_flat std_max snd).
Qed.
Lemma zip3_times a : forall b c, length b = length a -> length c = length a -> map otime (zip3 a b c) = a.
Proof.
  induction a as [|x a IH]; intros [|y b] [|z c] H1 H2; cbn in *; try discriminate; auto. f_equal. apply IH; lia.
Qed.
Lemma all_times_spec d t : db_ok d -> (In t (all_times d) <-> measured d t).
Proof.
  intros [Nd Dk]. unfold all_times, measured. rewrite in_flat_map. split.
  - intros (f & If & Ht). apply in_flat_map in Ht. destruct Ht as ([c ts] & Ic & It). cbn in It. apply in_map_iff in If. destruct If as ([id f'] & E & Ii).
    cbn in E. subst f'. exists id, f. destruct (Dk _ _ Ii) as (_ & Nf & Pf). split; [apply alook_in; auto|].
    assert (Ec : alook (f_ts f) c = Some ts) by (apply alook_in; auto). pose proof (Pf c) as P. rewrite Ec in P.
    destruct (alook (f_uvs f) c) as [us|] eqn:Eu; [|contradiction]. destruct (alook (f_uvn f) c) as [ns|] eqn:En; [|contradiction]. destruct P as [P1 P2].
    assert (Em : map otime (ftrack f c) = ts) by (unfold ftrack, aget; rewrite Ec, Eu, En; apply zip3_times; auto).
    rewrite <- Em in It. apply in_map_iff in It. destruct It as (ob & Eo & Io). exists c, ob. auto.
  - intros (id & f & Ef & c & ob & Io & Eo). apply alook_some_key in Ef. exists f. split; [apply in_map_iff; exists (id, f); auto|].
    destruct (Dk _ _ Ef) as (_ & Nf & Pf). specialize (Pf c). unfold ftrack, aget in Io.
    destruct (alook (f_ts f) c) as [ts|] eqn:Et; [|destruct Io].
    destruct (alook (f_uvs f) c) as [us|] eqn:Eu; [|contradiction]. destruct (alook (f_uvn f) c) as [ns|] eqn:En; [|contradiction]. destruct Pf as [P1 P2].
    apply in_flat_map. exists (c, ts). split; [apply alook_some_key; auto|]. cbn. rewrite <- (zip3_times ts us ns P1 P2). apply in_map_iff. exists ob. auto.
Qed.

Lemma drop_spec t l : exists old, l = old ++ drop_before t l /\ (forall m, In m old -> i_t m < t) /\ (forall m, hd_error (drop_before t l) = Some m -> t <= i_t m).
Proof.
  induction l as [|a l (old & E & A & B)]; cbn [drop_before].
  - exists []. split; auto. split; [intros ? []|discriminate].
  - destruct (Rltb_spec (i_t a) t) as [L|L].
    + exists (a :: old). split; [cbn; congruence|]. split; auto. intros m [<-|H]; auto.
    + exists []. split; auto. split; [intros ? []|]. intros m E'. injection E' as <-. lra.
Qed.

Lemma filter_order {A} (p : A -> bool) (L l1 : list A) a l2 b l3 : filter p L = l1 ++ a :: l2 ++ b :: l3 -> exists m1 m2 m3, L = m1 ++ a :: m2 ++ b :: m3.
Proof.
  revert l1. induction L as [|x L IH]; intros l1 E; cbn [filter] in E; [destruct l1; discriminate|].
  destruct (p x).
  - destruct l1 as [|y l1].
    + cbn in E. injection E as -> E. assert (I : In b L) by (apply (filter_In p b L); rewrite E; apply in_or_app; right; left; reflexivity).
      apply in_split in I. destruct I as (m2 & m3 & ->). exists [], m2, m3. reflexivity.
    + cbn in E. injection E as -> E. destruct (IH l1 E) as (m1 & m2 & m3 & ->). exists (y :: m1), m2, m3. reflexivity.
  - destruct (IH l1 E) as (m1 & m2 & m3 & ->). exists (x :: m1), m2, m3. reflexivity.
Qed.
Lemma cleaned_chron keep d d' : cleaned keep d d' -> strictly_chron d -> strictly_chron d'.
Proof.
  intros C S id f' cam Ef' l1 a l2 b l3 E. specialize (C id). destruct (alook d id) as [f|] eqn:Ef; [|congruence].
  destruct C as [C _]. destruct (C _ Ef') as (_ & sel & _ & T). rewrite T in E. destruct (filter_order _ _ _ _ _ _ _ E) as (m1 & m2 & m3 & E').
  exact (S id f cam Ef m1 a m2 b m3 E').
Qed.

(** ** the disparities *)
Lemma mean_unique ds m m' : ds <> [] -> is_mean ds m -> is_mean ds m' -> m = m'.
Proof.
  unfold is_mean. intros N A B. assert (H : INR (length ds) <> 0). { destruct ds; [congruence|]. cbn [length]. pose proof (pos_INR (length ds)). rewrite S_INR. lra. }
  apply (Rmult_eq_reg_l (INR (length ds))); auto. congruence.
Qed.
Lemma range_flow d hi lo : db_ok d -> strictly_chron d -> exists ds r, compute_disparity_range d hi lo = Ok r /\ flow d lo hi ds /\ snd r = length ds /\
  ((15 <= length ds)%nat -> exists m, fst (fst r) = Some m /\ is_mean ds m).
Proof.
  intros Dk Sc. destruct (disparity_range_pairs d hi lo Dk Sc) as (pairs & ds & r & E & A & B & C & D). exists ds, r. split; [exact E|]. split; [exists pairs; auto|].
  destruct ds as [|x [|y ds]].
  - cbv beta iota in D. rewrite D. split; [reflexivity|]. cbn. lia.
  - cbv beta iota in D. rewrite D. split; [reflexivity|]. cbn. lia.
  - cbv beta iota in D. destruct D as (m & s & -> & Hm & _). split; [reflexivity|]. intros _. exists m. auto.
Qed.
Lemma above_moved ds m thr : (15 <= length ds)%nat -> is_mean ds m -> (above (Some m) thr = true <-> moved ds thr).
Proof.
  intros L Hm. cbn [above]. destruct (Rltb_spec thr m) as [H|H]; split; intros X; try discriminate; auto.
  - exists m. auto.
  - exfalso. destruct X as (m' & Hm' & L'). rewrite (mean_unique ds m' m) in L'; auto; [lra|]. destruct ds; [cbn in L; lia|discriminate].
Qed.

Definition finding_of (m0 m1 : bool) : finding := if m0 then Moving else if m1 then Jerk else Still.
Lemma flags_spec o d tn : db_ok d -> strictly_chron d ->
  (disp_flags o d tn = Ok None /\ 0 < do_disp o /\ exists old new, halves d (io_window (do_stat o)) tn old new /\ (~ judged old \/ ~ judged new)) \/
  (exists m0 m1, disp_flags o d tn = Ok (Some (m0, m1)) /\ concluded d (io_window (do_stat o)) tn (do_disp o) (finding_of m0 m1)).
Proof.
  intros Dk Sc. unfold disp_flags. destruct (Rltb_spec 0 (do_disp o)) as [P|P].
  - replace (5 / 10 * io_window (do_stat o)) with (io_window (do_stat o) / 2) by lra.
    destruct (range_flow d (tn - io_window (do_stat o) / 2) (-1) Dk Sc) as (old & r0 & E0 & F0 & N0 & M0).
    destruct (range_flow d tn (tn - io_window (do_stat o) / 2) Dk Sc) as (new & r1 & E1 & F1 & N1 & M1).
    rewrite E0. cbn [obind]. rewrite E1. cbn [obind]. rewrite N0, N1.
    destruct (Nat.ltb_spec (length old) 15) as [L0|L0]; cbn [orb].
    { left. split; [reflexivity|]. split; [exact P|]. exists old, new. split; [split; auto|]. left. unfold judged. lia. }
    destruct (Nat.ltb_spec (length new) 15) as [L1|L1].
    { left. split; [reflexivity|]. split; [exact P|]. exists old, new. split; [split; auto|]. right. unfold judged. lia. }
    destruct (M0 L0) as (a0 & Ea0 & Ha0). destruct (M1 L1) as (a1 & Ea1 & Ha1). rewrite Ea0, Ea1.
    pose proof (above_moved old a0 (do_disp o) L0 Ha0) as Q0. pose proof (above_moved new a1 (do_disp o) L1 Ha1) as Q1.
    right. eexists _, _. split; [reflexivity|]. right. split; [exact P|]. exists old, new. split; [split; auto|]. split; [exact L0|]. split; [exact L1|].
    destruct (above (Some a0) (do_disp o)), (above (Some a1) (do_disp o)); cbn [finding_of].
    + apply Q0; reflexivity.
    + apply Q0; reflexivity.
    + split; [intros X; apply Q0 in X; discriminate|apply Q1; reflexivity].
    + split; [intros X; apply Q0 in X; discriminate|intros X; apply Q1 in X; discriminate].
  - right. exists false, false. split; [reflexivity|]. left. split; [lra|reflexivity].
Qed.

Lemma static_cond (m0 m1 wait : bool) thresh :
  ((((negb m0 && m1) && wait || (negb m0 && negb m1) && negb wait) && Rltb 0 thresh)%bool = true <-> static_case thresh wait (finding_of m0 m1)).
Proof.
  unfold static_case, finding_of. destruct (Rltb_spec 0 thresh) as [P|P]; destruct m0, m1, wait; cbn; split; intros H; try discriminate; try reflexivity;
    try (destruct H as (H & [[H1 H2]|[H1 H2]]); try discriminate; try lra; reflexivity); split; auto; try lra.
Qed.

Lemma dispatch_thm {A} (o : dopts) (dyn : db -> list imu -> outcome (option A)) d data wait v d' data' : db_ok d -> strictly_chron d ->
  inertial_initialize o dyn d data wait = Ok (v, d', data') -> dispatched o dyn d data wait v d' data'.
Proof.
  intros Dk Sc. unfold inertial_initialize, dispatched. cbv zeta. rewrite newest_cam_eq.
  destruct (fold_max (all_times d) (-1)) as (F1 & F2 & F3). set (tn := fold_left std_max (all_times d) (-1)) in *. set (w := io_window (do_stat o)).
  destruct (Rltb_spec tn 0) as [H0|H0]; cbn [orb].
  { intros E. injection E as <- <- <-. left. split; [|auto]. intros t Ht. left. apply all_times_spec in Ht; auto. apply F2 in Ht. lra. }
  destruct (Rltb_spec (tn - w - 10 / 100) 0) as [H1|H1].
  { intros E. injection E as <- <- <-. left. split; [|auto]. intros t Ht. right. apply all_times_spec in Ht; auto. apply F2 in Ht. lra. }
  assert (Nw : newest d tn).
  { split; [apply all_times_spec; auto; destruct F3 as [F3|F3]; [lra|exact F3]|]. intros t Ht. apply F2. apply all_times_spec; auto. }
  destruct (cleanup_measurements_thm d (tn - w - 10 / 100) Dk) as (d1 & Ec & Dk1 & Cl). rewrite Ec. cbn [obind].
  set (data1 := drop_before (tn - w - 10 / 100 + do_dt o) data).
  assert (Ct : cut_at (tn - w - 10 / 100) (do_dt o) d d1 data data1) by (split; [exact Cl|apply drop_spec]).
  intros E. right. exists tn. split; [exact Nw|]. split; [lra|]. split; [lra|].
  destruct (flags_spec o d1 tn Dk1 (cleaned_chron _ _ _ Cl Sc)) as [(Ef & P & Hh)|(m0 & m1 & Ef & Cn)]; rewrite Ef in E; cbn [obind] in E.
  - injection E as <- <- <-. split; [exact Ct|]. left. split; [exact P|]. split; [exact Hh|reflexivity].
  - pose proof (static_cond m0 m1 wait (io_thresh (do_stat o))) as Sp.
    destruct (_ && Rltb 0 (io_thresh (do_stat o)))%bool eqn:Eb.
    + apply obind_ok in E. destruct E as (r & Er & E). injection E as <- <- <-. split; [exact Ct|]. right. exists (finding_of m0 m1). split; [exact Cn|].
      left. split; [apply Sp; reflexivity|]. exists r. auto.
    + assert (Ns : ~ static_case (io_thresh (do_stat o)) wait (finding_of m0 m1)) by (intros X; apply Sp in X; discriminate).
      destruct (do_dyn o && negb (negb m0 && negb m1))%bool eqn:Ed.
      * apply andb_true_iff in Ed. destruct Ed as [Ed1 Ed2]. apply obind_ok in E. destruct E as (r & Er & E). injection E as <- <- <-. split; [exact Ct|].
        right. exists (finding_of m0 m1). split; [exact Cn|]. right. left. split; [exact Ns|]. split; [exact Ed1|]. split; [destruct m0, m1; cbn in *; discriminate|]. exists r. auto.
      * injection E as <- <- <-. split; [exact Ct|]. right. exists (finding_of m0 m1). split; [exact Cn|]. right. right. split; [exact Ns|]. split; [|reflexivity].
        apply andb_false_iff in Ed. destruct Ed as [Ed|Ed]; [left; exact Ed|right]. destruct m0, m1; cbn in *; try discriminate; reflexivity.
Qed.

(** nothing but the two initializers themselves can fail *)
Lemma dispatch_defined {A} (o : dopts) (dyn : db -> list imu -> outcome (option A)) d data wait : db_ok d -> strictly_chron d ->
  (forall old data', data = old ++ data' -> exists r, static_initialize (do_stat o) data' wait = Ok r) -> (forall d' data', exists r, dyn d' data' = Ok r) ->
  exists r, inertial_initialize o dyn d data wait = Ok r.
Proof.
  intros Dk Sc Hs Hd. unfold inertial_initialize. cbv zeta. set (tn := newest_cam d). destruct (_ || _)%bool; [eauto|].
  destruct (cleanup_measurements_thm d (tn - io_window (do_stat o) - 10 / 100) Dk) as (d1 & Ec & Dk1 & Cl). rewrite Ec. cbn [obind].
  destruct (flags_spec o d1 tn Dk1 (cleaned_chron _ _ _ Cl Sc)) as [(Ef & _)|(m0 & m1 & Ef & _)]; rewrite Ef; cbn [obind]; [eauto|].
  destruct (_ && _)%bool.
  - destruct (drop_spec (tn - io_window (do_stat o) - 10 / 100 + do_dt o) data) as (old & Eo & _). destruct (Hs _ _ Eo) as (r & ->). cbn. eauto.
  - destruct (_ && _)%bool; [|eauto]. destruct (Hd d1 (drop_before (tn - io_window (do_stat o) - 10 / 100 + do_dt o) data)) as (r & ->). cbn. eauto.
Qed.

(** without a disparity threshold a jerk that is waited for never comes *)
Lemma never_thm {A} (o : dopts) (dyn : db -> list imu -> outcome (option A)) d data v d' data' : do_disp o <= 0 ->
  inertial_initialize o dyn d data true = Ok (v, d', data') -> v = VWait \/ v = VNone.
Proof.
  intros P. unfold inertial_initialize. cbv zeta. destruct (_ || _)%bool; [intros E; injection E as <- _ _; auto|].
  intros E. apply obind_ok in E. destruct E as (d1 & _ & E). unfold disp_flags in E. destruct (Rltb_spec 0 (do_disp o)); [lra|]. cbn in E.
  rewrite andb_false_r in E. injection E as <- _ _. auto.
Qed.

(** ** C81 *)
Lemma strided_nth r l : forall s k, (1 <= r)%nat -> nth_error (strided r s l) k = nth_error l (s + k * r).
Proof.
  induction l as [|x l IH]; intros s k Hr; cbn [strided].
  - destruct (s + k * r)%nat, k; reflexivity.
  - destruct s as [|s].
    + destruct k as [|k]; [reflexivity|]. cbn [nth_error]. rewrite IH by auto. replace (0 + S k * r)%nat with (S (r - 1 + k * r)) by nia. reflexivity.
    + rewrite IH by auto. reflexivity.
Qed.
Lemma strided_len n mx (l : list R) : length l = n -> (0 < mx)%nat -> (length (strided (n / mx + 1) 0 l) <= mx)%nat.
Proof.
  intros Hn Hm. destruct (Nat.le_gt_cases (length (strided (n / mx + 1) 0 l)) mx) as [H|H]; auto. exfalso.
  apply nth_error_Some in H. apply H. rewrite strided_nth by lia. apply nth_error_None. rewrite Hn. pose proof (Nat.div_mod n mx). pose proof (Nat.mod_upper_bound n mx). nia.
Qed.
Lemma strided_one l : strided 1 0 l = l.
Proof. induction l as [|x l IH]; cbn; [reflexivity|]. congruence. Qed.
Lemma strided_in r l : forall s x, In x (strided r s l) -> In x l.
Proof. induction l as [|y l IH]; intros s x; cbn [strided]; [tauto|]. destruct s; [intros [->|H]; cbn; eauto|]. intros H. right. eauto. Qed.
Lemma strided_inc r l : forall s, increasing l -> increasing (strided r s l).
Proof.
  induction l as [|y l IH]; intros s H; cbn [strided]; auto. apply increasing_cons in H. destruct H as [A B]. destruct s; [|auto].
  apply increasing_cons. split; auto. intros b Hb. apply A. eapply strided_in; eauto.
Qed.
Lemma filter_inc p l : increasing l -> increasing (filter p l).
Proof.
  induction l as [|y l IH]; intros H; cbn [filter]; auto. apply increasing_cons in H. destruct H as [A B]. destruct (p y); [|auto].
  apply increasing_cons. split; auto. intros b Hb. apply A. apply filter_In in Hb. apply Hb.
Qed.

Lemma forward_loop chi2q pin l : forall st, pin_ok pin -> filter_state chi2q st -> increasing l -> (forall t, In t l -> s_time st < t) ->
  (Z.of_nat (length (s_clones st) + length l) <= o_max_clones (s_opts st))%Z ->
  exists st', ofold (fun s t => do s1 <- propagate_and_clone s t (pin s t); marginalize_old_clone s1) l st = Ok st' /\ filter_state chi2q st' /\
    s_opts st' = s_opts st /\ map fst (s_clones st') = map fst (s_clones st) ++ l /\ s_time st' = last l (s_time st).
Proof.
  induction l as [|t l IH]; intros st Hp Hf Hi Ht Hn.
  - exists st. cbn. rewrite app_nil_r. auto.
  - apply increasing_cons in Hi. destruct Hi as [A B]. destruct (filter_ok _ _ Hf) as (Rc & (W1 & W2 & W3) & Hz).
    destruct (prop_clone_total chi2q st t (pin st t) Rc W2 (Ht t (or_introl eq_refl)) (Hp st t)) as (st1 & p & E1 & R1 & O1 & T1 & C1).
    cbn [ofold]. rewrite E1. cbn [obind].
    assert (Hl : (Z.of_nat (length (s_clones st1)) <= o_max_clones (s_opts st1))%Z) by (rewrite C1, O1, app_length; cbn [length] in *; lia).
    assert (Em : marginalize_old_clone st1 = Ok st1).
    { unfold marginalize_old_clone. destruct (Z.ltb_spec (o_max_clones (s_opts st1)) (Z.of_nat (length (s_clones st1)))); [lia|reflexivity]. }
    rewrite Em. cbn [obind].
    assert (F1 : filter_state chi2q st1).
    { apply (fs_frame chi2q st t (pin st t) [] st1 Hf); [split; [apply Hp|intros; exact I]|].
      unfold do_feature_propagate_update. pose proof (Ht t (or_introl eq_refl)) as Lt. destruct (Rltb_spec t (s_time st)); [lra|]. destruct (Reqb_spec (s_time st) t); [lra|].
      rewrite E1. cbn [obind]. destruct (_ <? _)%Z; [reflexivity|]. destruct (negb _); [reflexivity|]. cbn. exact Em. }
    destruct (IH st1 Hp F1 B) as (st' & E' & F' & O' & C' & T').
    { intros u Hu. rewrite T1. auto. } { rewrite C1, O1, app_length. cbn [length] in *. lia. }
    exists st'. split; [exact E'|]. split; [exact F'|]. split; [congruence|]. split; [rewrite C', C1, map_app, <- app_assoc; reflexivity|]. rewrite T', T1.
    destruct l; [reflexivity|]. cbn [last]. clear. revert r t. induction l as [|a l IHl]; intros; [reflexivity|]. cbn [last] in *. apply (IHl a).
Qed.

Lemma forward_thm chi2q pin queue ts st : pin_ok pin -> fresh chi2q ts st -> increasing queue ->
  exists st' l, forward pin queue ts st = Ok st' /\ filter_state chi2q st' /\ picked queue ts (o_max_clones (s_opts st)) l /\
    map fst (s_clones st') = l /\ s_time st' = last l ts /\ s_opts st' = s_opts st.
Proof.
  intros Hp (Rc & Hc & Hm & Ht) Hi. unfold forward. destruct (Z.ltb_spec 0 (o_max_clones (s_opts st))) as [Z0|Z0]; [|lia]. cbn [guard].
  set (sel := fun t => Rltb ts t). assert (Hs : forall t, sel t = true <-> ts < t) by (intros t; unfold sel; destruct (Rltb_spec ts t); split; auto; [discriminate|lra]).
  set (q := filter sel queue). set (mx := Z.to_nat (o_max_clones (s_opts st))). set (l := strided (length q / mx + 1) 0 q).
  assert (Ln : (length l <= mx)%nat) by (apply strided_len; auto; unfold mx; lia).
  destruct (forward_loop chi2q pin l st Hp (fs_start _ _ Rc Hc Hm)) as (st' & E & F & O & C & T).
  { apply strided_inc, filter_inc, Hi. }
  { intros t Hin. apply strided_in, filter_In in Hin. rewrite Ht. apply Hs. apply Hin. }
  { rewrite Hc. cbn [length]. unfold mx in Ln. lia. }
  exists st', l. split; [exact E|]. split; [exact F|]. split; [|rewrite Hc, Ht in *; auto].
  exists sel, q, (length q / mx + 1)%nat. split; [exact Hs|]. split; [reflexivity|]. split; [lia|]. split; [intros k; apply (strided_nth _ q 0 k); lia|]. split; [unfold mx in Ln; lia|].
  intros Hq. unfold l. rewrite Nat.div_small by (unfold mx; lia). apply strided_one.
Qed.

Lemma picked_in queue ts mx l t : picked queue ts mx l -> In t l -> In t queue /\ ts < t.
Proof.
  intros (sel & q & r & Hs & -> & Hr & Hn & _) Hin. apply In_nth_error in Hin. destruct Hin as (k & Hk). rewrite Hn in Hk. apply nth_error_In, filter_In in Hk.
  split; [apply Hk|]. apply Hs, Hk.
Qed.

Lemma truns_thm chi2q pin : pin_ok pin -> forall l s seen, orderly chi2q (ti_run s) (ti_fin s) (ti_ok s) l -> increasing (seen ++ msg_times l) ->
  increasing (ti_q s) -> (forall t, In t (ti_q s) -> In t seen) -> started chi2q seen s ->
  exists s', truns pin s l = Ok (answers (ti_run s) (ti_fin s) (ti_ok s) l, s') /\ started chi2q (seen ++ msg_times l) s'.
Proof.
  intros Hp. induction l as [|e l IH]; intros s seen Or Hi Hq Hs St.
  - exists s. cbn. rewrite app_nil_r. auto.
  - destruct e as [t|[[ts st]|]|]; cbn [truns tstep orderly answers] in *.
    + change (msg_times (TMsg t :: l)) with ([t] ++ msg_times l) in *. rewrite app_assoc in *.
      assert (Bt : forall x, In x seen -> x < t).
      { intros x Hx. rewrite <- app_assoc in Hi. cbn [app] in Hi. clear -Hi Hx. induction seen as [|y sn IHs]; [destruct Hx|]. cbn [app] in Hi. apply increasing_cons in Hi. destruct Hi as [A B].
        destruct Hx as [->|Hx]; [apply A, in_or_app; right; left; reflexivity|auto]. }
      assert (St' : forall s2, ti_ok s2 = ti_ok s -> ti_st s2 = ti_st s -> started chi2q (seen ++ [t]) s2).
      { intros s2 E1 E2 Ok2. rewrite E1 in Ok2. destruct (St Ok2) as [X Y]. rewrite E2. split; auto. intros u Hu. apply in_or_app. left. auto. }
      destruct (ti_run s) eqn:Er; [|destruct (ti_ok s) eqn:Ek]; cbn [obind fst snd].
      * destruct (IH (mkTI true (ti_fin s) (ti_ok s) (ti_q s ++ [t]) (ti_st s)) (seen ++ [t])) as (s' & E' & S'); cbn [ti_run ti_fin ti_ok ti_q ti_st]; auto.
        { apply increasing_snoc; auto. } { intros u Hu. apply in_or_app. apply in_app_or in Hu. destruct Hu as [Hu|Hu]; auto. }
        cbn [ti_run ti_fin ti_ok] in E'. rewrite E'. cbn [obind fst snd]. exists s'. auto.
      * destruct (IH s (seen ++ [t])) as (s' & E' & S').
        { rewrite Er, Ek. exact Or. } { exact Hi. } { exact Hq. } { intros u Hu. apply in_or_app. auto. } { auto. }
        rewrite E'. cbn [obind fst snd]. exists s'. split; [|exact S']. rewrite Er, Ek. reflexivity.
      * destruct (IH (mkTI true false false (ti_q s) (ti_st s)) (seen ++ [t])) as (s' & E' & S'); cbn [ti_run ti_fin ti_ok ti_q ti_st]; auto.
        { intros u Hu. apply in_or_app. auto. }
        cbn [ti_run ti_fin ti_ok] in E'. rewrite E'. cbn [obind fst snd]. exists s'. auto.
    + destruct Or as (Or1 & Or2 & Fr & Or). destruct (forward_thm chi2q pin (ti_q s) ts st Hp (Fr _ _ eq_refl) Hq) as (st' & p & E & F & Pk & C & _).
      rewrite E. cbn [obind fst snd]. change (msg_times (TEnd (Some (ts, st)) :: l)) with (msg_times l) in *.
      destruct (IH (mkTI (ti_run s) true true [] st') seen) as (s' & E' & S'); cbn [ti_run ti_fin ti_ok ti_q ti_st]; auto.
      { cbn. auto. } { intros ? []. } { intros _. split; [exact F|]. cbn [ti_st]. intros t Ht. rewrite C in Ht. apply Hs. eapply picked_in; eauto. }
      cbn [ti_run ti_fin ti_ok] in E'. rewrite E'. cbn [obind fst snd]. exists s'. auto.
    + destruct Or as (Or1 & Or2 & Fr & Or). cbn [obind fst snd]. change (msg_times (TEnd None :: l)) with (msg_times l) in *.
      destruct (IH (mkTI (ti_run s) true false [] (ti_st s)) seen) as (s' & E' & S'); cbn [ti_run ti_fin ti_ok ti_q ti_st]; auto.
      { cbn. auto. } { intros ? []. } { intros X. discriminate. }
      cbn [ti_run ti_fin ti_ok] in E'. rewrite E'. cbn [obind fst snd]. exists s'. auto.
    + destruct Or as (Or1 & Or). cbn [obind fst snd]. change (msg_times (TStop :: l)) with (msg_times l) in *.
      destruct (IH (mkTI false false (ti_ok s) (ti_q s) (ti_st s)) seen) as (s' & E' & S'); cbn [ti_run ti_fin ti_ok ti_q ti_st]; auto.
      cbn [ti_run ti_fin ti_ok] in E'. rewrite E'. cbn [obind fst snd]. exists s'. auto.
Qed.

(** two queued images with the same time, or one that is older than the one before, end the program *)
Lemma repeat_thm chi2q pin ts st t t' : pin_ok pin -> fresh chi2q ts st -> (3 <= o_max_clones (s_opts st))%Z -> ts < t' -> t' <= t ->
  forward pin [t; t'] ts st = Exit.
Proof.
  intros Hp (Rc & Hc & Hm & Ht) H3 L1 L2. unfold forward. destruct (Z.ltb_spec 0 (o_max_clones (s_opts st))) as [Z0|Z0]; [|lia]. cbn [guard filter].
  destruct (Rltb_spec ts t); [|lra]. destruct (Rltb_spec ts t'); [|lra]. cbn [length].
  rewrite (Nat.div_small 2) by lia. change (0 + 1)%nat with 1%nat. rewrite strided_one. cbn [ofold].
  assert (Hf : filter_state chi2q st) by (apply fs_start; auto). destruct (filter_ok _ _ Hf) as (_ & (W1 & W2 & W3) & Hz).
  destruct (prop_clone_total chi2q st t (pin st t) Rc W2) as (st1 & p & E1 & R1 & O1 & T1 & C1); [rewrite Ht; lra|apply Hp|].
  rewrite E1. cbn [obind]. unfold marginalize_old_clone. rewrite C1, O1, Hc. cbn [app length]. destruct (Z.ltb_spec (o_max_clones (s_opts st)) (Z.of_nat 1)); [lia|]. cbn [obind].
  unfold propagate_and_clone. rewrite T1. destruct (Reqb_spec t t'); [reflexivity|]. destruct (Rltb_spec t' t); [reflexivity|]. lra.
Qed.
Lemma interleaved_thm chi2q pin st0 l : pin_ok pin -> orderly chi2q false false false l -> increasing (msg_times l) ->
  exists s', truns pin (mkTI false false false [] st0) l = Ok (answers false false false l, s') /\ started chi2q (msg_times l) s'.
Proof.
  intros Hp Or Hi. apply (truns_thm chi2q pin Hp l (mkTI false false false [] st0) []); auto; [exact I|intros X; discriminate].
Qed.
