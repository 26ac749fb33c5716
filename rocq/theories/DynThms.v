(** C84 at the level of the function. *)
From Coq Require Import Reals List Arith ZArith Bool Sorted Lia Lra.
From Verif Require Import RBool Outcome GeoModel GeoSpec GeoProofs Lin TypesModel ImuModel DbModel DbSpec DbProofs DbThms InitModel InitProofs InitThms StartModel StartSpec StartThms PropModel PropSpec CpiModel CpiSpec DynModel DynSpec DynProofs.
From Verif Require ImuProofs.
Import ListNotations.
Open Scope R_scope.

(** ** how many times fit *)
Lemma spaced_tl dt x l : spaced dt (x :: l) -> spaced dt l.
Proof. intros H a b A B. apply H; right; auto. Qed.
Lemma spaced_len dt b l : 0 < dt -> forall x, StronglySorted Rlt (x :: l) -> spaced dt (x :: l) -> (forall t, In t (x :: l) -> t <= b) -> x + INR (length l) * dt <= b.
Proof.
  intros Hd. induction l as [|y l IH]; intros x So Sp Hb.
  - simpl. specialize (Hb x (or_introl eq_refl)). lra.
  - inversion So as [|? ? So' Fa]; subst. assert (Y : y + INR (length l) * dt <= b) by (apply IH; [exact So'|eapply spaced_tl, Sp|intros t Ht; apply Hb; right; exact Ht]).
    rewrite Forall_forall in Fa. pose proof (Fa y (or_introl eq_refl)) as L. assert (D : dt <= Rabs (x - y)) by (apply Sp; [left; auto|right; left; auto|lra]).
    rewrite Rabs_left in D by lra. cbn [length]. rewrite S_INR. lra.
Qed.
Lemma pose_dt_pos o : 0 < yo_window o -> (0 <= yo_npose o)%Z -> 0 < pose_dt o.
Proof. intros W N. unfold pose_dt. apply Rdiv_lt_0_compat; [exact W|]. apply IZR_lt. lia. Qed.
Lemma pose_count o P tn : 0 < yo_window o -> (0 <= yo_npose o)%Z -> StronglySorted Rlt P -> spaced (pose_dt o) P ->
  (forall t, In t P -> tn - yo_window o < t <= tn) -> (Z.of_nat (length P) <= yo_npose o + 1)%Z.
Proof.
  intros W N So Sp Hb. pose proof (pose_dt_pos o W N) as Hd. destruct P as [|x l]; [simpl; lia|].
  assert (A : x + INR (length l) * pose_dt o <= tn) by (apply spaced_len; auto; intros t Ht; apply Hb, Ht).
  pose proof (Hb x (or_introl eq_refl)) as [B _]. assert (C : INR (length l) * pose_dt o < yo_window o) by lra.
  assert (K : IZR (yo_npose o + 1) * pose_dt o = yo_window o) by (unfold pose_dt; field; apply not_0_IZR; lia).
  rewrite <- K in C. apply Rmult_lt_reg_r in C; [|exact Hd]. rewrite INR_IZR_INZ in C. apply lt_IZR in C. cbn [length]. lia.
Qed.

(** ** the rows *)
Lemma cam_rows_len P mk : (forall t z, length (mk t z) = 2%nat) -> forall ts ns r, cam_rows P mk ts ns = Ok r -> length r = (2 * length (filter (tfind P) ts))%nat.
Proof.
  intros M. induction ts as [|t ts IH]; intros ns r E; cbn [cam_rows filter] in *.
  - injection E as <-. reflexivity.
  - destruct (tfind P t).
    + destruct ns as [|n ns]; [discriminate|]. apply obind_ok in E. destruct E as (r' & E & E'). injection E' as <-. rewrite app_length, M, (IH _ _ E). cbn [length]. lia.
    + apply (IH _ _ E).
Qed.
Lemma rows_of_len cs k e t z : length (rows_of cs k e t z) = 2%nat.
Proof. unfold rows_of. destruct (cpi_at cs t) as [[[DT Rk] al] be]. reflexivity. Qed.
Lemma feat_rows_len o P cs k f : forall cams r, feat_rows o P cs k f cams = Ok r ->
  length r = (2 * fold_right (fun (ct : nat * list R) n => (length (filter (tfind P) (snd ct)) + n)%nat) O cams)%nat.
Proof.
  induction cams as [|[cam ts] cams IH]; intros r E; cbn [feat_rows fold_right snd] in *.
  - injection E as <-. reflexivity.
  - destruct (alook (yo_ext o) cam) as [e|]; [|discriminate]. apply obind_ok in E. destruct E as (a & Ea & E). apply obind_ok in E. destruct E as (b & Eb & E). injection E as <-.
    rewrite app_length, (cam_rows_len P _ (rows_of_len cs k e) _ _ _ Ea), (IH _ Eb). lia.
Qed.
Lemma all_rows_len o P cs : forall l k r, all_rows o P cs k l = Ok r -> length r = (2 * total P l)%nat.
Proof.
  induction l as [|[id f] l IH]; intros k r E; cbn [all_rows] in E.
  - injection E as <-. reflexivity.
  - apply obind_ok in E. destruct E as (a & Ea & E). apply obind_ok in E. destruct E as (b & Eb & E). injection E as <-.
    rewrite app_length, (feat_rows_len _ _ _ _ _ _ _ Ea), (IH _ _ Eb), total_cons. unfold at_poses; cbn [snd]. lia.
Qed.
Lemma rows_thm o d tn cs rows : db_ok d -> 0 < yo_window o -> (0 <= yo_npose o)%Z ->
  let s := scan o d tn in all_rows o (sc_poses s) cs 0 (valid_feats o s d) = Ok rows ->
  length rows = sc_meas s /\ sc_cnt s = length (valid_feats o s d).
Proof.
  intros [Nd _] W N s E.
  assert (S0 : spaced (pose_dt o) [tn]) by (intros x y [<-|[]] [<-|[]] X; contradiction).
  pose proof (scan_inv o (pose_dt o) d (pose_dt_pos o W N) Nd (mkSc [] 0 None [tn] 0) S0) as I. cbv zeta in I. specialize (I ltac:(repeat constructor)).
  fold (scan o d tn) in I. fold s in I. destruct I as (_ & _ & _ & I4 & I5 & _). cbn [sc_cnt sc_meas] in I4, I5.
  rewrite (all_rows_len _ _ _ _ _ _ E). split; [rewrite I5; reflexivity|rewrite I4; reflexivity].
Qed.

(** ** when is the function defined *)
Lemma cam_rows_ok P mk : forall ts ns, (length ts <= length ns)%nat -> exists r, cam_rows P mk ts ns = Ok r.
Proof.
  induction ts as [|t ts IH]; intros [|n ns] H; cbn [cam_rows length tl] in *; try lia; try (eexists; reflexivity).
  destruct (IH ns ltac:(lia)) as (r & E). destruct (tfind P t); rewrite E; eexists; reflexivity.
Qed.
Lemma feat_rows_ok o P cs k f : feat_ok f -> forall cams, incl cams (f_ts f) -> (forall cam ts, In (cam, ts) cams -> exists e, alook (yo_ext o) cam = Some e) ->
  exists r, feat_rows o P cs k f cams = Ok r.
Proof.
  intros (Nd & Pa). induction cams as [|[cam ts] cams IH]; intros Hi K; cbn [feat_rows]; [eexists; reflexivity|].
  destruct (K cam ts (or_introl eq_refl)) as (e & ->). assert (Ec : alook (f_ts f) cam = Some ts) by (apply alook_in; auto; apply Hi; left; auto).
  specialize (Pa cam). rewrite Ec in Pa. unfold aget. destruct (alook (f_uvs f) cam) as [us|]; [|contradiction]. destruct (alook (f_uvn f) cam) as [ns|]; [|contradiction]. destruct Pa as [_ Pa].
  destruct (cam_rows_ok P (rows_of cs k e) ts ns ltac:(lia)) as (a & ->). cbn [obind].
  destruct IH as (b & ->); [intros x Hx; apply Hi; right; auto|intros c t Hc; apply (K c t); right; auto|]. eexists; reflexivity.
Qed.
Lemma all_rows_ok o P cs : forall l k, (forall id f, In (id, f) l -> feat_ok f) -> cams_known o l -> exists r, all_rows o P cs k l = Ok r.
Proof.
  induction l as [|[id f] l IH]; intros k Ok_ K; cbn [all_rows]; [eexists; reflexivity|].
  destruct (feat_rows_ok o P cs k f (Ok_ id f (or_introl eq_refl)) (f_ts f) (incl_refl _)) as (a & ->); [intros c t Hc; apply (K id f c t); [left; auto|auto]|]. cbn [obind].
  destruct (IH (S k)) as (b & ->); [intros i g Hg; apply (Ok_ i g); right; auto|intros i g c t Hg; apply (K i g c t); right; auto|]. eexists; reflexivity.
Qed.
Lemma in_front_ok o p f : (forall cam ts, In (cam, ts) (f_ts f) -> exists e, alook (yo_ext o) cam = Some e) -> exists b, in_front o p f = Ok b.
Proof.
  unfold in_front. generalize true. induction (f_ts f) as [|[cam ts] l IH]; intros b K; cbn [ofold]; [eexists; reflexivity|]. cbn [fst].
  destruct (K cam ts (or_introl eq_refl)) as (e & ->). cbn [obind]. apply IH. intros c t Hc. apply (K c t). right; auto.
Qed.
Lemma guess_feats_ok o x : forall l k, cams_known o l -> exists r, guess_feats o x k l = Ok r.
Proof.
  induction l as [|[id f] l IH]; intros k K; cbn [guess_feats]; [eexists; reflexivity|].
  destruct (in_front_ok o (seg x (3 * k)) f) as (b & ->); [intros c t Hc; apply (K id f c t); [left; auto|auto]|]. cbn [obind].
  destruct (IH (S k)) as (r & ->); [intros i g c t Hg; apply (K i g c t); right; auto|]. eexists; reflexivity.
Qed.
Lemma sel_loop_ok t0 t1 : forall l p acc, exists r, sel_loop t0 t1 p l acc = Ok r.
Proof.
  induction l as [|a [|b l] IH]; intros p acc; try (eexists; reflexivity). rewrite ImuProofs.sel_eq.
  destruct (_ && _)%bool; [apply IH|]. destruct (_ && _)%bool; [apply IH|]. destruct (Rltb t1 (i_t b)); [|apply IH].
  destruct (if Rltb t1 (i_t a) then _ else _) as [x|]; [|eexists; reflexivity]. destruct (Reqb (i_t x) t1); eexists; reflexivity.
Qed.
Lemma init_select_ok data t0 t1 : exists l, init_select_imu_readings data t0 t1 = Ok l.
Proof. unfold init_select_imu_readings. destruct data as [|a data]; [eexists; reflexivity|]. destruct (sel_loop_ok t0 t1 (a :: data) None []) as (r & ->). eexists; reflexivity. Qed.
Lemma preint_ok o data ta tb : exists r, preint o data ta tb = Ok r.
Proof.
  unfold preint. destruct (init_select_ok data (ta + yo_dt o) (tb + yo_dt o)) as (l & ->). cbn [obind].
  destruct (length l <? 2)%nat; [eexists; reflexivity|]. destruct (Rltb _ _); eexists; reflexivity.
Qed.
Lemma preint_all_ok o data old : forall P lt, exists r, preint_all o data old lt P = Ok r.
Proof.
  induction P as [|t P IH]; intros lt; cbn [preint_all]; [eexists; reflexivity|]. unfold otry.
  destruct (IH t) as (r & ->). destruct (Reqb t old); cbn [obind]; [destruct r; eexists; reflexivity|].
  destruct (preint_ok o data old t) as (r0 & ->). cbn [obind]. destruct r0; [|eexists; reflexivity].
  destruct (preint_ok o data lt t) as (r1 & ->). cbn [obind]. destruct r1; [|eexists; reflexivity]. destruct r; eexists; reflexivity.
Qed.
Lemma solve_grav L g m n A b x gr : solve L g m n A b = Some (x, gr) -> Rabs (v3norm gr - g) <= 1 / 1000.
Proof.
  unfold solve. destruct (reduce L m n A b) as [[[P A2] D] d]. cbv zeta. destruct (negb _); [discriminate|]. destruct (ya_eigs L _) as [ev|]; [|discriminate].
  destruct (best_lambda L D d g ev) as [l|]; [|discriminate]. destruct (Rltb_spec (1 / 1000) (Rabs (v3norm (grav_for L D d l) - g))); [discriminate|].
  intros E. injection E as _ <-. lra.
Qed.
(** what the scan gives for observations not newer than [tn] *)
Lemma scan_facts o d tn : db_ok d -> 0 < yo_window o -> (0 <= yo_npose o)%Z -> (forall t, measured d t -> tn - yo_window o < t <= tn) ->
  let s := scan o d tn in
  spaced (pose_dt o) (sc_poses s) /\ StronglySorted Rlt (sc_poses s) /\ In tn (sc_poses s) /\ (forall t, In t (sc_poses s) -> t = tn \/ measured d t) /\
  (forall m, sc_old s = Some m -> In m (sc_poses s)) /\ (forall t, In t (sc_poses s) -> t <> tn -> exists m, sc_old s = Some m /\ m <= t) /\
  sc_cnt s = length (valid_feats o s d).
Proof.
  intros Dk W N Hm s. destruct Dk as [Nd Dk].
  assert (S0 : spaced (pose_dt o) [tn]) by (intros x y [<-|[]] [<-|[]] X; contradiction).
  pose proof (scan_inv o (pose_dt o) d (pose_dt_pos o W N) Nd (mkSc [] 0 None [tn] 0) S0) as I. cbv zeta in I. specialize (I ltac:(repeat constructor)).
  fold (scan o d tn) in I. fold s in I. destruct I as (I1 & I2 & I3 & I4 & I5 & I6 & I7 & I8 & I9 & I10). cbn [sc_cnt sc_meas sc_poses sc_old] in *.
  split; [exact I1|]. split; [exact I2|]. split; [apply I3; left; auto|]. split; [|split; [|split]].
  - intros t Ht. destruct (I6 t Ht) as [[<-|[]]|([id f] & E1 & cam & ts & E2 & E3)]; [left; auto|right].
    apply all_times_spec; [split; auto|]. unfold all_times. apply in_flat_map. apply filter_In in E1. exists f. split; [apply in_map_iff; exists (id, f); split; [reflexivity|apply E1]|].
    apply in_flat_map. exists (cam, ts). auto.
  - intros m Hm'. destruct (I7 m Hm') as [X|X]; [discriminate|exact X].
  - intros t Ht Hn. destruct (I8 t Ht) as [[<-|[]]|X]; [contradiction|exact X].
  - exact I4.
Qed.
Lemma defined_thm L o d data tn : db_ok d -> cams_known o d -> 0 < yo_window o -> (2 <= yo_npose o)%Z -> 1 / 1000 < yo_g o ->
  (forall t, measured d t -> tn - yo_window o < t <= tn) ->
  (forall t rd, measured d t -> t < tn -> init_select_imu_readings data (t + yo_dt o) (tn + yo_dt o) = Ok rd -> (3 <= length rd)%nat) ->
  exists r, dyn_core L o d data tn = Ok r.
Proof.
  intros Dk K W N G Hm Hr. pose proof (scan_facts o d tn Dk W ltac:(lia) Hm) as F. cbv zeta in F. unfold dyn_core. set (s := scan o d tn) in *. cbv zeta.
  destruct F as (F1 & F2 & F3 & F4 & F5 & F6 & F7).
  destruct (Z.ltb_spec (Z.of_nat (length (sc_poses s))) (yo_npose o)) as [L1|L1]; [eexists; reflexivity|].
  destruct (sc_cnt s <? 8)%nat; [eexists; reflexivity|].
  assert (O : exists old, sc_old s = Some old /\ old < tn /\ measured d old).
  { assert (X : exists t, In t (sc_poses s) /\ t <> tn).
    { destruct (sc_poses s) as [|a [|b l]] eqn:Ep; cbn [length] in L1; try lia. inversion F2 as [|? ? F2' Fa]; subst. rewrite Forall_forall in Fa. specialize (Fa b (or_introl eq_refl)).
      destruct (Req_dec a tn); [exists b; split; [right; left; auto|lra]|exists a; split; [left; auto|auto]]. }
    destruct X as (t & T1 & T2). destruct (F6 t T1 T2) as (m & M1 & M2). exists m. split; [exact M1|].
    assert (Tm : measured d t) by (destruct (F4 t T1); [contradiction|auto]). destruct (Hm t Tm) as [_ U].
    assert (Ml : m < tn) by lra. split; [exact Ml|]. destruct (F4 m (F5 m M1)); [lra|auto]. }
  destruct O as (old & -> & O1 & O2). destruct (init_select_ok data (old + yo_dt o) (tn + yo_dt o)) as (rd & Erd). rewrite Erd. cbn [obind].
  pose proof (Hr old rd O2 O1 Erd) as Lr. unfold guard. replace (2 <? length rd)%nat with true by (symmetry; apply Nat.ltb_lt; lia).
  destruct (Rltb _ (yo_deg o)); [eexists; reflexivity|]. destruct (sc_meas s <? _)%nat; [eexists; reflexivity|].
  destruct (Rltb_spec old tn); [|lra]. unfold otry. destruct (preint_all_ok o data old (sc_poses s) 0) as (r & ->). cbn [obind]. destruct r as [cs|]; [|eexists; reflexivity].
  assert (Kv : cams_known o (valid_feats o s d)) by (intros id f c t Hi; apply filter_In in Hi; apply (K id f c t), Hi).
  destruct (all_rows_ok o (sc_poses s) cs (valid_feats o s d) 0) as (rows & Er); [intros id f Hi; apply filter_In in Hi; apply Dk with id, Hi|exact Kv|].
  rewrite Er. cbn [obind]. destruct (rows_thm o d tn cs rows Dk W ltac:(lia) Er) as [Ln _]. fold s in Ln. rewrite Ln, Nat.leb_refl.
  destruct (solve L (yo_g o) (sc_meas s) _ _ _) as [[x g]|] eqn:Es; [|eexists; reflexivity]. apply solve_grav in Es.
  destruct (guess_feats_ok o x (valid_feats o s d) 0 Kv) as (fs & ->). cbn [obind]. destruct (length fs <? 8)%nat; [eexists; reflexivity|].
  assert (Gz : g <> v3zero). { intros ->. unfold v3norm in Es. replace (v3dot v3zero v3zero) with 0 in Es by (unfold v3dot; simpl; ring). rewrite sqrt_0 in Es. rewrite Rabs_left in Es by lra. lra. }
  destruct (gram_schmidt_rot g Gz) as (Rg & -> & _). eexists; reflexivity.
Qed.

(** ** the poses of a guess *)
Lemma poses_times cs v0 g Rg P : map (fun e : R * q4 * v3 * v3 => fst (fst (fst e))) (map (guess_pose cs v0 g Rg) P) = P.
Proof. rewrite map_map. rewrite <- (map_id P) at 2. apply map_ext. intros t. unfold guess_pose. destruct (cpi_at cs t) as [[[DT Rk] al] be]. reflexivity. Qed.
Lemma core_poses L o d data tn gu : dyn_core L o d data tn = Ok (Some gu) ->
  map (fun e : R * q4 * v3 * v3 => fst (fst (fst e))) (gu_poses gu) = sc_poses (scan o d tn) /\ (yo_npose o <= Z.of_nat (length (sc_poses (scan o d tn))))%Z.
Proof.
  unfold dyn_core. cbv zeta. set (s := scan o d tn). destruct (Z.ltb_spec (Z.of_nat (length (sc_poses s))) (yo_npose o)) as [L1|L1]; [discriminate|].
  destruct (sc_cnt s <? 8)%nat; [discriminate|]. destruct (sc_old s) as [old|]; [|discriminate]. intros E. apply obind_ok in E. destruct E as (rd & _ & E).
  apply guard_ok in E; [|discriminate]. destruct E as [_ E]. destruct (Rltb _ (yo_deg o)); [discriminate|]. destruct (sc_meas s <? _)%nat; [discriminate|].
  apply guard_ok in E; [|discriminate]. destruct E as [_ E]. unfold otry in E. apply obind_ok in E. destruct E as (cs & _ & E). destruct cs as [cs|]; [|discriminate].
  apply obind_ok in E. destruct E as (rows & _ & E). apply guard_ok in E; [|discriminate]. destruct E as [_ E]. destruct (solve _ _ _ _ _ _) as [[x g]|]; [|discriminate].
  apply obind_ok in E. destruct E as (fs & _ & E). destruct (length fs <? 8)%nat; [discriminate|]. apply obind_ok in E. destruct E as (Rg & _ & E). injection E as <-. cbn [gu_poses].
  split; [apply poses_times|exact L1].
Qed.
Lemma cleaned_measured t d d' x : cleaned (fun y => t < y) d d' -> (measured d' x <-> measured d x /\ t < x).
Proof.
  intros C. unfold measured. split.
  - intros (id & f' & E & cam & ob & I & T). specialize (C id). destruct (alook d id) as [f|] eqn:Ed; [|congruence]. destruct C as [C _]. destruct (C f' E) as (_ & sel & S & Tr).
    rewrite Tr in I. apply filter_In in I. destruct I as [I1 I2]. apply S in I2. rewrite T in I2. split; [|exact I2]. exists id, f. split; [exact Ed|]. exists cam, ob. auto.
  - intros ((id & f & E & cam & ob & I & T) & L). specialize (C id). rewrite E in C. destruct C as [C1 C2]. destruct (alook d' id) as [f'|] eqn:Ed.
    + destruct (C1 f' eq_refl) as (_ & sel & S & Tr). exists id, f'. split; [exact Ed|]. exists cam, ob. split; [|exact T]. rewrite Tr. apply filter_In. split; [exact I|]. apply S. rewrite T. exact L.
    + exfalso. apply (proj1 C2 eq_refl x); [exists cam, ob; auto|exact L].
Qed.
Lemma poses_thm L o d data gu d' data' : db_ok d -> 0 < yo_window o -> (0 <= yo_npose o)%Z -> dynamic_guess L o d data = Ok (Some gu, d', data') ->
  exists tn, newest d tn /\ let P := map (fun e : R * q4 * v3 * v3 => fst (fst (fst e))) (gu_poses gu) in
    StronglySorted Rlt P /\ In tn P /\ (forall t, In t P -> measured d t /\ tn - yo_window o < t <= tn) /\
    spaced (yo_window o / IZR (yo_npose o + 1)) P /\ (yo_npose o <= Z.of_nat (length P) <= yo_npose o + 1)%Z.
Proof.
  intros Dk W N. unfold dynamic_guess. cbv zeta. rewrite newest_cam_eq. destruct (fold_max (all_times d) (-1)) as (M1 & M2 & M3). set (tn := fold_left std_max (all_times d) (-1)) in *.
  destruct (Rltb_spec tn 0) as [H0|H0]; cbn [orb]; [discriminate|]. destruct (Rltb_spec (tn - yo_window o) 0) as [H1|H1]; [discriminate|].
  destruct (cleanup_measurements_thm d (tn - yo_window o) Dk) as (d1 & Ec & Dk1 & Cl). rewrite Ec. cbn [obind].
  destruct (Rltb (INR (length d1)) _); [discriminate|]. destruct (_ || _)%bool; [discriminate|]. intros E. apply obind_ok in E. destruct E as (r & Er & E). injection E as -> -> _.
  assert (Nw : newest d tn).
  { split; [apply all_times_spec; auto; destruct M3 as [M3|M3]; [lra|exact M3]|]. intros t Ht. apply M2. apply all_times_spec; auto. }
  assert (Hm : forall t, measured d' t -> tn - yo_window o < t <= tn).
  { intros t Ht. apply (cleaned_measured _ _ _ _ Cl) in Ht. destruct Ht as [A B]. split; [exact B|apply Nw, A]. }
  exists tn. split; [exact Nw|]. cbv zeta. destruct (core_poses _ _ _ _ _ _ Er) as [-> Ln].
  pose proof (scan_facts o d' tn Dk1 W N Hm) as F. cbv zeta in F. set (s := scan o d' tn) in *. destruct F as (F1 & F2 & F3 & F4 & _).
  assert (Mt : forall t, In t (sc_poses s) -> measured d t /\ tn - yo_window o < t <= tn).
  { intros t Ht. destruct (F4 t Ht) as [->|X]; [split; [apply Nw|lra]|]. split; [apply (cleaned_measured _ _ _ _ Cl) in X; apply X|apply Hm, X]. }
  split; [exact F2|]. split; [exact F3|]. split; [exact Mt|]. split; [exact F1|]. split; [exact Ln|]. apply (pose_count o _ tn); auto. intros t Ht. apply Mt, Ht.
Qed.
