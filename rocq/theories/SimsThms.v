(** The constructor of the simulator as a whole. *)
From Coq Require Import Reals Lra Lia List Arith Bool ZArith FunctionalExtensionality.
From Verif Require Import Outcome RBool GeoModel GeoSpec GeoProofs DbModel DbProofs FeatModel DescProofs.
From Verif Require Import BsplModel BsplSpec BsplFind BsplFeed BsplThms SimModel SimSpec SimThms SimsModel SimsSpec SimsProofs SimsMap.
Import ListNotations.
Open Scope R_scope.

Section New.
Variables (dist und : camobj -> px -> px) (b : spar) (mind th : R) (pert : bool) (w : nat -> R) (u : nat -> R * R * R).
Notation new := (sim_new dist und b mind th pert w u).

Lemma new_inv l st h o m : new l st h o = Ok m -> exists cs cams c t,
  copy_cams h (length h) (vo_cams o) = Ok (cs, cams) /\ start_times l st (sp_fc b) th = Ok c /\ st = Some t /\
  md_true m = set_cams o cams /\ md_sim m = start_state (sp_fi b) c /\
  (if pert then perturb_parameters w (h ++ cs) o = Ok (md_heap m, md_user m) else md_heap m = h ++ cs /\ md_user m = o) /\
  md_par m = spar_of dist und b (md_heap m) (set_cams o cams) /\
  make_map l (md_par m) (md_heap m) (set_cams o cams) mind u t = Ok (md_id m, md_map m).
Proof.
  unfold sim_new. intros H. apply obind_ok in H. destruct H as ([h1 own] & Hc & H). unfold copy_params in Hc.
  apply obind_ok in Hc. destruct Hc as ([cs cams] & Hc & E). cbn [fst snd] in E. injection E as <- <-. cbn [fst snd] in H.
  apply obind_ok in H. destruct H as (c & Hs & H). apply obind_ok in H. destruct H as ([h2 user] & Hp & H). cbn [fst snd] in H.
  destruct st as [t|]; [|discriminate]. apply obind_ok in H. destruct H as ([idm mp] & Hm & H). injection H as <-. cbn [md_true md_sim md_par md_heap md_user md_id md_map fst snd].
  exists cs, cams, c, t. repeat (split; [first [reflexivity|assumption]|]).
  split; [|split; [reflexivity|exact Hm]].
  destruct pert; [exact Hp|]. injection Hp as <- <-. auto.
Qed.

(** the objects behind the copied pointers stay as they were *)
Lemma perturb_len h o h' o' : perturb_parameters w h o = Ok (h', o') -> length h' = length h /\
  forall a, (forall i, alook (vo_cams o) i <> Some a) -> nth_error h' a = nth_error h a.
Proof.
  unfold perturb_parameters. intros H. apply obind_ok in H. destruct H as ([[k h1] o1] & E1 & H).
  assert (G : forall cnt m0 s1 s2, ofold (perturb_cam w) (seq m0 cnt) s1 = Ok s2 ->
     length (snd (fst s2)) = length (snd (fst s1)) /\ vo_cams (snd s2) = vo_cams (snd s1) /\
     forall a, (forall i, alook (vo_cams (snd s1)) i <> Some a) -> nth_error (snd (fst s2)) a = nth_error (snd (fst s1)) a).
  { induction cnt as [|cnt IH]; intros m0 [[k0 h0] o0] s2; cbn [seq ofold]; intros E; [injection E as <-; auto|].
    apply obind_ok in E. destruct E as ([[k3 h3] o3] & E & F). apply IH in F. cbn [fst snd] in *. destruct F as (F1 & F2 & F3).
    cbn [perturb_cam] in E. apply obind_ok in E. destruct E as (a & Ea & E). apply look_ok in Ea.
    apply obind_ok in E. destruct E as (c & Ec & E). apply look_ok in Ec. apply obind_ok in E. destruct E as (e & Ee & E). injection E as <- <- <-.
    assert (La : (a < length h0)%nat) by (apply nth_error_Some; congruence).
    rewrite put_len in F1. cbn [set_ext vo_cams] in *. split; [exact F1|]. split; [exact F2|]. intros d Hd. rewrite F3 by exact Hd. rewrite put_nth by auto.
    destruct (Nat.eqb_spec d a) as [->|]; [exfalso; apply (Hd m0); auto|reflexivity]. }
  specialize (G _ _ _ _ E1). cbn [fst snd set_dt vo_cams] in G. destruct (perturb_imu w k o1) as [k4 o4]. injection H as <- _. destruct G as (G1 & _ & G3). auto.
Qed.
Lemma new_objects l st h o m : new l st h o = Ok m ->
  (forall i a, In (i, a) (vo_cams o) -> (a < length h)%nat) /\
  (forall i, alook (vo_cams o) i = None -> alook (vo_cams (md_true m)) i = None) /\
  (forall i a, alook (vo_cams o) i = Some a -> exists a' c, alook (vo_cams (md_true m)) i = Some a' /\ (length h <= a')%nat /\
     nth_error h a = Some c /\ nth_error (md_heap m) a' = Some c).
Proof.
  intros H. destruct (new_inv _ _ _ _ _ H) as (cs & cams & c & t & Hc & _ & _ & Ht & _ & Hp & _).
  destruct (copy_spec _ _ _ _ _ Hc) as (C1 & C2 & C3 & C4). rewrite Ht. cbn [set_cams vo_cams]. split; [exact C1|]. split; [exact C3|].
  intros i a E. destruct (C4 i a E) as (j & c0 & D1 & D2 & D3). exists (length h + j)%nat, c0. split; [exact D1|]. split; [lia|]. split; [exact D2|].
  assert (N : nth_error (h ++ cs) (length h + j) = Some c0) by (rewrite nth_error_app2 by lia; rewrite Nat.add_comm, Nat.add_sub; exact D3).
  destruct pert; [|destruct Hp as [-> _]; exact N]. destruct (perturb_len _ _ _ _ Hp) as [_ P]. rewrite P; [exact N|].
  intros i' E'. assert (length h + j < length h)%nat; [|lia]. apply (C1 i'). revert E'. clear. generalize (vo_cams o). induction a as [|[k v] r IH]; cbn [alook]; [discriminate|].
  destruct (Nat.eqb_spec i' k) as [->|]; [intros E; injection E as ->; left; reflexivity|intros E; right; auto].
Qed.

Lemma alook_In {A} (m : amap A) i a : alook m i = Some a -> In (i, a) m.
Proof.
  induction m as [|[k v] r IH]; cbn [alook]; [discriminate|].
  destruct (Nat.eqb_spec i k) as [->|]; [intros E; injection E as ->; left; reflexivity|intros E; right; auto].
Qed.
Lemma perturb_cams h o h' o' : perturb_parameters w h o = Ok (h', o') -> vo_cams o' = vo_cams o.
Proof.
  unfold perturb_parameters. intros H. apply obind_ok in H. destruct H as ([[k h1] o1] & E1 & H).
  assert (G : forall cnt m0 s1 s2, ofold (perturb_cam w) (seq m0 cnt) s1 = Ok s2 -> vo_cams (snd s2) = vo_cams (snd s1)).
  { induction cnt as [|cnt IH]; intros m0 [[k0 h0] o0] s2; cbn [seq ofold]; intros E; [injection E as <-; auto|].
    apply obind_ok in E. destruct E as ([[k3 h3] o3] & E & F). apply IH in F. cbn [fst snd] in *.
    cbn [perturb_cam] in E. apply obind_ok in E. destruct E as (a & Ea & E).
    apply obind_ok in E. destruct E as (c & Ec & E). apply obind_ok in E. destruct E as (e & Ee & E). injection E as <- <- <-. exact F. }
  specialize (G _ _ _ _ E1). cbn [fst snd set_dt vo_cams] in G. unfold perturb_imu, perturb_tg in H.
  destruct (vo_intr o1), (vo_kalibr o1); cbn [set_imu vo_gsens] in H; destruct (vo_gsens o1); injection H as _ <-; exact G.
Qed.

(** ** C102: the true values *)
Theorem truth_kept l st h o m : new l st h o = Ok m ->
  md_true m = set_cams o (vo_cams (md_true m)) /\
  (forall i, alook (vo_cams o) i = None <-> alook (vo_cams (md_true m)) i = None) /\
  (forall i a c, alook (vo_cams o) i = Some a -> nth_error h a = Some c -> exists a', alook (vo_cams (md_true m)) i = Some a' /\
     nth_error (md_heap m) a' = Some c /\ (forall j, alook (vo_cams (md_user m)) j <> Some a') /\
     sp_distort (md_par m) i = dist c /\ sp_undistort (md_par m) i = und c /\ sp_size (md_par m) i = (co_w c, co_h c)) /\
  (forall i e, alook (vo_ext o) i = Some e -> sp_ext (md_par m) i = e) /\ sp_dt (md_par m) = vo_dt o.
Proof.
  intros H. destruct (new_objects _ _ _ _ _ H) as (O1 & O2 & O3). destruct (new_inv _ _ _ _ _ H) as (cs & cams & c & t & Hc & _ & _ & Ht & _ & Hp & Hpar & _).
  split; [rewrite Ht; reflexivity|]. split.
  { intros i. split; [apply O2|]. intros E. destruct (alook (vo_cams o) i) as [a|] eqn:Ea; [|reflexivity].
    destruct (O3 i a Ea) as (a' & c' & X & _). congruence. }
  split; [|split].
  - intros i a c0 Ea E0. destruct (O3 i a Ea) as (a' & c' & X1 & X2 & X3 & X4). assert (c' = c0) by congruence. subst c'. exists a'. split; [exact X1|]. split; [exact X4|]. split.
    + intros j Ej. assert (U : vo_cams (md_user m) = vo_cams o).
      { destruct pert; [eapply perturb_cams; exact Hp|]. destruct Hp as [_ ->]. reflexivity. }
      rewrite U in Ej. apply alook_In in Ej. apply O1 in Ej. lia.
    + rewrite Hpar. cbn [spar_of sp_distort sp_undistort sp_size]. rewrite Ht in X1. cbn [set_cams vo_cams] in *. rewrite X1, X4. auto.
  - intros i e E. rewrite Hpar. cbn [spar_of sp_ext set_cams vo_ext]. rewrite E. reflexivity.
  - rewrite Hpar. reflexivity.
Qed.

(** ** C100 *)
Theorem new_start l tmin dt n Rf pf h o m : uniform l tmin dt n -> pose_curve l Rf pf -> 0 < sp_fc b ->
  new l (Some (tmin + 2 * dt)) h o = Ok m ->
  exists k, let t0 := tmin + 2 * dt + INR k * (1 / sp_fc b) in
    first_beyond pf (tmin + 2 * dt) (1 / sp_fc b) th k /\ t0 < finish tmin dt n /\ md_sim m = sim_init (md_par m) t0 v3zero v3zero.
Proof.
  intros U C F H. assert (D : 0 < dt) by apply U. destruct (new_inv _ _ _ _ _ H) as (cs & cams & c & t & Hc & Hs & Et & _ & Hsim & _ & Hpar & _). injection Et as <-.
  destruct (start_spec l tmin dt n Rf pf (sp_fc b) th (tmin + 2 * dt) U C F ltac:(lra)) as [(k & A1 & A2 & A3)|(A & _)]; [|congruence].
  exists k. cbv zeta. split; [exact A1|]. split; [exact A2|]. rewrite A3 in Hs. injection Hs as <-. rewrite Hsim, Hpar. reflexivity.
Qed.
Lemma copy_defined h cams : (forall i a, In (i, a) cams -> (a < length h)%nat) -> forall k, exists r, copy_cams h k cams = Ok r.
Proof.
  induction cams as [|[i a] r IH]; intros H k; cbn [copy_cams]; [eexists; reflexivity|].
  destruct (nth_error h a) as [c|] eqn:E; [|apply nth_error_None in E; specialize (H i a (or_introl eq_refl)); lia].
  cbn [look obind]. destruct (IH (fun i a I => H i a (or_intror I)) (S k)) as [[cs new] Er]. rewrite Er. cbn [obind]. eexists; reflexivity.
Qed.
Theorem new_still l tmin dt n Rf pf h o : uniform l tmin dt n -> pose_curve l Rf pf -> 0 < sp_fc b -> pointers_ok h o ->
  (forall k, tmin + 2 * dt + INR k * (1 / sp_fc b) < finish tmin dt n -> walked pf (tmin + 2 * dt) (1 / sp_fc b) k <= th) ->
  new l (Some (tmin + 2 * dt)) h o = Exit.
Proof.
  intros U C F P W. assert (D : 0 < dt) by apply U. unfold sim_new, copy_params. destruct (copy_defined h (vo_cams o) P (length h)) as [r Er]. rewrite Er. cbn [obind].
  destruct (start_spec l tmin dt n Rf pf (sp_fc b) th (tmin + 2 * dt) U C F ltac:(lra)) as [(k & [A1 _] & A2 & _)|(A & _)].
  - specialize (W k A2). lra.
  - cbn [fst snd]. rewrite A. reflexivity.
Qed.

(** ** C101 *)
Lemma map_ids_prefix pre r : map_ids (pre ++ r) -> map_ids pre.
Proof.
  unfold map_ids. intros H. apply (f_equal (firstn (length pre))) in H. rewrite map_app, app_length, seq_app in H.
  rewrite firstn_app, map_length, Nat.sub_diag, firstn_O, app_nil_r in H. rewrite firstn_all2 in H by (rewrite map_length; lia).
  rewrite firstn_app, seq_length, Nat.sub_diag, firstn_O, app_nil_r, firstn_all2 in H by (rewrite seq_length; lia). exact H.
Qed.
Section World.
Variables (l : pmap) (tmin dt : R) (n : nat) (Rf : R -> m3) (pf : R -> v3) (h : heap) (o : vopt) (m : made).
Hypothesis HU : uniform l tmin dt n.
Hypothesis HC : pose_curve l Rf pf.
Notation st := (tmin + 2 * dt).
Notation T := (finish tmin dt n).
Notation tick k := (st + INR k * (1 / 4)).
Hypothesis HM : new l (Some st) h o = Ok m.

Lemma new_map : map_ids (md_map m) /\ md_id m = length (md_map m) /\
  (forall pre f post, md_map m = pre ++ f :: post -> exists i, (i < vo_ncam o)%nat /\ made_for tmin dt n Rf pf st (md_par m) mind u i pre f) /\
  (forall i, (i < vo_ncam o)%nat -> draws_seen tmin dt n Rf pf st (md_par m) mind u i -> forall j, tick j < T -> enough Rf pf st (md_par m) i j (md_map m)).
Proof.
  assert (D : 0 < dt) by apply HU. destruct (new_inv _ _ _ _ _ HM) as (cs & cams & c & t & Hc & Hs & Et & Ht & Hsim & Hp & Hpar & Hmap). injection Et as <-.
  unfold make_map in Hmap. cbn [set_cams vo_ncam] in Hmap.
  assert (Hst : tmin + dt <= st) by lra.
  assert (N : forall i, (0 <= i < 0 + vo_ncam o)%nat -> has_cam (md_heap m) (set_cams o cams) i).
  { intros i Hi. eapply (cams_need l st (md_par m) mind u (md_heap m) (set_cams o cams)); [exact Hmap|exact Hi]. }
  destruct (cams_spec l tmin dt n Rf pf st (md_par m) mind u HU HC Hst (md_heap m) (set_cams o cams) (vo_ncam o) 0 [] eq_refl N) as (nw & I1 & I2 & I3 & I4).
  cbn [length app] in I1, I2. rewrite I1 in Hmap. injection Hmap as E1 E2. rewrite <- E2. split; [exact I2|]. split; [congruence|]. split.
  - intros pre f post E. destruct (I3 pre f post E) as (i & Hi & J). exists i. split; [lia|exact J].
  - intros i Hi V j HT. apply I4; auto. lia.
Qed.
Theorem map_enough i k : (i < vo_ncam o)%nat -> tick k < T ->
  (forall j, tick j < T -> is_rot (Rf (tick j))) -> unit_q (fst (sp_ext (md_par m) i)) -> 1 / 10 <= mind <= sp_maxd b ->
  0 <= fst (sp_size (md_par m) i) -> 0 <= snd (sp_size (md_par m) i) ->
  (forall uv, in_image (md_par m) i uv -> sp_distort (md_par m) i (sp_undistort (md_par m) i uv) = uv) ->
  (forall j, 0 <= fst (fst (u j)) <= 1 /\ 0 <= snd (fst (u j)) <= 1 /\ 0 <= snd (u j) <= 1) ->
  exists ids, sees (md_par m) i (Rf (tick k)) (pf (tick k)) (md_map m) ids /\ (sp_npts b <= length ids)%nat.
Proof.
  intros Hi HT HR Hq Hd Hw Hh HD HUn. destruct new_map as (M1 & _ & _ & M4).
  assert (Eb : sp_maxd (md_par m) = sp_maxd b /\ sp_npts (md_par m) = sp_npts b).
  { destruct (new_inv _ _ _ _ _ HM) as (cs & cams & c & t & _ & _ & _ & _ & _ & _ & Hpar & _). rewrite Hpar. auto. }
  destruct Eb as [Eb1 Eb2].
  eexists. split; [apply sees_project; exact M1|]. rewrite map_length, <- Eb2. apply (M4 i Hi); [|exact HT].
  intros k0 j H0. destruct (HUn j) as (U1 & U2 & U3). apply draw_ok; auto. rewrite Eb1. exact Hd.
Qed.
Theorem map_points pre id f post : md_map m = pre ++ (id, f) :: post ->
  (forall j, tick j < T -> is_rot (Rf (tick j))) -> (forall i, (i < vo_ncam o)%nat -> unit_q (fst (sp_ext (md_par m) i))) ->
  id = length pre /\ exists i k ids, (i < vo_ncam o)%nat /\ tick k < T /\
    on_ray (md_par m) i (Rf (tick k)) (pf (tick k)) f (fst (fst (u id)) * fst (sp_size (md_par m) i), snd (fst (u id)) * snd (sp_size (md_par m) i)) (mind + snd (u id) * (sp_maxd b - mind)) /\
    sees (md_par m) i (Rf (tick k)) (pf (tick k)) pre ids /\ (length ids < sp_npts b)%nat.
Proof.
  intros E HR Hq. destruct new_map as (M1 & _ & M3 & _). destruct (M3 _ _ _ E) as (i & Hi & k & HT & Ef & L). injection Ef as E1 E2.
  assert (Eb : sp_maxd (md_par m) = sp_maxd b /\ sp_npts (md_par m) = sp_npts b).
  { destruct (new_inv _ _ _ _ _ HM) as (cs & cams & c & t & _ & _ & _ & _ & _ & _ & Hpar & _). rewrite Hpar. auto. }
  destruct Eb as [Eb1 Eb2]. split; [exact E1|]. exists i, k. eexists. split; [exact Hi|]. split; [exact HT|]. split; [|split].
  - rewrite E2, E1. rewrite <- Eb1. apply (gen_on_ray (md_par m) i (Rf (tick k)) (pf (tick k)) (scale_draw (md_par m) mind i (u (length pre)))); auto.
  - apply sees_project. rewrite E in M1. eapply map_ids_prefix. exact M1.
  - rewrite map_length, <- Eb2. exact L.
Qed.
Theorem map_ids_ok : map fst (md_map m) = seq 0 (length (md_map m)) /\ md_id m = length (md_map m).
Proof. destruct new_map as (M1 & M2 & _). auto. Qed.
End World.

Lemma par_ext h1 h2 o : (forall i a, alook (vo_cams o) i = Some a -> nth_error h1 a = nth_error h2 a) -> spar_of dist und b h1 o = spar_of dist und b h2 o.
Proof.
  intros H. unfold spar_of. cbv zeta.
  assert (E : (fun i => match alook (vo_cams o) i with Some a => nth_error h1 a | None => None end) = (fun i => match alook (vo_cams o) i with Some a => nth_error h2 a | None => None end)).
  { extensionality i. destruct (alook (vo_cams o) i) as [a|] eqn:Ea; [apply (H i a Ea)|reflexivity]. }
  f_equal; extensionality i; apply (f_equal (fun g => g i)) in E; rewrite E; reflexivity.
Qed.
Lemma frames_ext l p p' mi i : (forall Q x f, project_one p i Q x f = project_one p' i Q x f) -> (forall Q x d, gen_point p i Q x (scale_draw p mi i d) = gen_point p' i Q x (scale_draw p' mi i d)) ->
  sp_npts p = sp_npts p' -> forall fuel t id feats, map_frames fuel l p mi u i t id feats = map_frames fuel l p' mi u i t id feats.
Proof.
  intros H1 H2 H3 fuel. induction fuel as [|fuel IH]; intros t id feats; [reflexivity|]. cbn [map_frames].
  destruct (get_pose l t) as [[ok [Q x]]| |]; cbn [obind fst snd]; try reflexivity. destruct (negb ok); [reflexivity|].
  assert (P : project_pointcloud p Q x i feats = project_pointcloud p' Q x i feats).
  { unfold project_pointcloud. clear - H1. induction feats as [|f r IHf]; [reflexivity|]. cbn [flat_map]. rewrite H1, IHf. reflexivity. }
  rewrite !one_frame. unfold missing. rewrite P, H3.
  assert (N : forall cnt, new_points p mi u i Q x id cnt = new_points p' mi u i Q x id cnt).
  { intros cnt. unfold new_points. apply map_ext. intros j. rewrite H2. reflexivity. }
  rewrite N. apply IH.
Qed.
(** ** C101: more cameras only append *)
Theorem map_prefix l st h o n' m m' : (vo_ncam o <= n')%nat -> new l st h o = Ok m -> new l st h (with_cams o n') = Ok m' ->
  (exists tmin dt n Rf pf, uniform l tmin dt n /\ pose_curve l Rf pf /\ st = Some (tmin + 2 * dt)) ->
  exists more, md_map m' = md_map m ++ more.
Proof.
  intros Hn H H' (tmin & dt & n & Rf & pf & HU & HC & ->).
  destruct (new_objects _ _ _ _ _ H) as (O1 & O2 & O3). destruct (new_objects _ _ _ _ _ H') as (_ & _ & O3'). cbn [with_cams vo_cams] in O3'.
  destruct (new_inv _ _ _ _ _ H) as (cs & cams & c & t & Hc & Hs & Et & Ht & _ & Hp & Hpar & Hmap). injection Et as <-.
  destruct (new_inv _ _ _ _ _ H') as (cs' & cams' & c' & t' & Hc' & _ & Et' & Ht' & _ & Hp' & Hpar' & Hmap'). injection Et' as <-.
  cbn [with_cams vo_cams] in Hc'. rewrite Hc in Hc'. injection Hc' as <- <-.
  set (own := set_cams o cams) in *.
  assert (SH : forall i a, alook cams i = Some a -> nth_error (md_heap m) a = nth_error (md_heap m') a).
  { intros i a Ea. destruct (alook (vo_cams o) i) as [a0|] eqn:E0.
    - destruct (O3 i a0 E0) as (a1 & c1 & X1 & _ & X2 & X3). destruct (O3' i a0 E0) as (a2 & c2 & Y1 & _ & Y2 & Y3).
      rewrite Ht in X1. rewrite Ht' in Y1. cbn in X1, Y1. congruence.
    - apply O2 in E0. rewrite Ht in E0. cbn in E0. congruence. }
  assert (PE : md_par m' = mkSpar (sp_fi (md_par m)) (sp_fc (md_par m)) (sp_grav (md_par m)) (sp_Tw (md_par m)) (sp_Ta (md_par m)) (sp_Tg (md_par m)) (sp_qw (md_par m)) (sp_qa (md_par m))
     (sp_dt (md_par m)) (sp_npts (md_par m)) (sp_stereo (md_par m)) n' (sp_maxd (md_par m)) (sp_ext (md_par m)) (sp_distort (md_par m)) (sp_undistort (md_par m)) (sp_size (md_par m))).
  { rewrite Hpar, Hpar'. rewrite (par_ext (md_heap m) (md_heap m') own SH). reflexivity. }
  unfold make_map in Hmap, Hmap'. cbn [set_cams with_cams vo_ncam] in Hmap'. change (vo_ncam own) with (vo_ncam o) in Hmap.
  set (own' := set_cams (with_cams o n') cams) in *.
  assert (ME : forall s i, map_cam l (md_par m') (md_heap m') own' mind u (tmin + 2 * dt) s i = map_cam l (md_par m) (md_heap m) own mind u (tmin + 2 * dt) s i).
  { intros s i. unfold map_cam. cbn [own own' set_cams with_cams vo_cams vo_ext]. destruct (alook cams i) as [a|] eqn:Ea; cbn [look obind]; [|reflexivity].
    rewrite (SH i a Ea). destruct (nth_error (md_heap m') a); cbn [look obind]; [|reflexivity]. destruct (alook (vo_ext o) i); cbn [look obind]; [|reflexivity].
    rewrite (frames_ext l (md_par m') (md_par m) mind i); [reflexivity| | |]; rewrite PE; reflexivity. }
  replace n' with (vo_ncam o + (n' - vo_ncam o))%nat in Hmap' by lia. rewrite seq_app, ofold_app in Hmap'.
  assert (FE : forall cnt k s, ofold (map_cam l (md_par m') (md_heap m') own' mind u (tmin + 2 * dt)) (seq k cnt) s = ofold (map_cam l (md_par m) (md_heap m) own mind u (tmin + 2 * dt)) (seq k cnt) s).
  { induction cnt as [|cnt IH]; intros k s; cbn [seq ofold]; [reflexivity|]. rewrite ME. destruct (map_cam _ _ _ _ _ _ _ s k); cbn [obind]; auto. }
  rewrite FE, Hmap in Hmap'. cbn [obind] in Hmap'. rewrite FE in Hmap'.
  destruct (new_map l tmin dt n Rf pf h o m HU HC H) as (M1 & M2 & _ & _). rewrite M2 in Hmap'.
  assert (Hst : tmin + dt <= tmin + 2 * dt) by (destruct HU; lra).
  assert (N : forall i, (0 + vo_ncam o <= i < 0 + vo_ncam o + (n' - vo_ncam o))%nat -> has_cam (md_heap m) own i) by (intros i Hi; eapply cams_need; [exact Hmap'|exact Hi]).
  destruct (cams_spec l tmin dt n Rf pf (tmin + 2 * dt) (md_par m) mind u HU HC Hst (md_heap m) own (n' - vo_ncam o) (0 + vo_ncam o) (md_map m) M1 N) as (nw & I1 & _).
  rewrite I1 in Hmap'. injection Hmap' as _ E2. exists nw. congruence.
Qed.

(** ** no undefined behaviour *)
Lemma cams_total o1 (cnt : nat) : forall m0 k h1 o2, vo_cams o2 = vo_cams o1 -> (forall i, (m0 <= i < m0 + cnt)%nat -> exists a e, alook (vo_cams o1) i = Some a /\ (a < length h1)%nat /\ alook (vo_ext o2) i = Some e) ->
  exists s, ofold (perturb_cam w) (seq m0 cnt) (k, h1, o2) = Ok s.
Proof.
  induction cnt as [|cnt IH]; intros m0 k h1 o2 E HH; cbn [seq ofold]; [eexists; reflexivity|].
  destruct (HH m0 ltac:(lia)) as (a & e & A1 & A2 & A3). cbn [perturb_cam]. rewrite E, A1. cbn [look obind].
  destruct (nth_error h1 a) as [c|] eqn:Ec; [|apply nth_error_None in Ec; lia]. cbn [look obind]. rewrite A3. cbn [look obind].
  apply IH; [exact E|]. intros i Hi. destruct (HH i ltac:(lia)) as (a' & e' & B1 & B2 & B3). exists a'. rewrite put_len. cbn [set_ext vo_ext]. rewrite alook_aset.
  destruct (Nat.eqb i m0); eexists; repeat split; eauto.
Qed.
Theorem new_defined l tmin dt n Rf pf h o k : uniform l tmin dt n -> pose_curve l Rf pf -> 0 < sp_fc b -> pointers_ok h o -> calibrated h o ->
  first_beyond pf (tmin + 2 * dt) (1 / sp_fc b) th k -> tmin + 2 * dt + INR k * (1 / sp_fc b) < finish tmin dt n ->
  exists m, new l (Some (tmin + 2 * dt)) h o = Ok m.
Proof.
  intros U C F P CA FB HT. assert (D : 0 < dt) by apply U. assert (Hst : tmin + dt <= tmin + 2 * dt) by lra.
  unfold sim_new, copy_params. destruct (copy_defined h (vo_cams o) P (length h)) as [[cs cams] Er]. rewrite Er. cbn [obind fst snd].
  destruct (start_spec l tmin dt n Rf pf (sp_fc b) th (tmin + 2 * dt) U C F Hst) as [(k1 & _ & _ & A3)|(_ & A)]; [|destruct FB as [FB _]; specialize (A k HT); lra].
  rewrite A3. cbn [obind].
  assert (PO : exists h' o', (if pert then perturb_parameters w (h ++ cs) o else Ok (h ++ cs, o)) = Ok (h', o') /\ length h' = length (h ++ cs)).
  { destruct pert; [|eexists _, _; split; reflexivity].
    destruct (cams_total o (vo_ncam o) 0 1 (h ++ cs) (set_dt o (vo_dt o + 1 / 100 * w 0%nat)) eq_refl) as [[[k2 h2] o2] Es].
    { intros i Hi. destruct (CA i ltac:(lia)) as (a & c & e & X1 & X2 & X3). exists a, e. split; [exact X1|]. split; [|exact X3].
      rewrite app_length. assert (a < length h)%nat by (apply nth_error_Some; congruence). lia. }
    destruct (perturb_parameters w (h ++ cs) o) as [[h' o']| |] eqn:EP; [exists h', o'; split; [reflexivity|apply perturb_len in EP; apply EP]| |];
      unfold perturb_parameters in EP; cbv zeta in EP; change (vo_ncam (set_dt o (vo_dt o + 1 / 100 * w 0%nat))) with (vo_ncam o) in EP; match type of EP with obind ?x _ = _ => replace x with (@Ok (nat * heap * vopt) (k2, h2, o2)) in EP by (symmetry; exact Es) end; cbn [obind] in EP; destruct (perturb_imu w k2 o2); discriminate. }
  destruct PO as (h' & o' & E1 & E2). match goal with |- exists m, obind ?x _ = _ => replace x with (@Ok (heap * vopt) (h', o')) by (symmetry; exact E1) end. cbn [obind fst snd].
  set (p := spar_of dist und b h' (set_cams o cams)).
  assert (N : forall i, (0 <= i < 0 + vo_ncam o)%nat -> has_cam h' (set_cams o cams) i).
  { intros i Hi. destruct (CA i ltac:(lia)) as (a & c & e & X1 & X2 & X3). destruct (copy_spec _ _ _ _ _ Er) as (_ & _ & _ & C4).
    destruct (C4 i a X1) as (j & c0 & D1 & D2 & D3). unfold has_cam. cbn [set_cams vo_cams vo_ext].
    destruct (nth_error h' (length h + j)) as [c1|] eqn:Ec; [exists (length h + j)%nat, c1, e; auto|]. exfalso. apply nth_error_None in Ec.
    assert (j < length cs)%nat by (apply nth_error_Some; congruence). rewrite E2, app_length in Ec. lia. }
  destruct (cams_spec l tmin dt n Rf pf (tmin + 2 * dt) p mind u U C Hst h' (set_cams o cams) (vo_ncam o) 0 [] eq_refl N) as (nw & I1 & _).
  unfold make_map. cbn [set_cams vo_ncam] in *. cbn [length] in I1. rewrite I1. cbn [obind]. eexists; reflexivity.
Qed.
End New.
