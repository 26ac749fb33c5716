(** A concrete run for C64 and C77: the first message makes the MSCKF update use the lost track 5, the second one, of
    the other camera, brings the same feature id back. *)
From Coq Require Import Reals List Arith Lia Lra ZArith Bool Sorted Permutation.
From Verif Require Import RBool Outcome Lin GeoModel TypesModel GivensModel GivensSpec GivensProofs StateModel StateSpec StateOps2 ReachModel ReachSpec StateReach StateFrame StateEx DbModel DbSpec DbProofs DbProofs2 DbThms
  ImuModel PropModel FeatModel LandModel CamModel HelpModel AnchorModel UpdModel UpdSpec UpdProofs2 UpdProofs3 UpdProofs5 UpdEx InitModel ZuptModel SelUpd SelModel SelSpec SelDb SelState SelSelect SelThms SelRun.
Import ListNotations.
Open Scope R_scope.

Fixpoint insert (k : nat -> nat) (x : nat) (l : list nat) : list nat :=
  match l with [] => [x] | y :: l' => if (k x <=? k y)%nat then x :: l else y :: insert k x l' end.
Definition isort (k : nat -> nat) (l : list nat) : list nat := fold_right (insert k) [] l.
Lemma insert_perm k x l : Permutation (x :: l) (insert k x l).
Proof. induction l as [|y l IH]; simpl; auto. destruct (k x <=? k y)%nat; auto. eapply perm_trans; [apply perm_swap|]. auto. Qed.
Lemma insert_sorted k x l : StronglySorted (fun a b => (k a <= k b)%nat) l -> StronglySorted (fun a b => (k a <= k b)%nat) (insert k x l).
Proof.
  induction 1 as [|y l H IH F]; simpl; [repeat constructor|]. destruct (Nat.leb_spec (k x) (k y)).
  - constructor; [constructor; auto|]. constructor; auto. eapply Forall_impl; [|exact F]. simpl. intros. lia.
  - constructor; auto. rewrite Forall_forall in *. intros z I. apply (Permutation_in _ (Permutation_sym (insert_perm k x l))) in I. destruct I as [<-|I]; [lia|auto].
Qed.
Lemma isort_sorts : sorts isort.
Proof.
  intros k l. induction l as [|x l [P S]]; simpl; [repeat constructor|]. split; [|apply insert_sorted; auto]. eapply perm_trans; [|apply insert_perm]. auto.
Qed.

Definition exs_feat (T : R) : feature := mkF 7 false [(0%nat, [(5, 6)])] [(0%nat, [(5, 6)])] [(0%nat, [T])] (f_pos (new_feature 7)).
Definition exs_env (zo : zopts) (zc : state -> pst * R) : env :=
  mkEnv0 ex_chi2 1 1 exu_so (fun _ => false) zo zc isort (fun _ => false) (mkSel 10 10 1 0 0 false false).
Definition exs_fin (z : prop_in) (lm : lmeta) : fin :=
  mkFin z [] exu_tri exu_jac (fun _ => []) false (fun _ => None) (fun _ => lm).
Definition exs_m1 (T : R) : msg := mkMsg T [0%nat] [(7%nat, 0%nat, (5, 6), (5, 6))].
Definition exs_m2 (T : R) : msg := mkMsg T [1%nat] [(5%nat, 1%nat, (7, 8), (7, 8))].
Definition exs_mgr (st : state) (d : db) (z : zupt) : mgr := mkMgr st d (fun _ => 0%nat) (fun _ => 0%Z) z false false.

Lemma exs_msckf st p t d : reach ex_chi2 st -> s_clones st = [(t, p)] -> db_ok d -> alook d 5 = Some (exu_feat 5 t) ->
  exists st' d', msckf_update ex_chi2 1 1 exu_tri exu_jac st d [5%nat] = Ok (st', d', [5%nat]).
Proof.
  intros Rc Ec Od E5. destruct (c17_msckf ex_chi2 1 1 exu_tri exu_jac st d [5%nat] Rc Od) as (st' & d' & used & E & I & N & U & _).
  { split; [repeat constructor; simpl; auto|]. intros id [<-|[]]. eauto. } { lra. } { apply (exu_jac_ok ex_chi2); auto. }
  exists st', d'. rewrite E. do 2 f_equal.
  destruct used as [|a used].
  - exfalso. destruct (U 5%nat) as (f & Ef & Hn); [simpl; auto|auto|]. rewrite E5 in Ef. injection Ef as <-.
    destruct Hn as [(f1 & C1 & C2)|(g & l & y & (f1 & C1 & C2 & C3 & C4) & Ej & (F & Ep & Eo) & Ey & (dd & Gd & Hl))]; rewrite Ec in C1; simpl in C1; rewrite exu_clean in C1; injection C1 as <-.
    + destruct C2 as [C2|C2]; [vm_compute in C2; lia|discriminate].
    + injection Ej as <-. simpl in Ep. destruct (nullspace_full _ _ _ _ _ _ Ep) as (_ & _ & _ & _ & _ & D & G & _ & _ & _ & _ & Er & _).
      simpl in D, Er. assert (dd = 0).
      { apply (zero_gate st y); auto. rewrite D. intros i Hi. rewrite Er by auto. unfold mvec. apply sumn_zero. intros; ring. }
      unfold ex_chi2 in Hl. rewrite D in Hl. pose proof (pos_INR (2 * count_meas g - 3)). simpl in Hl. simpl in H0. lra.
  - assert (a = 5%nat) by (destruct (I a) as [<-|[]]; simpl; auto). subst a. f_equal. destruct used as [|b used]; auto. exfalso.
    assert (b = 5%nat) by (destruct (I b) as [<-|[]]; simpl; auto). subst b. inversion N. simpl in *. tauto.
Qed.

Lemma eqr x : Reqb x x = true. Proof. apply Reqb_true. reflexivity. Qed.
Lemma slam_7 st d t p T q : t <> T -> s_clones st = [(t, p)] -> s_slam st = [(7%nat, (q, false))] -> alook d 7 = Some (exs_feat T) ->
  exists d', slam_update ex_chi2 exu_so (fun _ => false) exu_jac st d [7%nat] = Ok (st, d', [], []).
Proof.
  intros N Ec Es E7. unfold slam_update. rewrite Ec. cbn [map fst slam_clean_step]. rewrite E7.
  assert (X : exists f1, clean_old_measurements [t] (exs_feat T) = Ok f1 /\ count_meas f1 = 0%nat).
  { assert (F : feat_ok (exs_feat T)) by (split; [repeat constructor; simpl; intuition lia|]; intros cam; simpl; destruct (Nat.eqb cam 0); auto).
    destruct (clean_old_ok [t] (exs_feat T) F) as (f' & E & _). exists f'. split; auto. destruct (clean_old_track _ _ _ F E) as (F1 & _ & X).
    assert (Z : (count_meas f' <? 1)%nat = true); [|apply Nat.ltb_lt in Z; lia]. apply (count_meas_zero f' F1). intros c. rewrite X.
    unfold ftrack, exs_feat, aget. cbn. destruct (Nat.eqb c 0); cbn; auto. unfold tfind. cbn. destruct (Reqb_spec T t) as [?|_]; [congruence|].
    destruct (Reqb_spec t T) as [?|_]; [congruence|]. reflexivity. }
  destruct X as (f1 & -> & C). cbn [obind]. unfold slam_ptr. rewrite Es. cbn. rewrite C. cbn. eauto.
Qed.

(** the first message *)
Lemma exs_first zo zc z pi lm st p t q T : reach ex_chi2 st -> s_clones st = [(t, p)] -> s_slam st = [(7%nat, (q, false))] -> s_opts st = ex_opts -> s_time st = T -> t < T ->
  exists g' f, message (exs_env zo zc) (exs_mgr st [(5%nat, exu_feat 5 t)] z) (exs_m1 T) (exs_fin pi lm) = Ok (g', [f]) /\ same_meas f (exu_feat 5 t) /\
    s_clones (g_st g') = [(t, p)] /\ s_slam (g_st g') = [(7%nat, (q, false))] /\ s_opts (g_st g') = ex_opts /\ s_time (g_st g') = T /\ g_db g' = [] /\ g_cam g' = (fun _ => 0%Z) /\ g_fail g' 7%nat = 0%nat.
Proof.
  intros Rc Ec Es Eo Et Lt. unfold message. cbn [exs_env en_opt se_zupt andb]. unfold feature_frame. cbn [exs_mgr g_st exs_m1 m_t].
  destruct (Rltb_spec T (s_time st)); [lra|]. rewrite Et, eqr. cbn [obind]. rewrite Ec, Eo, Et, eqr. cbn [length ex_opts o_max_clones negb]. change (_ <? _)%Z with false. cbn [negb].
  set (d := feed _ _).
  assert (Ed : d = [(5%nat, exu_feat 5 t); (7%nat, exs_feat T)]) by reflexivity. clearbody d.
  assert (Od : db_ok d).
  { subst d. split; [repeat constructor; simpl; intuition lia|]. intros id f [E|[E|[]]]; injection E as <- <-; split; auto; split;
    try (repeat constructor; simpl; intuition lia); intros cam; simpl; destruct (Nat.eqb cam 0); auto; destruct (Nat.eqb cam 1); auto. }
  unfold update_frame. cbn [exs_env en_opt en_isA en_sort en_chi2 en_sig en_mult en_so en_single exs_fin fi_tri fi_jac fi_val fi_fej fi_cal fi_meta].
  assert (Sel : select (fun _ => false) (mkSel 10 10 1 0 0 false false) st d (exs_m1 T) = ([5%nat], [7%nat])).
  { unfold select, sel_marg, sel_tags, window_full, landmark_tracks, sel_lost. rewrite Ec, Eo, Es, Et, Ed. cbn.
    destruct (Rleb_spec T t); [lra|]. destruct (Rleb_spec T T); [|lra]. cbn. reflexivity. }
  rewrite Sel. cbn [exs_m1 m_cams].
  assert (Fl : flag_landmarks (fun _ => false) d (fun _ => 0%nat) (fun _ => 0%Z) [0%nat] st = Ok st).
  { unfold flag_landmarks. rewrite Es, Ed. cbn. destruct st. cbn in Es. subst. reflexivity. }
  cbn [exs_mgr g_fail g_cam g_st g_z]. rewrite Fl. cbn [obind].
  assert (Ms : marginalize_slam st = Ok st).
  { unfold marginalize_slam. rewrite Es. cbn [marg_slam_loop]. unfold slam_kill. cbn. destruct st. cbn in Es. subst. reflexivity. }
  rewrite Ms. cbn [obind]. rewrite Es. change (truncate isort (mkSel 10 10 1 0 0 false false) d [5%nat]) with (Ok [5%nat]). cbn [obind].
  destruct (exs_msckf st p t d Rc Ec Od) as (st3 & d3 & E3); [subst d; reflexivity|]. rewrite E3. cbn [obind].
  assert (Nd : NoDup [5%nat]) by (repeat constructor; simpl; auto).
  assert (Hd : forall id, In id [5%nat] -> exists f, alook d id = Some f /\ feat_ok f).
  { intros id [<-|[]]. exists (exu_feat 5 t). subst d. split; [reflexivity|]. apply (db_ok_look _ 5%nat _ Od). reflexivity. }
  destruct (msckf_consumed d [5%nat] Nd Hd _ _ _ _ _ _ _ _ _ E3) as (C3 & (W3c & W3t & W3o) & S3).
  pose proof (proj1 (consumed_thin _ _ _ _ _ _ Od C3)) as O3.
  destruct C3 as (_ & _ & M3 & U3 & P3). destruct (P3 5%nat) as (f5 & f5' & g5 & A1 & A2 & A3 & A4 & A5 & _); [simpl; auto|].
  assert (f5 = exu_feat 5 t) by (subst d; injection A1; auto). subst f5. rewrite Ec in A2. cbn [map fst] in A2. rewrite exu_clean in A2. injection A2 as <-.
  assert (E7 : alook d3 7 = Some (exs_feat T)) by (rewrite U3 by (simpl; intuition lia); subst d; reflexivity).
  assert (Ec3 : s_clones st3 = [(t, p)]) by congruence. assert (Es3 : s_slam st3 = [(7%nat, (q, false))]) by congruence.
  cbn [map fst filter memn existsb Nat.eqb orb negb length].
  destruct (slam_7 st3 d3 t p T q) as (d4 & E4); auto; [lra|]. 
  cbn [slam_batches]. cbn [exs_env en_opt en_chi2 en_so en_single se_batch]. change (Z.to_nat 1) with 1%nat. cbn [firstn skipn]. rewrite E4. cbn [obind].
  cbn [slam_batches obind delayed_init].
  destruct (slam_consumed ex_chi2 exu_so (fun _ => false) exu_jac st3 d3 [7%nat] st3 d4 [] [] (fun _ => eq_refl)) with (3 := E4) as (C4 & _); [repeat constructor; simpl; auto| |].
  { intros id [<-|[]]. exists (exs_feat T). split; auto. apply (db_ok_look _ _ _ O3 E7). }
  pose proof (proj1 (consumed_thin _ _ _ _ _ _ O3 C4)) as O4. pose proof (consumed_del _ _ _ _ _ _ 7%nat C4 (or_introl eq_refl)) as (f7 & E7' & D7).
  destruct C4 as (_ & _ & M4 & U4 & _).
  assert (E5 : alook d4 5 = Some g5) by (rewrite U4; [exact A3|simpl; intuition lia]).
  cbn [ofold obind mark]. unfold mark at 1. rewrite E5. cbn [obind].
  unfold change_anchors. cbn [sl_st]. rewrite Ec3, W3o, Eo. cbn [length ex_opts o_max_clones]. change (_ <=? _)%Z with true. cbn [obind sl_st].
  rewrite Ec3, W3o, Eo. cbn [length ex_opts o_max_clones]. change (_ <? _)%Z with false. cbn [obind].
  unfold marginalize_old_clone. rewrite Ec3, W3o, Eo. cbn [length ex_opts o_max_clones]. change (_ <? _)%Z with false. cbn [obind].
  cbn [pick flat_map app]. rewrite A3. cbn [app].
  eexists. exists g5. split; [reflexivity|]. cbn [g_st g_db g_cam]. split; [exact A5|]. split; [auto|]. split; [auto|]. split; [congruence|]. split; [congruence|]. split; [|split; reflexivity].
  assert (K : map fst (aset d4 5 (set_del g5 true)) = [5%nat; 7%nat]). { rewrite aset_keys_same by eauto. rewrite M4, M3, Ed. reflexivity. }
  rewrite cleanup_eq. apply filter_nil_iff. intros (i & f) I.
  assert (F : alook (aset d4 5 (set_del g5 true)) i = Some f) by (apply alook_in; auto; apply aset_nodup; apply O4).
  rewrite alook_aset in F. destruct (Nat.eqb_spec i 5) as [->|N5]; [injection F as <-; reflexivity|].
  assert (I7 : In i [5%nat; 7%nat]) by (rewrite <- K; apply in_map_iff; exists (i, f); auto). destruct I7 as [?|[<-|[]]]; [congruence|]. cbn [snd]. rewrite E7' in F. injection F as <-. rewrite D7. reflexivity.
Qed.

(** the second message: nothing to update *)
Lemma exs_second zo zc pi lm g p t q T : s_clones (g_st g) = [(t, p)] -> s_slam (g_st g) = [(7%nat, (q, false))] -> s_opts (g_st g) = ex_opts -> s_time (g_st g) = T -> g_db g = [] -> g_cam g = (fun _ => 0%Z) -> g_fail g 7%nat = 0%nat ->
  exists fl, message (exs_env zo zc) g (exs_m2 T) (exs_fin pi lm) = Ok (fl, []) /\ in_db (g_db fl) (5%nat, 1%nat, T).
Proof.
  intros Ec Es Eo Et Ed Ecam Efl. unfold message. cbn [exs_env en_opt se_zupt andb]. unfold feature_frame. cbn [g_st exs_m2 m_t]. rewrite Ed.
  destruct (Rltb_spec T (s_time (g_st g))); [lra|]. rewrite Et, eqr. cbn [obind]. rewrite Ec, Eo, Et, eqr. cbn [length ex_opts o_max_clones negb]. change (_ <? _)%Z with false. cbn [negb].
  set (d := feed _ _).
  assert (Ed' : d = [(5%nat, mkF 5 false [(1%nat, [(7, 8)])] [(1%nat, [(7, 8)])] [(1%nat, [T])] (f_pos (new_feature 5)))]) by reflexivity. clearbody d.
  unfold update_frame. cbn [exs_env en_opt en_isA en_sort en_chi2 en_sig en_mult en_so en_single exs_fin fi_tri fi_jac fi_val fi_fej fi_cal fi_meta].
  destruct (g_st g) as [o v n C nx tm im dt cl sl ci ca]. cbn [s_clones s_slam s_opts s_time] in *. subst cl sl o tm.
  set (st := mkState _ _ _ _ _ _ _ _ _ _ _ _).
  assert (Sel : select (fun _ => false) (mkSel 10 10 1 0 0 false false) st d (exs_m2 T) = ([], [])).
  { unfold select, sel_marg, sel_tags, window_full, landmark_tracks, sel_lost. rewrite Ed'. cbn.
    destruct (Rleb_spec T T); [|lra]. cbn. reflexivity. }
  rewrite Sel. cbn [exs_m2 m_cams g_fail g_cam]. rewrite Ecam.
  assert (Fl : flag_landmarks (fun _ => false) d (g_fail g) (fun _ => 0%Z) [1%nat] st = Ok (set_slam st [(7%nat, (q, (1 <? g_fail g 7%nat)%nat))])).
  { unfold flag_landmarks. rewrite Ed'. reflexivity. }
  rewrite Fl. cbn [obind]. rewrite Efl. change (1 <? 0)%nat with false.
  change (marginalize_slam (set_slam st [(7%nat, (q, false))])) with (Ok (set_slam st [(7%nat, (q, false))])). cbn [obind filter].
  change (truncate isort (mkSel 10 10 1 0 0 false false) d []) with (Ok (@nil nat)). cbn [obind msckf_update length slam_batches delayed_init ofold].
  unfold change_anchors. cbn [sl_st]. change (Z.of_nat (length (s_clones (set_slam st [(7%nat, (q, false))]))) <=? o_max_clones (s_opts (set_slam st [(7%nat, (q, false))])))%Z with true. cbn [obind sl_st].
  change (o_max_clones (s_opts (set_slam st [(7%nat, (q, false))])) <? Z.of_nat (length (s_clones (set_slam st [(7%nat, (q, false))]))))%Z with false. cbn [obind].
  change (marginalize_old_clone (set_slam st [(7%nat, (q, false))])) with (Ok (set_slam st [(7%nat, (q, false))])). cbn [obind].
  eexists. split; [reflexivity|]. cbn [g_db]. rewrite Ed'. cbn. eexists. split; [left; reflexivity|reflexivity].
Qed.

Lemma exs_ready E st p t q T z : s_clones st = [(t, p)] -> s_slam st = [(7%nat, (q, false))] -> s_opts st = ex_opts -> s_time st = T -> t < T -> se_zupt (en_opt E) = false ->
  ready E (exs_mgr st [(5%nat, exu_feat 5 t)] z) [exs_m1 T; exs_m2 T].
Proof.
  intros Ec Es Eo Et Lt Hz.
  assert (D : forall id c s, in_db [(5%nat, exu_feat 5 t)] (id, c, s) -> id = 5%nat /\ s = t).
  { intros id c s (o & I & <-). unfold track in I. cbn [alook] in I. destruct (Nat.eqb_spec id 5); [|destruct I]. split; auto. unfold ftrack, exu_feat, aget in I. cbn in I.
    destruct (Nat.eqb c 0); [destruct I as [<-|[]]; reflexivity|]. destruct (Nat.eqb c 1); [destruct I as [<-|[]]; reflexivity|destruct I]. }
  constructor; cbn [exs_mgr g_db g_st g_did g_moved]; rewrite ?Ec, ?Es, ?Eo, ?Et.
  - split; [repeat constructor; simpl; auto|]. intros id f [E0|[]]. injection E0 as <- <-. split; auto. apply (db_ok_look _ 5%nat _ (exu_db_ok t)). reflexivity.
  - intros id c. unfold track. cbn [alook]. destruct (Nat.eqb id 5); [|constructor]. unfold ftrack, exu_feat, aget. cbn.
    destruct (Nat.eqb c 0); [repeat constructor|]. destruct (Nat.eqb c 1); repeat constructor.
  - intros id c s m I J. apply D in I. destruct I as [_ ->]. destruct J as [<-|[<-|[]]]; split; simpl; intros; lra.
  - intros m [<-|[<-|[]]]; simpl; lra.
  - simpl. lia.
  - simpl. auto.
  - intros s. rewrite Ec, Et. intros [<-|[]]. simpl. lra.
  - repeat constructor; simpl; auto.
  - simpl. lia.
  - intros id c s [<-|[]] I. apply D in I. destruct I. discriminate.
  - rewrite Hz. discriminate.
Qed.

Lemma exs_run zo zc z pi lm : exists T l g g' uses, let E := exs_env zo zc in
  l = [(exs_m1 T, exs_fin pi lm); (exs_m2 T, exs_fin pi lm)] /\
  (forall id, en_single E id = false) /\ sorts (en_sort E) /\ ready E g (map fst l) /\ Forall msg_ok (map fst l) /\ in_order (map fst l) /\
  s_slam (g_st g) <> [] /\ z = g_z g /\
  run_msgs E l g = Ok (g', uses) /\ (exists t, flat_map meas_of uses = [(5%nat, 0%nat, t); (5%nat, 1%nat, t)]) /\ in_db (g_db g') (5%nat, 1%nat, T) /\
  (forall id, en_isA E id = true -> (Z.of_nat id <= 4 * o_max_aruco (s_opts (g_st g)))%Z) /\ (0 <= o_max_aruco (s_opts (g_st g)))%Z /\
  (Z.of_nat (plain_landmarks (g_st g)) <= Z.max 0 (se_max_slam (en_opt E)))%Z.
Proof.
  destruct ex_rich as (st0 & p & t & q & R0 & C0 & S0 & _ & _ & _ & O0).
  destruct (reach_progress _ _ (OTime (t + 1)) R0 I) as (st & E1 & R1). cbn [exec] in E1. injection E1 as <-. set (st := set_time st0 (t + 1)) in *.
  destruct (exs_first zo zc z pi lm st p t q (t + 1) R1 C0 S0 O0 eq_refl ltac:(lra)) as (g1 & f & Q1 & Sm & A1 & A2 & A3 & A4 & A5 & A6 & A7).
  destruct (exs_second zo zc pi lm g1 p t q (t + 1) A1 A2 A3 A4 A5 A6 A7) as (g2 & Q2 & B).
  exists (t + 1), [(exs_m1 (t + 1), exs_fin pi lm); (exs_m2 (t + 1), exs_fin pi lm)], (exs_mgr st [(5%nat, exu_feat 5 t)] z), g2, [f]. cbv zeta. split; [reflexivity|].
  split; [reflexivity|]. split; [apply isort_sorts|]. split; [apply exs_ready with p q; auto; lra|]. split; [|split; [|split; [|split; [reflexivity|split; [|split; [|split; [|split; [|split]]]]]]]].
  - constructor; [|constructor; [|constructor]]; (split; [repeat constructor; simpl; auto|]); simpl; intros id c u n [H|[]]; injection H; intros; subst; auto.
  - constructor; [|constructor; [constructor|constructor]]. constructor; [|constructor]. simpl. split; [lra|]. intros c [<-|[]] [?|[]]. discriminate.
  - cbn [exs_mgr g_st]. change (s_slam st) with (s_slam st0). rewrite S0. discriminate.
  - cbn [run_msgs]. rewrite Q1. cbn [obind fst snd]. rewrite Q2. reflexivity.
  - exists t. cbn [flat_map]. rewrite app_nil_r, (meas_of_sm _ _ Sm). reflexivity.
  - exact B.
  - discriminate.
  - cbn [exs_mgr g_st]. change (s_opts st) with (s_opts st0). rewrite O0. simpl. lia.
  - unfold plain_landmarks. cbn [exs_mgr g_st]. change (s_opts st) with (s_opts st0). change (s_slam st) with (s_slam st0). rewrite O0, S0. simpl. lia.
Qed.
