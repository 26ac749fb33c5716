(** What the updaters do to the database and to the bookkeeping of the state, for arbitrary Jacobians and
    triangulation (whenever they return). *)
From Coq Require Import Reals List Arith Lia Lra ZArith Bool.
From Verif Require Import RBool Outcome Lin GeoModel TypesModel GivensModel GivensSpec StateModel StateSpec ReachModel ReachSpec StateReach StateFrame
  DbModel DbSpec DbProofs DbProofs2 DbThms FeatModel LandModel CamModel HelpModel AnchorModel AnchorLive AnchorThms UpdModel UpdSpec UpdProofs2 UpdProofs3 UpdProofs4 UpdProofs5.
Import ListNotations.
Open Scope R_scope.

Definition same_meas (f g : feature) : Prop := f_id f = f_id g /\ f_uvs f = f_uvs g /\ f_uvn f = f_uvn g /\ f_ts f = f_ts g.
(** window, clock, options *)
Definition same_win (a b : state) : Prop := s_clones b = s_clones a /\ s_time b = s_time a /\ s_opts b = s_opts a.
Lemma same_win_refl a : same_win a a. Proof. split; auto. Qed.
Lemma same_win_trans a b c : same_win a b -> same_win b c -> same_win a c.
Proof. intros (A & B & C) (D & E & F). split; [congruence|]. split; congruence. Qed.

Definition consumed (n : nat) (times : list R) (ids : list nat) (d : db) (used : list nat) (d' : db) : Prop :=
  NoDup used /\ incl used ids /\ map fst d' = map fst d /\ (forall id, ~ In id ids -> alook d' id = alook d id) /\
  forall id, In id ids -> exists f f1 f', alook d id = Some f /\ clean_old_measurements times f = Ok f1 /\ alook d' id = Some f' /\
    f_del f' = true /\ same_meas f' f1 /\ (In id used -> (n <= count_meas f1)%nat).

Lemma consumed_nil n times d : consumed n times [] d [] d.
Proof. split; [constructor|]. split; [intros z []|]. split; auto. split; auto. intros id []. Qed.

Lemma sm_set_del f b : same_meas (set_del f b) f. Proof. repeat split. Qed.
Lemma sm_set_pos f b : same_meas (set_pos f b) f. Proof. repeat split. Qed.
Lemma sm_trans f g h : same_meas f g -> same_meas g h -> same_meas f h.
Proof. intros (A & B & C & D) (A' & B' & C' & D'). repeat split; congruence. Qed.
Lemma sm_refl f : same_meas f f. Proof. repeat split. Qed.
Lemma sm_count f g : same_meas f g -> count_meas f = count_meas g.
Proof. intros (_ & _ & _ & D). unfold count_meas. rewrite D. reflexivity. Qed.

(** step 4 of the MSCKF updater *)
Lemma msckf_loop_db chi2q sig mult jac maxm maxh st ids : forall d s used d' s', NoDup ids -> (forall id, In id ids -> exists f, alook d id = Some f) ->
  msckf_loop chi2q sig mult jac maxm maxh st ids d s = Ok (used, d', s') -> steps gate_by ids d used d'.
Proof.
  induction ids as [|id ids IH]; intros d s used d' s' N F E; cbn [msckf_loop] in E.
  - injection E as <- <- <-. apply steps_nil.
  - apply NoDup_cons_iff in N. destruct N as [Ni N]. destruct (F id) as (f & Ef); [simpl; auto|]. rewrite Ef in E.
    apply obind_ok in E. destruct E as (l & _ & E). apply obind_ok in E. destruct E as (((F0 & Hx) & res) & _ & E).
    apply obind_ok in E. destruct E as (chi2 & _ & E). destruct (Rltb _ chi2).
    + apply (steps_cons _ id ids d f (set_del f true) false); auto; [reflexivity|]. eapply IH; [exact N| |exact E].
      intros k Hk. rewrite alook_aset. destruct (Nat.eqb_spec k id); [eauto|apply F; simpl; auto].
    + apply obind_ok in E. destruct E as (s1 & _ & E). apply obind_ok in E. destruct E as (((u & d2) & s2) & E1 & E).
      injection E as <- <- <-. apply (steps_keep _ id ids d f); auto; [reflexivity|]. eapply IH; [exact N| |exact E1].
      intros k Hk. apply F; simpl; auto.
Qed.

(** step 4 of the SLAM updater *)
Lemma slam_loop_db chi2q so single jac maxm maxh st ids : forall d s used d' s' fl, NoDup ids -> (forall id, In id ids -> exists f, alook d id = Some f) ->
  slam_loop chi2q so single jac maxm maxh st ids d s = Ok (used, d', s', fl) -> steps gate_by ids d used d'.
Proof.
  induction ids as [|id ids IH]; intros d s used d' s' fl N F E; cbn [slam_loop] in E.
  - injection E as <- <- <- <-. apply steps_nil.
  - apply NoDup_cons_iff in N. destruct N as [Ni N]. destruct (F id) as (f & Ef); [simpl; auto|]. rewrite Ef in E.
    destruct (slam_ptr st id) as [p|]; [|discriminate].
    apply obind_ok in E. destruct E as (l & _ & E). apply obind_ok in E. destruct E as ((Hx & res) & _ & E).
    cbv zeta in E. apply obind_ok in E. destruct E as (chi2 & _ & E). destruct (Rltb _ chi2).
    + apply obind_ok in E. destruct E as ((((u & d2) & s2) & f2) & E1 & E). injection E as <- <- <- _.
      apply (steps_cons _ id ids d f (set_del f true) false); auto; [reflexivity|]. eapply IH; [exact N| |exact E1].
      intros k Hk. rewrite alook_aset. destruct (Nat.eqb_spec k id); [eauto|apply F; simpl; auto].
    + apply obind_ok in E. destruct E as (s1 & _ & E). apply obind_ok in E. destruct E as ((((u & d2) & s2) & f2) & E1 & E).
      injection E as <- <- <- _. apply (steps_keep _ id ids d f); auto; [reflexivity|]. eapply IH; [exact N| |exact E1].
      intros k Hk. apply F; simpl; auto.
Qed.

Lemma init_slam st nv order HR HL Rn res st' : initialize_invertible st nv order HR HL Rn res = Ok st' -> s_slam st' = s_slam st.
Proof.
  unfold initialize_invertible. destruct (find_top _ _); [discriminate|]. intros E.
  do 3 (apply guard_ok in E; [|discriminate]; destruct E as [_ E]).
  apply obind_ok in E. destruct E as (l & _ & E). apply guard_ok in E; [|discriminate]. destruct E as [_ E]. cbv zeta in E.
  apply obind_ok in E. destruct E as (Ma & _ & E). apply obind_ok in E. destruct E as (Ps & _ & E).
  apply guard_ok in E; [|discriminate]. destruct E as [_ E].
  apply obind_ok in E. destruct E as (nv' & _ & E). injection E as <-. auto.
Qed.
Lemma initialize_win chi2q st nv order HR HL Rn res mult b st' : initialize chi2q st nv order HR HL Rn res mult = Ok (b, st') ->
  same_win st st' /\ s_slam st' = s_slam st.
Proof.
  unfold initialize. destruct (find_top _ _); [discriminate|]. intros E.
  do 3 (apply guard_ok in E; [|discriminate]; destruct E as [_ E]; cbv zeta in E).
  destruct (fold_left init_step _ _) as [[L X] r]. apply obind_ok in E. destruct E as (P & _ & E).
  apply guard_ok in E; [|discriminate]. destruct E as [_ E]. destruct (Rltb _ _).
  - injection E as <- <-. split; [apply same_win_refl|reflexivity].
  - apply obind_ok in E. destruct E as (st1 & E1 & E). apply obind_ok in E. destruct E as (st2 & E2 & E). injection E as <- <-.
    destruct (init_inv_window _ _ _ _ _ _ _ _ E1) as (A & B & C). pose proof (init_slam _ _ _ _ _ _ _ _ E1) as S1.
    destruct (0 <? _)%nat.
    + destruct (update_window _ _ _ _ _ _ E2) as (A2 & B2 & C2). pose proof (update_slam _ _ _ _ _ _ E2). split; [repeat split; congruence|congruence].
    + injection E2 as <-. split; [repeat split; congruence|congruence].
Qed.

(** step 4 of delayed initialization *)
Lemma delayed_loop_db chi2q so sgl lm_val jac ids : forall st d st' d' kept, NoDup ids -> (forall id, In id ids -> exists f, alook d id = Some f) ->
  delayed_loop chi2q so sgl lm_val jac st ids d = Ok (st', d', kept) ->
  steps dgate ids d kept d' /\ same_win st st' /\ exists l, s_slam st' = s_slam st ++ l /\ map fst l = kept.
Proof.
  induction ids as [|id ids IH]; intros st d st' d' kept N F E; cbn [delayed_loop] in E.
  - injection E as <- <- <-. split; [apply steps_nil|]. split; [apply same_win_refl|]. exists []. rewrite app_nil_r. auto.
  - apply NoDup_cons_iff in N. destruct N as [Ni N]. destruct (F id) as (f & Ef); [simpl; auto|]. rewrite Ef in E.
    apply obind_ok in E. destruct E as (l & _ & E). apply obind_ok in E. destruct E as (((Hx & Hf) & res) & _ & E).
    cbv zeta in E. apply obind_ok in E. destruct E as ((ok & st2) & Ei & E).
    apply initialize_win in Ei. destruct Ei as (W & S2).
    assert (F' : forall g k, In k ids -> exists f, alook (aset d id g) k = Some f).
    { intros g k Hk. rewrite alook_aset. destruct (Nat.eqb_spec k id); [eauto|apply F; simpl; auto]. }
    destruct ok.
    + apply obind_ok in E. destruct E as (((st3 & d3) & kp) & E1 & E). injection E as <- <- <-.
      destruct (IH _ _ _ _ _ N (F' _) E1) as (St & W3 & ll & Sl & Kl). split; [apply (steps_cons _ id ids d f (set_del f true) true); auto; reflexivity|].
      split; [exact (same_win_trans _ _ _ W W3)|]. exists ((id, (s_next st, false)) :: ll). rewrite Sl. cbn [s_slam set_slam]. rewrite S2, <- app_assoc. split; [reflexivity|]. simpl. rewrite Kl. reflexivity.
    + destruct (IH _ _ _ _ _ N (F' _) E) as (St & W3 & ll & Sl & Kl). split; [apply (steps_cons _ id ids d f (set_del f true) false); auto; reflexivity|].
      split; [exact (same_win_trans _ _ _ W W3)|]. exists ll. rewrite Sl, S2. auto.
Qed.

Section Db.
Variables (d : db) (ids : list nat).
Hypothesis Nd : NoDup ids.
Hypothesis Hd : forall id, In id ids -> exists f, alook d id = Some f /\ feat_ok f.

(** steps 1 and 3 common to MSCKF and delayed initialization *)
Lemma prepare_db times tri i1 d1 i2 d2 : clean_step times ids d = Ok (i1, d1) -> tri_step tri i1 d1 = Ok (i2, d2) ->
  NoDup i2 /\ incl i2 ids /\ map fst d2 = map fst d /\ (forall id, ~ In id ids -> alook d2 id = alook d id) /\
  forall id, In id ids -> exists f f1 f', alook d id = Some f /\ clean_old_measurements times f = Ok f1 /\ alook d2 id = Some f' /\
    same_meas f' f1 /\ (In id i2 -> (2 <= count_meas f1)%nat) /\ (~ In id i2 -> f_del f' = true).
Proof.
  intros E1 E2. destruct (clean_step_ok times ids d Nd Hd) as (i1' & d1' & E1' & (N1 & I1 & M1 & U1 & P1)). rewrite E1 in E1'. injection E1' as <- <-.
  destruct (tri_step_ok tri i1 d1 N1) as (i2' & d2' & E2' & (N2 & I2 & M2 & U2 & P2)).
  { intros id Hid. destruct (P1 id (I1 _ Hid)) as (f & f' & b & _ & B & _). eauto. }
  rewrite E2 in E2'. injection E2' as <- <-.
  split; auto. split; [intros z Hz; auto|]. split; [congruence|]. split.
  { intros id Hid. rewrite U2 by (intros C; apply Hid; auto). auto. }
  intros id Hid. destruct (P1 id Hid) as (f & f' & b & A & B & (f1 & C1 & C2 & C3 & C4 & C5) & D).
  destruct (in_dec Nat.eq_dec id i1) as [J|J].
  - assert (Hb : b = true) by (apply D; auto). rewrite Hb in C4, C5. subst f'. destruct (P2 id J) as (g & g' & b2 & A2 & B2 & (X1 & X2) & D2).
    assert (g = f1) by congruence. subst g. exists f, f1, g'. split; auto. split; auto. split; auto. split; [subst g'; destruct b2; repeat split|].
    split; [intros _; symmetry in C4; apply negb_true_iff, Nat.ltb_ge in C4; exact C4|].
    intros Ni. destruct b2; [exfalso; apply Ni, D2; auto|]. subst g'. reflexivity.
  - assert (Hb : b = false) by (destruct b; auto; exfalso; apply J, D; auto). rewrite Hb in C4, C5. subst f'.
    exists f, f1, (set_del f1 true). split; auto. split; auto. split; [rewrite U2; auto|]. split; [apply sm_set_del|].
    split; [intros C; exfalso; apply J, I2, C|reflexivity].
Qed.

Lemma msckf_consumed chi2q sig mult tri jac st st' d' used : msckf_update chi2q sig mult tri jac st d ids = Ok (st', d', used) ->
  consumed 2 (map fst (s_clones st)) ids d used d' /\ same_win st st' /\ s_slam st' = s_slam st.
Proof.
  unfold msckf_update. destruct ids as [|i0 l0] eqn:Ei.
  { intros E. injection E as <- <- <-. split; [apply consumed_nil|]. split; [apply same_win_refl|reflexivity]. }
  rewrite <- Ei in *. clear Ei. intros E. apply obind_ok in E. destruct E as ((i1 & d1) & E1 & E). apply obind_ok in E. destruct E as ((i2 & d2) & E2 & E).
  cbn [fst snd] in *. cbv zeta in E. apply obind_ok in E. destruct E as (((u & d3) & s) & E3 & E). apply obind_ok in E. destruct E as (d4 & E4 & E).
  destruct (prepare_db _ _ _ _ _ _ E1 E2) as (N2 & I2 & M2 & U2 & P2).
  assert (F2 : forall id, In id i2 -> exists f, alook d2 id = Some f). { intros id Hid. destruct (P2 id (I2 _ Hid)) as (f & f1 & f' & _ & _ & X & _). eauto. }
  destruct (msckf_loop_db _ _ _ _ _ _ _ _ _ _ _ _ _ N2 F2 E3) as (N3 & I3 & M3 & U3 & P3).
  assert (F3 : forall id, In id u -> exists f, alook d3 id = Some f). { intros id Hid. destruct (P3 id (I3 _ Hid)) as (f & f' & b & _ & X & _). eauto. }
  destruct (mark_all u d3 F3) as (d4' & E4' & M4 & U4 & P4). rewrite E4 in E4'. injection E4' as <-.
  assert (X : consumed 2 (map fst (s_clones st)) ids d u d4 /\ same_win st st' /\ s_slam st' = s_slam st /\ d' = d4 /\ used = u).
  2: { destruct X as (A & B & C & -> & ->). auto. }
  split.
  - split; auto. split; [intros z Hz; auto|]. split; [congruence|]. split.
    { intros id Hid. rewrite U4 by (intros C; apply Hid; auto). rewrite U3 by (intros C; apply Hid; auto). auto. }
    intros id Hid. destruct (P2 id Hid) as (f & f1 & f' & A & B & C & S2 & G & D). destruct (in_dec Nat.eq_dec id i2) as [J|J].
    + destruct (P3 id J) as (g & g' & b & A3 & B3 & X & D3). assert (g = f') by congruence. subst g. red in X.
      destruct (in_dec Nat.eq_dec id u) as [K|K].
      * exists f, f1, (set_del g' true). split; [auto|]. split; [auto|]. split; [auto|]. split; [auto|]. split; [|auto]. eapply sm_trans; [apply sm_set_del|]. subst g'. destruct b; [exact S2|]. eapply sm_trans; [apply sm_set_del|exact S2].
      * assert (b = false) by (destruct b; auto; exfalso; apply K, D3; auto). subst b g'. exists f, f1, (set_del f' true). split; auto. split; auto. split; [rewrite U4; auto|].
        split; [reflexivity|]. split; [eapply sm_trans; [apply sm_set_del|exact S2]|]. intros; contradiction.
    + exists f, f1, f'. split; auto. split; auto. split; [rewrite U4 by (intros C0; apply J; auto); rewrite U3; auto|]. split; [auto|]. split; [auto|]. intros K. exfalso. apply J. auto.
  - destruct (sk_meas s <? 1)%nat; [injection E as <- <- <-; split; [apply same_win_refl|auto]|].
    apply guard_ok in E; [|discriminate]. destruct E as [_ E]. apply obind_ok in E. destruct E as ((H & res) & _ & E).
    destruct (dr H <? 1)%nat; [injection E as <- <- <-; split; [apply same_win_refl|auto]|].
    apply obind_ok in E. destruct E as (st2 & Eu & E). injection E as <- <- <-. destruct (update_window _ _ _ _ _ _ Eu) as (A & B & C).
    pose proof (update_slam _ _ _ _ _ _ Eu). repeat split; auto.
Qed.

Lemma delayed_consumed chi2q so sgl lm_val tri jac st st' d' kept : delayed_init chi2q so sgl lm_val tri jac st d ids = Ok (st', d', kept) ->
  consumed 2 (map fst (s_clones st)) ids d kept d' /\ same_win st st' /\ exists l, s_slam st' = s_slam st ++ l /\ map fst l = kept.
Proof.
  unfold delayed_init. destruct ids as [|i0 l0] eqn:Ei.
  { intros E. injection E as <- <- <-. split; [apply consumed_nil|]. split; [apply same_win_refl|]. exists []. rewrite app_nil_r. auto. }
  rewrite <- Ei in *. clear Ei. intros E. apply obind_ok in E. destruct E as ((i1 & d1) & E1 & E). apply obind_ok in E. destruct E as ((i2 & d2) & E2 & E).
  cbn [fst snd] in *. destruct (prepare_db _ _ _ _ _ _ E1 E2) as (N2 & I2 & M2 & U2 & P2).
  assert (F2 : forall id, In id i2 -> exists f, alook d2 id = Some f). { intros id Hid. destruct (P2 id (I2 _ Hid)) as (f & f1 & f' & _ & _ & X & _). eauto. }
  destruct (delayed_loop_db _ _ _ _ _ _ _ _ _ _ _ N2 F2 E) as ((N3 & I3 & M3 & U3 & P3) & W & L). split; [|auto].
  split; auto. split; [intros z Hz; auto|]. split; [congruence|]. split.
  { intros id Hid. rewrite U3 by (intros C; apply Hid; auto). auto. }
  intros id Hid. destruct (P2 id Hid) as (f & f1 & f' & A & B & C & S2 & G & D). destruct (in_dec Nat.eq_dec id i2) as [J|J].
  - destruct (P3 id J) as (g & g' & b & A3 & B3 & X & D3). assert (g = f') by congruence. subst g. red in X. subst g'.
    exists f, f1, (set_del f' true). split; [auto|]. split; [auto|]. split; [auto|]. split; [auto|]. split; [eapply sm_trans; [apply sm_set_del|exact S2]|auto].
  - exists f, f1, f'. split; auto. split; auto. split; [rewrite U3; auto|]. split; [auto|]. split; [auto|]. intros K. exfalso. apply J. auto.
Qed.
End Db.

(** step 1 of the SLAM updater when no landmark has a single inverse depth *)
Lemma slam_clean_db st single times ids : (forall id, single id = false) -> forall d ids' d', NoDup ids -> (forall id, In id ids -> exists f, alook d id = Some f /\ feat_ok f) ->
  slam_clean_step st single times ids d = Ok (ids', d') ->
  steps (fun f f' b => exists f1, clean_old_measurements times f = Ok f1 /\ b = negb (count_meas f1 <? 1)%nat /\ f' = if b then f1 else set_del f1 true) ids d ids' d'.
Proof.
  intros Hs. induction ids as [|id ids IH]; intros d ids' d' N F E; cbn [slam_clean_step] in E.
  - injection E as <- <-. apply steps_nil.
  - apply NoDup_cons_iff in N. destruct N as [Ni N]. destruct (F id) as (f & Ef & Ok'); [simpl; auto|]. rewrite Ef in E.
    apply obind_ok in E. destruct E as (f1 & E1 & E). destruct (slam_ptr st id); [|discriminate]. rewrite Hs in E. cbv zeta in E.
    assert (F' : forall g k, In k ids -> exists f, alook (aset d id g) k = Some f /\ feat_ok f).
    { intros g k Hk. rewrite alook_aset. destruct (Nat.eqb_spec k id); [subst; contradiction|apply F; simpl; auto]. }
    destruct (count_meas f1 <? 1)%nat eqn:C.
    + apply (steps_cons _ id ids d f (set_del f1 true) false); auto. exists f1. rewrite C. auto.
    + apply obind_ok in E. destruct E as ((i2 & d2) & E2 & E). cbn [fst snd] in E. injection E as <- <-.
      apply (steps_cons _ id ids d f f1 true); auto. exists f1. rewrite C. auto.
Qed.

Lemma slam_consumed chi2q so single jac st d ids st' d' used fl : (forall id, single id = false) -> NoDup ids -> (forall id, In id ids -> exists f, alook d id = Some f /\ feat_ok f) ->
  slam_update chi2q so single jac st d ids = Ok (st', d', used, fl) ->
  consumed 1 (map fst (s_clones st)) ids d used d' /\ same_win st st' /\ s_slam st' = s_slam st.
Proof.
  intros Hs Nd Hd. unfold slam_update. destruct ids as [|i0 l0] eqn:Ei.
  { intros E. injection E as <- <- <- <-. split; [apply consumed_nil|]. split; [apply same_win_refl|reflexivity]. }
  rewrite <- Ei in *. clear Ei. intros E. apply obind_ok in E. destruct E as ((i2 & d2) & E2 & E).
  cbn [fst snd] in *. cbv zeta in E. apply obind_ok in E. destruct E as ((((u & d3) & s) & f2) & E3 & E). apply obind_ok in E. destruct E as (d4 & E4 & E).
  destruct (slam_clean_db _ _ _ _ Hs _ _ _ Nd Hd E2) as (N2 & I2 & M2 & U2 & P2).
  assert (F2 : forall id, In id i2 -> exists f, alook d2 id = Some f). { intros id Hid. destruct (P2 id (I2 _ Hid)) as (f & f' & b & _ & X & _). eauto. }
  destruct (slam_loop_db _ _ _ _ _ _ _ _ _ _ _ _ _ _ N2 F2 E3) as (N3 & I3 & M3 & U3 & P3).
  assert (F3 : forall id, In id u -> exists f, alook d3 id = Some f). { intros id Hid. destruct (P3 id (I3 _ Hid)) as (f & f' & b & _ & X & _). eauto. }
  destruct (mark_all u d3 F3) as (d4' & E4' & M4 & U4 & P4). rewrite E4 in E4'. injection E4' as <-.
  assert (X : consumed 1 (map fst (s_clones st)) ids d u d4 /\ same_win st st' /\ s_slam st' = s_slam st /\ d' = d4 /\ used = u).
  2: { destruct X as (A & B & C & -> & ->). auto. }
  split.
  - split; auto. split; [intros z Hz; auto|]. split; [congruence|]. split.
    { intros id Hid. rewrite U4 by (intros C; apply Hid; auto). rewrite U3 by (intros C; apply Hid; auto). auto. }
    intros id Hid. destruct (P2 id Hid) as (f & f' & b & A & B & (f1 & C & G & D) & D2). destruct b.
    + assert (J : In id i2) by (apply D2; auto). subst f'. destruct (P3 id J) as (g & g' & b & A3 & B3 & X & D3). assert (g = f1) by congruence. subst g. red in X.
      symmetry in G. apply negb_true_iff, Nat.ltb_ge in G.
      destruct (in_dec Nat.eq_dec id u) as [K|K].
      * exists f, f1, (set_del g' true). split; [auto|]. split; [auto|]. split; [auto|]. split; [auto|]. split; [|auto]. eapply sm_trans; [apply sm_set_del|]. subst g'. destruct b; [apply sm_refl|apply sm_set_del].
      * assert (b = false) by (destruct b; auto; exfalso; apply K, D3; auto). subst b g'. exists f, f1, (set_del f1 true). split; auto. split; auto. split; [rewrite U4; auto|].
        split; [reflexivity|]. split; [apply sm_set_del|]. intros; contradiction.
    + assert (J : ~ In id i2) by (intros J; apply D2 in J; discriminate). subst f'.
      exists f, f1, (set_del f1 true). split; auto. split; auto. split; [rewrite U4 by (intros C0; apply J; auto); rewrite U3; auto|]. split; [reflexivity|]. split; [apply sm_set_del|]. intros K. exfalso. apply J. auto.
  - destruct (sk_meas s <? 1)%nat; [injection E as <- <- <- <-; split; [apply same_win_refl|auto]|].
    apply guard_ok in E; [|discriminate]. destruct E as [_ E].
    apply obind_ok in E. destruct E as (st2 & Eu & E). injection E as <- <- <- <-. destruct (update_window _ _ _ _ _ _ Eu) as (A & B & C).
    pose proof (update_slam _ _ _ _ _ _ Eu). repeat split; auto.
Qed.
