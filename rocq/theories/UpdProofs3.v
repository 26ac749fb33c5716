(** The MSCKF update as a whole. *)
From Coq Require Import Reals List Arith Lia Lra ZArith Bool Permutation.
From Verif Require Import RBool Outcome Lin PdInv GeoModel TypesModel TypesProofs GivensModel GivensSpec GivensProofs StateModel StateSpec StateLin
  StateEkf StateOps StateOps2 StateOps3 ReachModel ReachSpec StateReach StateFrame StateThms EquivProofs DbModel DbSpec DbProofs UpdModel UpdSpec UpdProofs
  UpdProofs2.
Import ListNotations.
Open Scope R_scope.

Definition goodM (st : state) (e : pref) : Prop := live_ref st e /\ ~ In (fst e) (slam_ptrs st).

Lemma nullspace_total Hf Hx res : (dc Hf <= dr Hf)%nat -> dr Hx = dr Hf -> dn res = dr Hf ->
  exists F X r, nullspace_project Hf Hx res = Ok (F, X, r) /\ dr X = (dr Hf - dc Hf)%nat /\ dc X = dc Hx /\ dn r = (dr Hf - dc Hf)%nat.
Proof.
  intros A B C. unfold nullspace_project.
  assert (E : ((dc Hf <=? dr Hf) && (dr Hx =? dr Hf) && (dn res =? dr Hf))%nat%bool = true)
    by (rewrite !andb_true_iff, Nat.leb_le, !Nat.eqb_eq; auto).
  rewrite E. destruct (fold_left nullspace_step _ _) as [[F X] r]. do 3 eexists. split; [reflexivity|]. simpl. rewrite B, C. auto.
Qed.

Lemma meas_size_ext ids d d' : (forall id, In id ids -> alook d id = alook d' id) -> meas_size d ids = meas_size d' ids.
Proof.
  induction ids as [|id ids IH]; simpl; intros E; auto. rewrite E by auto. rewrite IH; auto.
Qed.
Lemma steps_keep (K : feature -> feature -> bool -> Prop) id ids d f ids' d' : ~ In id ids -> alook d id = Some f -> K f f true ->
  steps K ids d ids' d' -> steps K (id :: ids) d (id :: ids') d'.
Proof.
  intros Ni E Kf (N & I & M & U & P).
  assert (Ni' : ~ In id ids') by (intros C; apply Ni, I, C).
  split; [constructor; auto|]. split; [intros z [<-|Hz]; simpl; auto|]. split; auto. split.
  - intros k Hk. apply U. simpl in Hk. tauto.
  - intros k [<-|Hk].
    + exists f, f, true. rewrite U by auto. split; auto. split; auto. split; auto. simpl. tauto.
    + destruct (P k Hk) as (g & g' & b' & A & B & C & D). exists g, g', b'. split; auto. split; auto. split; auto.
      rewrite D. simpl. split; auto. intros [->|?]; auto. contradiction.
Qed.

Definition gate_by (f f' : feature) (b : bool) : Prop := f' = if b then f else set_del f true.

Lemma lin_sys_good st l y k f : state_ok st -> lin_ok st k f l -> (k <= 2 * count_meas f)%nat -> projected l y ->
  sys_good (goodM st) y /\ dn (y_res y) = (2 * count_meas f - k)%nat /\ Forall (live_ref st) (y_order y).
Proof.
  intros Hok [L1 L2 L3 L4 L5 L6 L7 L8 L9] Hk (F & E & Eo).
  destruct (nullspace_total (ls_Hf l) (ls_Hx l) (ls_res l)) as (F' & X & r & E' & D1 & D2 & D3); try lia.
  rewrite E in E'. injection E' as <- <- <-. unfold sys_good. rewrite Eo. split; [split; [|split; [|split]]|split]; auto.
  - apply Forall_forall. intros e Ie. split; auto. rewrite Forall_forall in L8; auto.
  - rewrite D2, L5. apply indices_len. eapply Forall_impl; [|exact L8]. intros e. apply live_has_id; auto.
  - lia.
  - lia.
Qed.

Section Msckf.
Variables (chi2q : nat -> R) (sig mult : R) (jac : state -> feature -> outcome linsys) (maxm maxh : nat) (st : state).
Hypothesis Hok : state_ok st.
Hypothesis HP : spsd (s_dim st) (s_cov st).
Hypothesis HM : maps_ok st.
Hypothesis Hsig : 0 < sig.
Hypothesis Hj : jac_ok st jac.
Hypothesis Hh : maxh = hx_size st.

Lemma goodM_loc a b : goodM st a -> goodM st b -> fst a = fst b -> a = b.
Proof. intros [A _] [B _]. apply (live_loc st); auto. Qed.
Lemma goodM_cap o : NoDup (map fst o) -> Forall (goodM st) o -> (tot o <= maxh)%nat.
Proof. intros. rewrite Hh. apply cap_nolm; auto. Qed.

Lemma msckf_loop_ok ids : forall d s done, NoDup ids ->
  (forall id, In id ids -> exists f, alook d id = Some f /\ feat_live (map fst (s_clones st)) f /\ (2 <= count_meas f)%nat) ->
  holds (goodM st) s done -> holds_res s done -> (sk_meas s + meas_size d ids <= maxm)%nat ->
  exists used d' s' ys, msckf_loop chi2q sig mult jac maxm maxh st ids d s = Ok (used, d', s') /\
    holds (goodM st) s' (done ++ ys) /\ holds_res s' (done ++ ys) /\ Forall (sys_good (goodM st)) ys /\
    Forall (fun y => (1 <= dn (y_res y))%nat /\ y_order y <> [] /\ y_sig y = sig) ys /\
    Forall2 (fun id y => exists f l, alook d id = Some f /\ jac st f = Ok l /\ projected l y /\ y_sig y = sig /\ passes chi2q mult st y) used ys /\
    steps gate_by ids d used d' /\
    (forall id, In id ids -> ~ In id used -> exists f l y, alook d id = Some f /\ jac st f = Ok l /\ projected l y /\ y_sig y = sig /\ fails chi2q mult st y) /\
    (sk_meas s' <= sk_meas s + meas_size d ids)%nat.
Proof.
  induction ids as [|id ids IH]; intros d s done N F Hs Hr Hm.
  - exists [], d, s, []. rewrite app_nil_r. simpl. split; auto. split; auto. split; auto. split; auto. split; auto. split; auto.
    split; [apply steps_nil|]. split; [intros ? []|]. lia.
  - apply NoDup_cons_iff in N. destruct N as [H1 H2]. destruct (F id) as (f & E & [Fk Ft] & Fc); [simpl; auto|].
    destruct (Hj f Fk Ft) as (l & El & Lo); [lia|]. pose proof Lo as [L1 L2 L3 L4 L5 L6 L7 L8 L9].
    destruct (nullspace_total (ls_Hf l) (ls_Hx l) (ls_res l)) as (F' & X & r & En & D1 & D2 & D3); try lia.
    assert (Pj : projected l (mkSys X r (ls_order l) sig)) by (exists F'; split; auto).
    set (y := mkSys X r (ls_order l) sig) in *.
    destruct (lin_sys_good st l y 3 f Hok Lo) as (Gy & Dy & Ly); [lia|auto|].
    assert (Em : meas_size d (id :: ids) = (2 * count_meas f + meas_size d ids)%nat) by (simpl; rewrite E; reflexivity).
    cbn [msckf_loop]. rewrite E, El. cbn [obind]. rewrite En. cbn [obind].
    destruct (chi2_ok st X r (ls_order l) sig Hok HP L8 Hsig) as (d2 & Ed & Gd); [apply Gy|apply Gy|].
    rewrite Ed. cbn [obind].
    destruct (Rltb_spec (mult * chi2q (dn r)) d2) as [Hf|Hf].
    + assert (Mx : meas_size (aset d id (set_del f true)) ids = meas_size d ids).
      { apply meas_size_ext. intros k Hk. rewrite alook_aset. destruct (Nat.eqb_spec k id); [subst; contradiction|reflexivity]. }
      destruct (IH (aset d id (set_del f true)) s done H2) as (used & d' & s' & ys & E' & B1 & B2 & B3 & B4 & B5 & B6 & B7 & B8); auto.
      { intros k Hk. rewrite alook_aset. destruct (Nat.eqb_spec k id); [subst; contradiction|]. apply F; simpl; auto. }
      { lia. }
      exists used, d', s', ys. split; auto. split; auto. split; auto. split; auto. split; auto.
      assert (Iu : incl used ids) by apply B6.
      split.
      { clear -B5 H1 Iu. induction B5 as [|k y0 u ys0 (g & l0 & A) B5 IH]; constructor.
        - exists g, l0. rewrite alook_aset in A. destruct (Nat.eqb_spec k id); auto. subst. exfalso. apply H1, Iu. simpl; auto.
        - apply IH. intros z Hz. apply Iu. simpl; auto. }
      split; [apply (steps_cons _ id ids d f (set_del f true) false); auto; reflexivity|].
      split.
      { intros k [<-|Hk] Nk.
        - exists f, l, y. split; auto. split; auto. split; auto. split; auto. exists d2. auto.
        - destruct (B7 k Hk Nk) as (g & l0 & y0 & A). exists g, l0, y0. rewrite alook_aset in A.
          destruct (Nat.eqb_spec k id); [subst; contradiction|auto]. }
      lia.
    + destruct (stack_feature_ok maxm maxh (goodM st) goodM_loc goodM_cap y done s) as (s1 & E1 & A1 & A2); auto; [simpl in *; lia|].
      simpl in E1. rewrite E1. cbn [obind].
      assert (M1 : sk_meas s1 = (sk_meas s + dn (y_res y))%nat).
      { destruct A1 as (_ & _ & Ea & _). destruct Hs as (_ & _ & Eb & _). rewrite Ea, rows_of_app, Eb. reflexivity. }
      destruct (IH d s1 (done ++ [y]) H2) as (used & d' & s' & ys & E' & B1 & B2 & B3 & B4 & B5 & B6 & B7 & B8); auto.
      { intros k Hk. apply F; simpl; auto. }
      { lia. }
      rewrite E'. cbn [obind]. rewrite <- app_assoc in *. simpl in B1, B2.
      exists (id :: used), d', s', (y :: ys). split; auto. split; auto. split; auto. split; [constructor; auto|].
      split.
      { constructor; auto. split; [simpl in *; lia|]. split; [exact L7|reflexivity]. }
      split.
      { constructor; auto. exists f, l. split; auto. split; auto. split; auto. split; auto. exists d2. auto. }
      split; [apply (steps_keep _ id ids d f); auto; reflexivity|].
      split.
      { intros k [<-|Hk] Nk; [exfalso; apply Nk; simpl; auto|]. apply B7; auto. intros C. apply Nk. simpl; auto. }
      lia.
Qed.
End Msckf.

Lemma mark_all used : forall d, (forall id, In id used -> exists f, alook d id = Some f) ->
  exists d', ofold mark used d = Ok d' /\ map fst d' = map fst d /\
    (forall id, ~ In id used -> alook d' id = alook d id) /\
    (forall id f, In id used -> alook d id = Some f -> alook d' id = Some (set_del f true)).
Proof.
  induction used as [|k used IH]; intros d F.
  - exists d. simpl. split; auto. split; auto. split; auto. intros ? ? [].
  - cbn [ofold]. destruct (F k) as (f & E); [simpl; auto|]. unfold mark at 1. rewrite E. cbn [obind].
    destruct (IH (aset d k (set_del f true))) as (d' & E' & M & U & P).
    { intros id Hid. rewrite alook_aset. destruct (Nat.eqb_spec id k); [eauto|]. apply F. simpl; auto. }
    exists d'. split; auto. split; [rewrite M; apply aset_keys_same; eauto|]. split.
    + intros id Hid. simpl in Hid. rewrite U by tauto. rewrite alook_aset. destruct (Nat.eqb_spec id k); [subst; tauto|reflexivity].
    + intros id g Hid Eg. destruct (in_dec Nat.eq_dec id used) as [I|I].
      * destruct (Nat.eq_dec id k) as [->|Nk].
        -- assert (g = f) by congruence. subst g. erewrite P; [|auto|rewrite alook_aset, Nat.eqb_refl; reflexivity]. reflexivity.
        -- apply P; auto. rewrite alook_aset. destruct (Nat.eqb_spec id k); [contradiction|auto].
      * destruct Hid as [<-|Hid]; [|contradiction]. assert (g = f) by congruence. subst g.
        rewrite U by auto. rewrite alook_aset, Nat.eqb_refl. reflexivity.
Qed.

Lemma stacked_noise sig : forall l r0 order H res N, Forall (fun y => y_sig y = sig) l -> stacked r0 l order H res N ->
  stacked r0 l order H res (mscal sig mid).
Proof.
  induction l as [|y l IH]; simpl; auto. intros r0 order H res N F [A B]. inversion F; subst. split; [|eapply IH; eauto].
  intros i Hi. destruct (A i Hi) as (A1 & A2 & _). split; auto. split; auto. unfold mscal, mid. rewrite Nat.eqb_refl. ring.
Qed.

Lemma size_pos t : vals_ok t -> (0 < ty_size t)%nat.
Proof. destruct t; simpl; intros; lia. Qed.

Lemma set_del_idem f : set_del (set_del f true) true = set_del f true.
Proof. reflexivity. Qed.

Lemma msckf_thm chi2q sig mult tri jac st d ids : reach chi2q st -> db_ok d -> handed d ids -> 0 < sig -> jac_ok st jac ->
  exists st' d' used ys, msckf_update chi2q sig mult tri jac st d ids = Ok (st', d', used) /\
    reach chi2q st' /\ incl used ids /\ NoDup used /\
    Forall2 (contributes chi2q sig mult tri jac st d d') used ys /\
    (forall id, In id ids -> ~ In id used -> exists f, alook d id = Some f /\ not_usable chi2q sig mult tri jac st f) /\
    (ys = [] -> st' = st) /\
    (ys <> [] -> exists order H res st2,
       stacked 0 ys order H res (mscal sig mid) /\
       EKFUpdate st order (DMat (rows_of ys) (length (indices order)) H) (DVec (rows_of ys) res)
         (DMat (rows_of ys) (rows_of ys) (mscal sig mid)) = Ok st2 /\ same_estimate st' st2) /\
    (forall id, In id ids -> exists f', alook d' id = Some f' /\ f_del f' = true) /\
    (forall id, ~ In id ids -> alook d' id = alook d id) /\ map fst d' = map fst d.
Proof.
  intros Rc Dk [Nd Hd] Hs Hj. destruct (reach_inv _ _ Rc) as (Hok & HP & HM).
  destruct ids as [|id0 ids0] eqn:Eids.
  { exists st, d, [], []. simpl. repeat match goal with |- _ /\ _ => split end; auto. intros z []. intros ? []. congruence. intros ? []. }
  rewrite <- Eids in *. unfold msckf_update. rewrite Eids. rewrite <- Eids. clear Eids.
  set (times := map fst (s_clones st)) in *.
  destruct (clean_step_ok times ids d Nd) as (i1 & d1 & E1 & S1).
  { intros id Hid. destruct (Hd id Hid) as (f & E). exists f. split; auto. apply alook_some_key in E. apply Dk in E. apply E. }
  rewrite E1. cbn [obind fst snd]. destruct S1 as (N1 & I1 & M1 & U1 & P1).
  destruct (tri_step_ok (tri st) i1 d1 N1) as (i2 & d2 & E2 & S2).
  { intros id Hid. destruct (P1 id (I1 _ Hid)) as (f & f' & b & A & B & _). eauto. }
  rewrite E2. cbn [obind fst snd]. destruct S2 as (N2 & I2 & M2 & U2 & P2).
  (* the features that survive *)
  assert (Pr : forall id, In id i2 -> exists f g, alook d id = Some f /\ prepared st tri f g /\ alook d2 id = Some g /\ feat_live times g /\ (2 <= count_meas g)%nat).
  { intros id Hid. destruct (P2 id (I2 _ Hid)) as (f1 & g & b2 & A2 & B2 & (C2 & C2') & D2).
    assert (H : b2 = true) by (apply D2; auto). rewrite H in C2, C2'.
    destruct (P1 id (I1 _ (I2 _ Hid))) as (f & f1' & b1 & A1 & B1 & (f1'' & K1 & K2 & K3 & K4 & K5) & D1).
    assert (H0 : b1 = true) by (apply D1; auto). rewrite H0 in K4, K5. subst f1'.
    assert (f1'' = f1) by congruence. subst f1''.
    symmetry in K4. apply negb_true_iff, Nat.ltb_ge in K4.
    exists f, g. split; auto. split; [exists f1; auto|]. split; auto. subst g. split; auto. }
  destruct (msckf_loop_ok chi2q sig mult jac (meas_size d2 i2) (hx_size st) st Hok HP HM Hs Hj eq_refl i2 d2 stack0 [] N2)
    as (used & d3 & s & ys & E3 & B1 & B2 & B3 & B4 & B5 & B6 & B7 & B8).
  { intros id Hid. destruct (Pr id Hid) as (f & g & _ & _ & A & B & C). exists g. auto. }
  { apply (holds0 (goodM st)). } { apply (holds0 (goodM st)). } { simpl. lia. }
  rewrite E3. cbn [obind]. simpl in B1, B2. destruct B6 as (N3 & I3 & M3 & U3 & P3).
  destruct (mark_all used d3) as (d4 & E4 & M4 & U4 & P4).
  { intros id Hid. destruct (P3 id (I3 _ Hid)) as (f & f' & b & _ & A & _). eauto. }
  rewrite E4. cbn [obind].
  (* life cycle facts *)
  assert (Fct : Forall2 (contributes chi2q sig mult tri jac st d d4) used ys).
  { assert (G : forall u ys, incl u used -> Forall2 (fun id y => exists f l, alook d2 id = Some f /\ jac st f = Ok l /\ projected l y /\ y_sig y = sig /\ passes chi2q mult st y) u ys ->
        Forall2 (contributes chi2q sig mult tri jac st d d4) u ys).
    { intros u ys0 Iu. induction 1 as [|id y u ys0 (g & l & A & B) _ IH]; constructor.
      - assert (Hu : In id used) by (apply Iu; simpl; auto).
        destruct (Pr id (I3 _ Hu)) as (f & g' & Q1 & Q2 & Q3 & _). assert (g' = g) by congruence. subst g'.
        exists f, g, l. split; auto. split; auto. split; auto. apply P4; auto.
        destruct (P3 id (I3 _ Hu)) as (h & h' & b & X1 & X2 & X3 & X4). assert (b = true) by (apply X4; auto). subst b.
        red in X3. subst h'. congruence.
      - apply IH. intros z Hz. apply Iu. simpl; auto. }
    apply G; auto using incl_refl. }
  assert (Fn : forall id, In id ids -> ~ In id used -> exists f, alook d id = Some f /\ not_usable chi2q sig mult tri jac st f).
  { intros id Hid Nu. destruct (P1 id Hid) as (f & f1' & b1 & A1 & X1 & (f1 & K1 & K2 & K3 & K4 & K5) & D1).
    exists f. split; auto. destruct b1.
    - assert (In id i1) by (apply D1; auto). destruct (P2 id H) as (f1'' & g & b2 & A2 & X2 & (C2 & C2') & D2).
      assert (f1'' = f1) by congruence. subst f1''. destruct b2.
      + assert (Hi2 : In id i2) by (apply D2; auto). right. destruct (B7 id Hi2 Nu) as (g' & l & y & Y1 & Y2 & Y3 & Y4).
        assert (g' = g) by congruence. subst g'. exists g, l, y. split; auto.
        exists f1. symmetry in K4. apply negb_true_iff, Nat.ltb_ge in K4. auto.
      + left. exists f1. split; auto.
    - left. exists f1. split; auto. symmetry in K4. apply negb_false_iff, Nat.ltb_lt in K4. auto. }
  assert (Fm : forall id, In id ids -> exists f', alook d4 id = Some f' /\ f_del f' = true).
  { intros id Hid. destruct (in_dec Nat.eq_dec id used) as [Iu|Iu].
    - destruct (P3 id (I3 _ Iu)) as (f & f' & b & _ & A & _). exists (set_del f' true). split; auto.
    - rewrite U4 by auto. destruct (in_dec Nat.eq_dec id i2) as [Hi2|Hi2].
      + destruct (P3 id Hi2) as (f & f' & b & _ & A & C & D). destruct b; [exfalso; apply Iu, D; auto|].
        red in C. exists f'. split; auto. subst. reflexivity.
      + rewrite U3 by auto. destruct (in_dec Nat.eq_dec id i1) as [Hi1|Hi1].
        * destruct (P2 id Hi1) as (f & f' & b & _ & A & (C1 & C2) & D). destruct b; [exfalso; apply Hi2, D; auto|].
          exists f'. split; auto. subst. reflexivity.
        * rewrite U2 by auto. destruct (P1 id Hid) as (f & f' & b & _ & A & (f1 & _ & _ & _ & _ & C) & D).
          destruct b; [exfalso; apply Hi1, D; auto|]. exists f'. split; auto. subst. reflexivity. }
  assert (Fu : forall id, ~ In id ids -> alook d4 id = alook d id).
  { intros id Hid. rewrite U4 by (intros C; apply Hid; auto). rewrite U3 by (intros C; apply Hid; auto).
    rewrite U2 by (intros C; apply Hid; auto). apply U1; auto. }
  assert (Fi : incl used ids) by (intros z Hz; auto).
  assert (Fk : map fst d4 = map fst d) by congruence.
  pose proof B1 as ((Sn & Sm & Sj) & Sg & Se & Sr & Sz & Sp).
  destruct (Nat.ltb_spec (sk_meas s) 1) as [Lt|Ge].
  - assert (ys = []).
    { destruct ys as [|y ys]; auto. exfalso. simpl in Se. inversion B4 as [|? ? X1 X2]. destruct X1. lia. }
    exists st, d4, used, ys. do 4 (split; auto). split; auto. split; auto. split; auto. split; [congruence|]. auto.
  - assert (Ny : ys <> []) by (intros ->; simpl in Se; lia).
    assert (Lo : (sk_jac s <= hx_size st)%nat) by (rewrite Sj; apply cap_nolm; auto).
    assert (Eg : ((sk_meas s <=? meas_size d2 i2) && (sk_jac s <=? hx_size st))%nat%bool = true)
      by (rewrite andb_true_iff, !Nat.leb_le; simpl in B8; lia).
    rewrite Eg. cbn [guard].
    destruct (compress_total (DMat (sk_meas s) (sk_jac s) (sk_H s)) (DVec (sk_meas s) (sk_res s)) eq_refl) as ([H' r'] & Ec).
    rewrite Ec. cbn [obind].
    assert (Sl : Forall (live_ref st) (sk_order s)) by (eapply Forall_impl; [|exact Sg]; intros e []; auto).
    assert (Sc : in_cov (s_dim st) (map snd (sk_order s))) by (apply live_in_cov; auto).
    assert (Sx : length (indices (map snd (sk_order s))) = sk_jac s).
    { rewrite Sj. apply indices_len. eapply Forall_impl; [|exact Sl]. intros e. apply live_has_id; auto. }
    assert (Jp : (1 <= sk_jac s)%nat).
    { destruct ys as [|y ys]; [congruence|]. inversion B4; subst. destruct H1 as (_ & Ho & _).
      destruct Sr as (_ & Inc & _). destruct (y_order y) as [|e o]; [congruence|].
      assert (Ie : In e (sk_order s)) by (apply Inc; simpl; auto). pose proof (off_bound _ e Sn Ie).
      rewrite Forall_forall in Sl. destruct (Sl e Ie) as (t & It & _ & Rt).
      assert (0 < psz e)%nat; [|lia]. unfold psz. rewrite <- Rt. simpl. apply size_pos.
      pose proof (ok_vals _ Hok) as V. rewrite Forall_forall in V. auto. }
    destruct (compress_thm _ _ _ _ Ec eq_refl) as (T1 & T2 & _).
    destruct (compress_full _ _ _ _ Ec) as [T3 T4]. cbn [dr dc] in T1, T2, T3, T4.
    assert (Dp : (1 <= dr H')%nat).
    { destruct (Nat.le_gt_cases (sk_meas s) (sk_jac s)) as [Q|Q].
      - destruct (T3 Q) as [-> _]. simpl. lia.
      - destruct (T4 Q) as (Q1 & _). rewrite Q1. lia. }
    destruct (Nat.ltb_spec (dr H') 1); [lia|].
    destruct (compressed_update chi2q st (map snd (sk_order s)) (DMat (sk_meas s) (sk_jac s) (sk_H s)) (DVec (sk_meas s) (sk_res s)) H' r' sig)
      as (st1 & st2 & V1 & V2 & V3 & V4 & V5); auto.
    rewrite T2, V2. cbn [obind].
    assert (Rst : reach chi2q st2).
    { apply (reach_step chi2q st (OUpd (map snd (sk_order s)) H' r' (DMat (dr H') (dr H') (mscal sig mid)))); auto.
      cbn [allowed dr dc dm]. rewrite T1, T2. split; auto. split; auto. split; auto. split; auto. split; auto.
      split; [apply sym_scal_id|apply pd_scal_id; auto]. }
    exists st2, d4, used, ys. split; auto. split; auto. split; auto. split; auto. split; auto. split; auto. split; [congruence|].
    split; [|auto]. intros _. exists (map snd (sk_order s)), (sk_H s), (sk_res s), st1. split; [|split].
    + eapply stacked_noise with (N := sk_R s).
      * eapply Forall_impl; [|exact B4]. simpl. intros y Hy. apply Hy.
      * apply (holds_stacked (goodM st)); auto.
        { intros e [He _]. apply (live_has_id st); auto. } { apply B2. }
    + rewrite Sx, <- Se. exact V1.
    + red. rewrite <- V4. split; auto. split; auto. intros i j Hi Hj'. symmetry. apply V5; auto.
Qed.
