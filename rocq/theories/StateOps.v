(** Layout, marginalization and cloning. *)
From Coq Require Import Reals List Arith Lia Lra Bool ZArith.
From Verif Require Import RBool Outcome Lin GeoModel GeoSpec GivensModel TypesModel StateModel StateSpec PdInv StateLin
  StateEkf TypesProofs.
Import ListNotations.
Open Scope R_scope.

(** ** consecutive *)
Lemma consecutive_app off l1 l2 n :
  consecutive off (l1 ++ l2) n <-> exists m, consecutive off l1 m /\ consecutive m l2 n.
Proof.
  revert off. induction l1 as [|t l1 IH]; simpl; intros off.
  - split; [intros H; exists off; auto|intros (m & -> & H); auto].
  - rewrite IH. split.
    + intros [Hid (m & A & B)]. exists m; auto.
    + intros (m & [Hid A] & B). split; eauto.
Qed.

Lemma consecutive_in off l n t : consecutive off l n -> In t l ->
  exists id, ty_id t = Some id /\ (off <= id)%nat /\ (id + ty_size t <= n)%nat.
Proof.
  revert off. induction l as [|a l IH]; simpl; intros off; [tauto|].
  intros [Hid Hc] [->|Hin].
  - exists off. split; auto. apply consecutive_le in Hc. lia.
  - destruct (IH _ Hc Hin) as (id & A & B & C). exists id. split; auto. lia.
Qed.

Lemma consecutive_ext off l l' n :
  Forall2 (fun t t' => ty_id t' = ty_id t /\ ty_size t' = ty_size t) l l' ->
  consecutive off l n -> consecutive off l' n.
Proof.
  intros H. revert off. induction H as [|t t' l l' [A B] _ IH]; simpl; auto.
  intros off [Hid Hc]. rewrite A, B. auto.
Qed.

Lemma consecutive_owner off l n k : consecutive off l n -> (off <= k < n)%nat ->
  exists i t, nth_error l i = Some t /\ owns t k.
Proof.
  revert off. induction l as [|t l IH]; simpl; intros off.
  - intros ->; lia.
  - intros [Hid Hc] Hk. destruct (Nat.lt_ge_cases k (off + ty_size t)).
    + exists 0%nat, t. split; auto. exists off. split; [auto|lia].
    + destruct (IH _ Hc) as (i & t' & A & B); [lia|]. exists (S i), t'. auto.
Qed.

Lemma consecutive_owner_unique off l n k : consecutive off l n ->
  forall i t i' t', nth_error l i = Some t -> owns t k -> nth_error l i' = Some t' -> owns t' k -> i = i'.
Proof.
  revert off. induction l as [|a l IH]; simpl; intros off.
  - intros _ i t i' t' H. destruct i; discriminate.
  - intros [Hid Hc] [|i] t [|i'] t' H1 O1 H2 O2; simpl in *; auto.
    + injection H1 as <-. apply nth_error_In in H2.
      destruct (consecutive_in _ _ _ _ Hc H2) as (id & A & B & C).
      destruct O1 as (k1 & E1 & F1). destruct O2 as (k2 & E2 & F2).
      rewrite Hid in E1. injection E1 as <-. rewrite A in E2. injection E2 as <-. lia.
    + injection H2 as <-. apply nth_error_In in H1.
      destruct (consecutive_in _ _ _ _ Hc H1) as (id & A & B & C).
      destruct O1 as (k1 & E1 & F1). destruct O2 as (k2 & E2 & F2).
      rewrite Hid in E2. injection E2 as <-. rewrite A in E1. injection E1 as <-. lia.
    + f_equal. eapply IH; eauto.
Qed.

Lemma consecutive_tiles l n : consecutive 0 l n -> tiles l n.
Proof.
  intros H. split.
  - intros k Hk. destruct (consecutive_owner _ _ _ k H) as (i & t & A & B); [lia|].
    exists i. split; [eauto|]. intros i' t' A' B'.
    eapply consecutive_owner_unique; eauto.
  - intros t k Hin (id & A & B). destruct (consecutive_in _ _ _ _ H Hin) as (id' & C & _ & D).
    rewrite A in C. injection C as <-. lia.
Qed.

(** ** find_top *)
Lemma find_top_some vars p t : find_top vars p = Some t -> In t vars /\ ty_ptr t = p.
Proof.
  unfold find_top. intros H. apply find_some in H. destruct H as [A B].
  apply Nat.eqb_eq in B. auto.
Qed.
Lemma find_top_none vars p : find_top vars p = None -> forall t, In t vars -> ty_ptr t <> p.
Proof.
  unfold find_top. intros H t Hin. apply (find_none _ _ H) in Hin. apply Nat.eqb_neq; auto.
Qed.

Lemma ptr_in_flat l t : In t l -> In (ty_ptr t) (flat_map ty_ptrs l).
Proof. intros H. apply in_flat_map. exists t. split; auto. apply ty_ptr_in_ptrs. Qed.

Lemma find_split l p t : NoDup (flat_map ty_ptrs l) -> find_top l p = Some t ->
  exists l1 l2, l = l1 ++ t :: l2 /\ filter (fun t => negb (Nat.eqb (ty_ptr t) p)) l = l1 ++ l2.
Proof.
  induction l as [|a l IH]; intros ND H; [discriminate|].
  unfold find_top in H. simpl in H, ND |- *.
  destruct (Nat.eqb_spec (ty_ptr a) p) as [E|E]; simpl.
  - injection H as <-. exists [], l. split; [reflexivity|]. simpl.
    assert (Hn : forall b, In b l -> ty_ptr b <> p).
    { intros b Hb Eb. pose proof (ptr_in_flat l b Hb) as Hin. pose proof (ty_ptr_in_ptrs a) as Ha.
      rewrite Eb in Hin. rewrite E in Ha.
      revert Hin. clear -ND Ha. induction (ty_ptrs a) as [|x xs IHx]; [destruct Ha|].
      simpl in ND. inversion ND as [|? ? N1 N2]; subst. destruct Ha as [->|Ha].
      - intros Hin. apply N1. apply in_or_app; auto.
      - apply IHx; auto. }
    clear -Hn. induction l as [|b l IH]; simpl; auto.
    destruct (Nat.eqb_spec (ty_ptr b) p) as [Eb|Eb]; simpl.
    + exfalso. apply (Hn b); simpl; auto.
    + f_equal. apply IH. intros; apply Hn; simpl; auto.
  - destruct IH as (l1 & l2 & -> & F).
    + clear -ND. induction (ty_ptrs a); simpl in ND; auto. inversion ND; auto.
    + exact H.
    + exists (a :: l1), l2. split; [reflexivity|]. simpl. f_equal. exact F.
Qed.

(** ** marginalize *)
Lemma shift_id_same mid msz t : same_obj t (shift_id mid msz t).
Proof.
  unfold shift_id. destruct (ty_id t); [|split; auto].
  destruct (mid <? n)%nat; [|split; auto].
  unfold same_obj. rewrite set_id_ptrs, set_id_size, set_id_value, set_id_fej. auto.
Qed.

Lemma shift_id_before mid msz off l n :
  consecutive off l n -> (n <= mid)%nat -> map (shift_id mid msz) l = l.
Proof.
  revert off. induction l as [|t l IH]; simpl; intros off; auto.
  intros [Hid Hc] Hn. pose proof (consecutive_le _ _ _ Hc). rewrite (IH _ Hc Hn). f_equal.
  unfold shift_id. rewrite Hid. destruct (Nat.ltb_spec mid off); [lia|reflexivity].
Qed.

Lemma shift_id_after mid msz off l n :
  consecutive off l n -> (mid + msz <= off)%nat ->
  consecutive (off - msz) (map (shift_id mid msz) l) (n - msz).
Proof.
  revert off. induction l as [|t l IH]; simpl; intros off.
  - intros -> _. reflexivity.
  - intros [Hid Hc] Hoff.
    assert (E : ty_id (shift_id mid msz t) = Some (off - msz)%nat).
    { unfold shift_id. rewrite Hid. destruct (Nat.ltb_spec mid off).
      - apply set_id_id.
      - rewrite Hid. f_equal. lia. }
    split; [exact E|].
    destruct (shift_id_same mid msz t) as (_ & -> & _).
    replace (off - msz + ty_size t)%nat with (off + ty_size t - msz)%nat by lia.
    apply IH; [exact Hc|lia].
Qed.

Lemma Forall_shift (Q : ty -> Prop) mid msz l :
  (forall t k, Q t -> Q (set_local_id t k)) -> Forall Q l -> Forall Q (map (shift_id mid msz) l).
Proof.
  intros HQ H. induction H; simpl; constructor; auto.
  unfold shift_id. destruct (ty_id x); auto. destruct (mid <? n)%nat; auto.
Qed.

Lemma flat_ptrs_shift mid msz l : flat_map ty_ptrs (map (shift_id mid msz) l) = flat_map ty_ptrs l.
Proof.
  induction l; simpl; auto. rewrite IHl. f_equal. apply (shift_id_same mid msz a).
Qed.

(** inversion of a successful call *)
Lemma marginalize_inv st p st' m : state_ok st -> marginalize st p = Ok (st', m) ->
  exists l1 marg l2 mid,
    s_vars st = l1 ++ marg :: l2 /\ ty_ptr marg = p /\ ty_id marg = Some mid /\
    consecutive 0 l1 mid /\ consecutive (mid + ty_size marg) l2 (s_dim st) /\
    st' = set_vars_cov st (l1 ++ map (shift_id mid (ty_size marg)) l2) (s_dim st - ty_size marg)
            (marg_cov (s_cov st) mid (ty_size marg) (s_dim st - mid - ty_size marg)) /\
    m = set_local_id marg None.
Proof.
  intros Hok. unfold marginalize.
  destruct (find_top (s_vars st) p) as [marg|] eqn:Ef; [|discriminate].
  destruct (ty_id marg) as [mid|] eqn:Eid; [|discriminate].
  unfold guard. destruct (Nat.leb_spec (mid + ty_size marg) (s_dim st)); [|discriminate].
  intros E. injection E as <- <-.
  destruct (find_split _ _ _ (ok_nodup _ Hok) Ef) as (l1 & l2 & El & Efl).
  rewrite Efl. pose proof (ok_layout _ Hok) as HL. rewrite El in HL.
  apply consecutive_app in HL. destruct HL as (k & H1 & H2). simpl in H2. destruct H2 as [H2 H3].
  rewrite Eid in H2. injection H2 as <-.
  exists l1, marg, l2, mid.
  split; [exact El|]. split; [apply (find_top_some _ _ _ Ef)|].
  split; [exact Eid|]. split; [exact H1|]. split; [exact H3|]. split; [|reflexivity].
  rewrite map_app. rewrite (shift_id_before mid _ 0 l1 mid H1) by lia. reflexivity.
Qed.

Lemma NoDup_mid {A} (l1 l2 l3 : list A) : NoDup (l1 ++ l2 ++ l3) -> NoDup (l1 ++ l3).
Proof.
  induction l2 as [|x l2 IH]; simpl; auto. intros H. apply NoDup_remove_1 in H. auto.
Qed.

Lemma marginalize_ok st p st' m : state_ok st -> marginalize st p = Ok (st', m) -> state_ok st'.
Proof.
  intros Hok H. destruct (marginalize_inv _ _ _ _ Hok H) as (l1 & marg & l2 & mid & El & Hp & Hid & H1 & H2 & -> & _).
  destruct Hok as [HL HS HV HU HN HA HD]. rewrite El in *.
  constructor; simpl.
  - apply consecutive_app. exists mid. split; auto.
    replace mid with (mid + ty_size marg - ty_size marg)%nat at 1 by lia.
    apply shift_id_after; auto.
  - apply Forall_app in HS. destruct HS as [HS1 HS2]. inversion HS2; subst.
    apply Forall_app. split; auto. apply Forall_shift; auto. intros; apply set_id_subs.
  - apply Forall_app in HV. destruct HV as [HV1 HV2]. inversion HV2; subst.
    apply Forall_app. split; auto. apply Forall_shift; auto. intros; apply set_id_vals; auto.
  - apply Forall_app in HU. destruct HU as [HU1 HU2]. inversion HU2; subst.
    apply Forall_app. split; auto. apply Forall_shift; auto. intros; apply set_id_unit; auto.
  - rewrite flat_map_app, flat_ptrs_shift. rewrite flat_map_app in HN. simpl in HN.
    apply NoDup_mid in HN. exact HN.
  - intros q Hq. apply HA. rewrite flat_map_app in *. rewrite flat_ptrs_shift in Hq.
    apply in_app_or in Hq. apply in_or_app. simpl.
    destruct Hq; auto. right. apply in_or_app; auto.
  - exact HD.
Qed.

(** C02: joint covariance of the survivors *)
Definition survivors (st st' : state) (ts ts' : list ty) : Prop :=
  Forall2 (fun t t' => In t (s_vars st) /\ In t' (s_vars st') /\ ty_ptr t = ty_ptr t') ts ts'.

Lemma nodup_ptr_inj l t t' : NoDup (flat_map ty_ptrs l) -> In t l -> In t' l ->
  ty_ptr t = ty_ptr t' -> t = t'.
Proof.
  induction l as [|a l IH]; simpl; intros ND H1 H2 E; [tauto|].
  assert (X : forall b, In b l -> ty_ptr a = ty_ptr b -> False).
  { intros b Hb Eb. pose proof (ptr_in_flat l b Hb) as Hin. pose proof (ty_ptr_in_ptrs a) as Ha.
    rewrite Eb in Ha. revert Hin. clear -ND Ha. induction (ty_ptrs a) as [|x xs IHx]; [destruct Ha|].
    simpl in ND. inversion ND as [|? ? N1 N2]; subst. destruct Ha as [->|Ha].
    - intros Hin. apply N1. apply in_or_app; auto.
    - apply IHx; auto. }
  destruct H1 as [<-|H1], H2 as [<-|H2]; auto.
  - destruct (X _ H2 E).
  - symmetry in E. destruct (X _ H1 E).
  - apply IH; auto. clear -ND. induction (ty_ptrs a); simpl in ND; auto. inversion ND; auto.
Qed.

Lemma map_seq_shift f a b n : (forall k, (k < n)%nat -> f (a + k)%nat = (b + k)%nat) ->
  map f (seq a n) = seq b n.
Proof.
  revert a b. induction n as [|n IH]; simpl; intros a b H; auto.
  f_equal.
  - specialize (H 0%nat). rewrite !Nat.add_0_r in H. apply H; lia.
  - apply IH. intros k Hk. specialize (H (S k)). rewrite !Nat.add_succ_r in H. simpl. apply H. lia.
Qed.

Lemma marginalize_survivor st p st' m : state_ok st -> marginalize st p = Ok (st', m) ->
  exists mid, (mid + ty_size m <= s_dim st)%nat /\ s_dim st' = (s_dim st - ty_size m)%nat /\
  (sym (s_dim st) (s_cov st) ->
     forall i j, (i < s_dim st')%nat -> (j < s_dim st')%nat ->
       s_cov st' i j = s_cov st (skip mid (ty_size m) i) (skip mid (ty_size m) j)) /\
  (forall t t', In t (s_vars st) -> In t' (s_vars st') -> ty_ptr t = ty_ptr t' ->
     same_obj t t' /\ exists i i', ty_id t = Some i /\ ty_id t' = Some i' /\
     (i' + ty_size t' <= s_dim st')%nat /\ (i + ty_size t <= s_dim st)%nat /\
     seq i (ty_size t) = map (skip mid (ty_size m)) (seq i' (ty_size t'))).
Proof.
  intros Hok H. pose proof (marginalize_ok _ _ _ _ Hok H) as Hok'.
  destruct (marginalize_inv _ _ _ _ Hok H) as (l1 & marg & l2 & mid & El & Hp & Hid & H1 & H2 & Est & Em).
  assert (Hsz : ty_size m = ty_size marg) by (rewrite Em; apply set_id_size).
  rewrite Hsz. exists mid.
  pose proof (consecutive_le _ _ _ H2). split; [lia|]. split; [rewrite Est; reflexivity|]. split.
  - intros HS i j Hi Hj. rewrite Est in *. simpl in *. apply marg_cov_eq; auto.
  - intros t t' Ht Ht' Eptr.
    assert (Hc : (In t l1 /\ t' = t) \/ (In t l2 /\ t' = shift_id mid (ty_size marg) t)).
    { rewrite Est in Ht'. simpl in Ht'. apply in_app_or in Ht'. destruct Ht' as [Ht'|Ht'].
      - left. assert (t' = t); [|subst; auto].
        apply (nodup_ptr_inj (s_vars st)); auto using ok_nodup.
        rewrite El. apply in_or_app; auto.
      - right. apply in_map_iff in Ht'. destruct Ht' as (t0 & <- & Ht0).
        assert (E : t0 = t); [|subst; auto].
        apply (nodup_ptr_inj (s_vars st)); auto using ok_nodup.
        + rewrite El. apply in_or_app. simpl. auto.
        + rewrite Eptr. unfold shift_id. destruct (ty_id t0); auto.
          destruct (mid <? n)%nat; auto. symmetry. apply set_id_ptr. }
    assert (Hd' : s_dim st' = (s_dim st - ty_size marg)%nat) by (rewrite Est; reflexivity).
    destruct Hc as [[Hin ->]|[Hin ->]].
    + split; [split; auto|]. destruct (consecutive_in _ _ _ _ H1 Hin) as (i & A & B & C).
      exists i, i. repeat split; auto; try lia.
      symmetry. apply map_seq_shift. intros k Hk. unfold skip. nbs.
    + split; [apply shift_id_same|].
      destruct (shift_id_same mid (ty_size marg) t) as (_ & Es & _). rewrite Es.
      destruct (consecutive_in _ _ _ _ H2 Hin) as (i & A & B & C).
      exists i, (i - ty_size marg)%nat. repeat split; auto; try lia.
      * unfold shift_id. rewrite A. destruct (Nat.ltb_spec mid i); [apply set_id_id|].
        rewrite A. f_equal. lia.
      * symmetry. apply map_seq_shift. intros k Hk. unfold skip. nbs; lia.
Qed.

Lemma gmc_eq st order A : get_marginal_covariance st order = Ok A ->
  dr A = length (indices order) /\ dc A = length (indices order) /\ in_cov (s_dim st) order /\
  meq (dr A) (dr A) (dm A) (fun i j => s_cov st (nth i (indices order) 0%nat) (nth j (indices order) 0%nat)).
Proof.
  unfold get_marginal_covariance. intros H. apply obind_ok in H. destruct H as (l & Hl & E).
  injection E as <-. apply resolve_ok in Hl. destruct Hl as [-> Hin]. simpl.
  rewrite osize_indices. repeat split; auto.
  intros i j Hi Hj. apply marginal_block_eq; rewrite osize_indices; auto.
Qed.

Lemma gmc_total st order : in_cov (s_dim st) order -> exists A, get_marginal_covariance st order = Ok A.
Proof.
  intros H. unfold get_marginal_covariance. destruct (resolve_total _ _ H) as (l & ->).
  eexists; reflexivity.
Qed.

Lemma marginalize_projects st p st' m : state_ok st -> sym (s_dim st) (s_cov st) ->
  marginalize st p = Ok (st', m) -> exists f, projects f st st'.
Proof.
  intros Hok HS H. pose proof (marginalize_ok _ _ _ _ Hok H) as Hok'.
  destruct (marginalize_survivor _ _ _ _ Hok H) as (mid & Hmid & Hd & Hcov & Hsurv).
  exists (skip mid (ty_size m)). split; [|split].
  - intros i Hi. unfold skip. nbs; lia.
  - apply Hcov; auto.
  - intros t' Ht'.
    destruct (marginalize_inv _ _ _ _ Hok H) as (l1 & marg & l2 & mid' & El & Hp & Hid & H1 & H2 & Est & Em).
    assert (Ht : exists t, In t (s_vars st) /\ ty_ptr t = ty_ptr t').
    { rewrite Est in Ht'. simpl in Ht'. rewrite El. apply in_app_or in Ht'. destruct Ht' as [Ht'|Ht'].
      - exists t'. split; auto. apply in_or_app; auto.
      - apply in_map_iff in Ht'. destruct Ht' as (t0 & <- & Ht0). exists t0.
        split; [apply in_or_app; simpl; auto|].
        unfold shift_id. destruct (ty_id t0); auto.
        destruct (mid' <? n)%nat; auto. symmetry. apply set_id_ptr. }
    destruct Ht as (t & Ht & Ep). destruct (Hsurv t t' Ht Ht' Ep) as (A & i & i' & B & C & _ & _ & D).
    exists t, i, i'. auto.
Qed.

Lemma projects_refl st : state_ok st -> projects (fun i => i) st st.
Proof.
  intros Hok. split; [auto|split; [auto|]]. intros t Ht.
  destruct (consecutive_in _ _ _ _ (ok_layout _ Hok) Ht) as (i & A & _).
  exists t, i, i. repeat split; auto. rewrite map_id. reflexivity.
Qed.

Lemma ty_ptr_hd t : ty_ptr t = hd 0%nat (ty_ptrs t).
Proof. destruct t; reflexivity. Qed.

Lemma same_obj_trans a b c : same_obj a b -> same_obj b c -> same_obj a c.
Proof. unfold same_obj. intros (A & B & C & D) (E & F & G & H). repeat split; congruence. Qed.

Lemma projects_trans f g a b c : projects f a b -> projects g b c -> projects (fun i => f (g i)) a c.
Proof.
  intros (F1 & F2 & F3) (G1 & G2 & G3). split; [auto|split].
  - intros i j Hi Hj. rewrite G2 by auto. apply F2; auto.
  - intros t3 H3. destruct (G3 _ H3) as (t2 & i2 & i3 & H2 & S23 & I2 & I3 & M23).
    destruct (F3 _ H2) as (t1 & i1 & i2' & H1 & S12 & I1 & I2' & M12).
    rewrite I2 in I2'. injection I2' as <-.
    exists t1, i1, i3. split; auto. split; [eapply same_obj_trans; eauto|]. split; auto. split; auto.
    rewrite M12, M23, map_map. reflexivity.
Qed.

Lemma spsd_projects f st st' : projects f st st' ->
  spsd (s_dim st) (s_cov st) -> spsd (s_dim st') (s_cov st').
Proof. intros (A & B & _) H. apply (quad_pick (s_dim st) _ f (s_cov st)); auto. Qed.

(** joint covariance of survivors, in any order, with repetitions *)
Lemma projects_joint f st st' ts ts' :
  state_ok st -> state_ok st' -> projects f st st' -> survivors st st' ts ts' ->
  exists A B, get_marginal_covariance st (map ref_of ts) = Ok A /\
    get_marginal_covariance st' (map ref_of ts') = Ok B /\
    dr A = dr B /\ meq (dr A) (dr A) (dm A) (dm B).
Proof.
  intros Hok Hok' (F1 & F2 & F3) Hsv.
  assert (Hi : in_cov (s_dim st) (map ref_of ts) /\ in_cov (s_dim st') (map ref_of ts') /\
    indices (map ref_of ts) = map f (indices (map ref_of ts'))).
  { induction Hsv as [|t t' ts ts' (I1 & I2 & I3) _ (IH1 & IH2 & IH3)]; simpl.
    - split; [constructor|split; [constructor|reflexivity]].
    - destruct (F3 t' I2) as (t0 & i & i' & Ht0 & Hso & E1 & E2 & Hm).
      assert (t0 = t).
      { apply (nodup_ptr_inj (s_vars st)); auto using ok_nodup.
        destruct Hso as (Hp & _). rewrite I3, !ty_ptr_hd, Hp. reflexivity. }
      subst t0.
      destruct (consecutive_in _ _ _ _ (ok_layout _ Hok) I1) as (k & K1 & _ & K2).
      destruct (consecutive_in _ _ _ _ (ok_layout _ Hok') I2) as (k' & K1' & _ & K2').
      split; [constructor; eauto|]. split; [constructor; eauto|].
      rewrite E1, E2, Hm, IH3, map_app. reflexivity. }
  destruct Hi as (Hc & Hc' & Hix).
  destruct (gmc_total st _ Hc) as (A & HA). destruct (gmc_total st' _ Hc') as (B & HB).
  exists A, B. split; [auto|]. split; [auto|].
  destruct (gmc_eq _ _ _ HA) as (A1 & A2 & A3 & A4).
  destruct (gmc_eq _ _ _ HB) as (B1 & B2 & B3 & B4).
  assert (Hlen : dr A = dr B) by (rewrite A1, B1, Hix, map_length; reflexivity).
  split; [exact Hlen|]. intros i j Hi Hj.
  rewrite A4 by auto. rewrite B4 by lia. rewrite Hix.
  assert (Hn : forall k, (k < dr A)%nat ->
    nth k (map f (indices (map ref_of ts'))) 0%nat = f (nth k (indices (map ref_of ts')) 0%nat)).
  { intros k Hk. rewrite (nth_indep _ 0%nat (f 0%nat)).
    - apply map_nth.
    - rewrite map_length. rewrite <- B1. lia. }
  rewrite !Hn by auto. symmetry. apply F2; auto; apply nth_indices_lt; auto; lia.
Qed.

Lemma marginalize_exit st p : (forall t, In t (s_vars st) -> ty_ptr t <> p) -> marginalize st p = Exit.
Proof.
  intros H. unfold marginalize. destruct (find_top (s_vars st) p) as [t|] eqn:E; auto.
  apply find_top_some in E. destruct E as [A B]. destruct (H t A B).
Qed.

Lemma marginalize_total st p t : state_ok st -> In t (s_vars st) -> ty_ptr t = p ->
  exists r, marginalize st p = Ok r.
Proof.
  intros Hok Hin Hp. unfold marginalize. destruct (find_top (s_vars st) p) as [t'|] eqn:E.
  - apply find_top_some in E. destruct E as [A B].
    destruct (consecutive_in _ _ _ _ (ok_layout _ Hok) A) as (id & E1 & _ & E2). rewrite E1.
    unfold guard. destruct (Nat.leb_spec (id + ty_size t') (s_dim st)); [|lia]. eexists; reflexivity.
  - destruct (find_top_none _ _ E _ Hin Hp).
Qed.

Lemma spsd_marginalize st p st' m : state_ok st -> marginalize st p = Ok (st', m) ->
  spsd (s_dim st) (s_cov st) -> spsd (s_dim st') (s_cov st').
Proof.
  intros Hok H HP. destruct (marginalize_survivor _ _ _ _ Hok H) as (mid & Hmid & Hd & Hcov & _).
  destruct HP as [HS HP]. apply (quad_pick (s_dim st) _ (skip mid (ty_size m)) (s_cov st)).
  - intros i Hi. unfold skip. nbs; lia.
  - intros i j Hi Hj. apply Hcov; auto.
  - split; auto.
Qed.

(** ** clone *)
Lemma find_var_some vars p t : find_var vars p = Some t ->
  Forall subs_ok vars -> Forall vals_ok vars -> Forall ori_unit vars ->
  exists top, In top vars /\ (t = top \/ check_if_subvariable top p = Some t) /\
    ty_ptr t = p /\ In p (ty_ptrs top).
Proof.
  induction vars as [|a vars IH]; simpl; [discriminate|].
  intros H HS HV HU. inversion HS; inversion HV; inversion HU; subst.
  destruct (Nat.eqb_spec (ty_ptr a) p).
  - injection H as <-. exists a. subst p. repeat split; auto. apply ty_ptr_in_ptrs.
  - destruct (check_if_subvariable a p) as [s|] eqn:E.
    + injection H as <-. destruct (check_sub_inv _ _ _ E) as (A & B & _); auto.
      exists a. auto.
    + destruct IH as (top & A & B); auto. exists top. tauto.
Qed.

Lemma check_sub_none t p : check_if_subvariable t p = None -> ty_ptr t <> p -> ~ In p (ty_ptrs t).
Proof.
  destruct t as [v|v|q|po|i]; simpl; intros H Hp Hin.
  - tauto.
  - tauto.
  - tauto.
  - unfold pose_sub in H. simpl in Hin.
    destruct (Nat.eqb_spec p (qo_ptr (po_q po))); [discriminate|].
    destruct (Nat.eqb_spec p (wo_ptr (po_p po))); [discriminate|]. intuition.
  - unfold pose_sub in H. simpl in Hin.
    destruct (Nat.eqb_spec p (po_ptr (io_pose i))); [discriminate|].
    destruct (Nat.eqb_spec p (qo_ptr (po_q (io_pose i)))); [discriminate|].
    destruct (Nat.eqb_spec p (wo_ptr (po_p (io_pose i)))); [discriminate|].
    destruct (Nat.eqb_spec p (wo_ptr (io_v i))); [discriminate|].
    destruct (Nat.eqb_spec p (wo_ptr (io_bg i))); [discriminate|].
    destruct (Nat.eqb_spec p (wo_ptr (io_ba i))); [discriminate|]. intuition.
Qed.

Lemma find_var_none vars p : find_var vars p = None -> ~ In p (flat_map ty_ptrs vars).
Proof.
  induction vars as [|a vars IH]; simpl; auto. intros H Hin.
  destruct (Nat.eqb_spec (ty_ptr a) p); [discriminate|].
  destruct (check_if_subvariable a p) eqn:E; [discriminate|].
  apply in_app_or in Hin. destruct Hin as [Hin|Hin].
  - apply (check_sub_none a p); auto.
  - apply IH; auto.
Qed.

Lemma check_sub_in top p t : check_if_subvariable top p = Some t -> In t (sub_objs top).
Proof.
  destruct top as [v|v|q|po|i]; simpl; try discriminate; unfold pose_sub; intros H.
  - destruct (Nat.eqb p (qo_ptr (po_q po))); [injection H as <-; auto|].
    destruct (Nat.eqb p (wo_ptr (po_p po))); [injection H as <-; auto|discriminate].
  - repeat match type of H with context[if ?b then _ else _] => destruct b end;
      try (injection H as <-; auto 10); try discriminate.
Qed.

(** the cloned object: well-formed and located inside the covariance *)
Lemma find_var_ok st p t : state_ok st -> find_var (s_vars st) p = Some t ->
  in_state st t /\ ty_ptr t = p /\ vals_ok t /\ ori_unit t /\
  exists loc, ty_id t = Some loc /\ (loc + ty_size t <= s_dim st)%nat.
Proof.
  intros Hok H. destruct (find_var_some _ _ _ H) as (top & Hin & Hc & Hp & _); try apply Hok.
  pose proof (proj1 (Forall_forall _ _) (ok_subs _ Hok) _ Hin) as HS.
  pose proof (proj1 (Forall_forall _ _) (ok_vals _ Hok) _ Hin) as HV.
  pose proof (proj1 (Forall_forall _ _) (ok_unit _ Hok) _ Hin) as HU.
  destruct (consecutive_in _ _ _ _ (ok_layout _ Hok) Hin) as (id & Hid & _ & Hle).
  destruct Hc as [->|Hc].
  - split; [exists top; simpl; auto|]. eauto 10.
  - destruct (check_sub_inv _ _ _ Hc HS HV HU) as (A & B & C & D & E & F).
    split; [exists top; split; auto; right; eapply check_sub_in; eauto|].
    split; auto. split; auto. split; auto.
    destruct (F _ Hid) as (k & K1 & K2 & K3). exists k. split; auto. lia.
Qed.

Lemma clone_inv st p st' c : state_ok st -> clone st p = Ok (st', c) ->
  exists t loc c0, find_var (s_vars st) p = Some t /\ ty_id t = Some loc /\
    (loc + ty_size t <= s_dim st)%nat /\ ty_clone (s_next st) t = Ok c0 /\
    c = set_local_id c0 (Some (s_dim st)) /\
    st' = set_next (set_vars_cov st (s_vars st ++ [c]) (s_dim st + ty_size t)
                      (clone_cov (s_cov st) (s_dim st) loc (ty_size t))) (s_next st + ty_alloc t).
Proof.
  intros Hok. unfold clone. destruct (find_var (s_vars st) p) as [t|] eqn:Ef; [|discriminate].
  destruct (ty_id t) as [loc|] eqn:Eid; [|discriminate].
  unfold guard. destruct (Nat.leb_spec (loc + ty_size t) (s_dim st)); [|discriminate].
  intros E. apply obind_ok in E. destruct E as (c0 & Hc & E). injection E as <- <-.
  exists t, loc, c0. auto 10.
Qed.

Lemma clone_total st p : state_ok st -> In p (flat_map ty_ptrs (s_vars st)) ->
  exists r, clone st p = Ok r.
Proof.
  intros Hok Hin. unfold clone. destruct (find_var (s_vars st) p) as [t|] eqn:Ef.
  - destruct (find_var_ok _ _ _ Hok Ef) as (_ & _ & HV & _ & loc & E & Hle). rewrite E.
    unfold guard. destruct (Nat.leb_spec (loc + ty_size t) (s_dim st)); [|lia].
    destruct (ty_clone_total (s_next st) t HV) as (c & ->). eexists; reflexivity.
  - destruct (find_var_none _ _ Ef Hin).
Qed.

Lemma clone_exit st p : state_ok st -> ~ In p (flat_map ty_ptrs (s_vars st)) -> clone st p = Exit.
Proof.
  intros Hok Hn. unfold clone. destruct (find_var (s_vars st) p) as [t|] eqn:Ef; auto.
  exfalso. destruct (find_var_some _ _ _ Ef) as (top & A & _ & _ & B); try apply Hok.
  apply Hn. apply in_flat_map. exists top; auto.
Qed.

(** appending a fresh, well-formed variable at the end keeps the invariant *)
Lemma append_ok st t n C nx :
  state_ok st -> subs_ok t -> vals_ok t -> ori_unit t ->
  ty_id t = Some (s_dim st) -> n = (s_dim st + ty_size t)%nat -> NoDup (ty_ptrs t) ->
  (forall q, In q (ty_ptrs t) -> ~ In q (flat_map ty_ptrs (s_vars st))) ->
  (forall q, In q (ty_ptrs t) -> (q < nx)%nat) -> (s_next st <= nx)%nat ->
  state_ok (set_next (set_vars_cov st (s_vars st ++ [t]) n C) nx).
Proof.
  intros [HL HS HV HU HN HA HD] S1 V1 U1 I1 -> N1 Hd Hlt Hle. constructor; simpl.
  - apply consecutive_app. exists (s_dim st). split; auto. simpl. auto.
  - apply Forall_app; auto.
  - apply Forall_app; auto.
  - apply Forall_app; auto.
  - rewrite flat_map_app. simpl. rewrite app_nil_r.
    clear -HN N1 Hd. induction (flat_map ty_ptrs (s_vars st)) as [|x xs IH]; simpl; auto.
    inversion HN; subst. constructor.
    + intros Hin. apply in_app_or in Hin. destruct Hin as [Hin|Hin]; auto.
      apply (Hd x Hin). simpl; auto.
    + apply IH; auto. intros q Hq Hin. apply (Hd q Hq). simpl; auto.
  - intros q Hq. rewrite flat_map_app in Hq. apply in_app_or in Hq. simpl in Hq.
    rewrite app_nil_r in Hq. destruct Hq as [Hq|Hq]; auto. apply HA in Hq. lia.
  - lia.
Qed.

Lemma clone_ok st p st' c : state_ok st -> clone st p = Ok (st', c) -> state_ok st'.
Proof.
  intros Hok H. destruct (clone_inv _ _ _ _ Hok H) as (t & loc & c0 & Ef & Eid & Hle & Hc & -> & ->).
  destruct (find_var_ok _ _ _ Hok Ef) as (_ & _ & HV & HU & _).
  destruct (ty_clone_inv _ _ _ Hc) as (Z1 & Z2 & Z3 & Z4 & Z5 & Z6 & Z7 & _).
  apply append_ok; auto.
  - apply set_id_subs.
  - apply set_id_vals; auto.
  - apply set_id_unit; auto.
  - apply set_id_id.
  - rewrite set_id_size. lia.
  - rewrite set_id_ptrs, Z3. apply seq_NoDup.
  - rewrite set_id_ptrs, Z3. intros q Hq Hin. apply in_seq in Hq. apply (ok_alloc _ Hok) in Hin. lia.
  - rewrite set_id_ptrs, Z3. intros q Hq. apply in_seq in Hq. lia.
  - lia.
Qed.

Lemma nth_csrc n loc sz i : (i < n + sz)%nat -> nth i (seq 0 n ++ seq loc sz) 0%nat = csrc n loc i.
Proof.
  intros Hi. unfold csrc. nbs.
  - rewrite app_nth1 by (rewrite seq_length; auto). rewrite seq_nth by auto. reflexivity.
  - rewrite app_nth2 by (rewrite seq_length; auto). rewrite seq_length, seq_nth by lia. reflexivity.
Qed.

Lemma congr_selm n idx P i j : (nth i idx 0 < n)%nat -> (nth j idx 0 < n)%nat ->
  congr n (selm idx) P i j = P (nth i idx 0%nat) (nth j idx 0%nat).
Proof. intros Hi Hj. apply (congr_pick n (fun a => nth a idx 0%nat) P i j Hi Hj). Qed.

Lemma clone_cov_selm n C loc sz : (loc + sz <= n)%nat ->
  meq (n + sz) (n + sz) (clone_cov C n loc sz) (congr n (selm (seq 0 n ++ seq loc sz)) C).
Proof.
  intros H i j Hi Hj. rewrite clone_cov_eq by auto.
  assert (X : forall k, (k < n + sz)%nat -> (csrc n loc k < n)%nat) by (intros k Hk; unfold csrc; nbs; lia).
  rewrite congr_selm; rewrite ?(nth_csrc n loc sz) by auto; auto.
Qed.

Lemma spsd_clone st p st' c : state_ok st -> clone st p = Ok (st', c) ->
  spsd (s_dim st) (s_cov st) -> spsd (s_dim st') (s_cov st').
Proof.
  intros Hok H HP. destruct (clone_inv _ _ _ _ Hok H) as (t & loc & c0 & Ef & Eid & Hle & Hc & -> & ->).
  simpl. apply (quad_pick (s_dim st) _ (csrc (s_dim st) loc) (s_cov st)); auto.
  - intros i Hi. unfold csrc. nbs; lia.
  - intros i j Hi Hj. apply clone_cov_eq; auto.
Qed.
