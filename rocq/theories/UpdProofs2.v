(** The updaters: totality, life cycle of the features, the gate. *)
From Coq Require Import Reals List Arith Lia Lra ZArith Bool Permutation.
From Verif Require Import RBool Outcome Lin PdInv GeoModel TypesModel TypesProofs GivensModel GivensSpec GivensProofs StateModel StateSpec StateLin
  StateEkf StateOps StateOps2 StateOps3 ReachModel ReachSpec StateReach StateFrame StateThms EquivProofs DbModel DbSpec DbProofs DbThms UpdModel UpdSpec UpdProofs.
Import ListNotations.
Open Scope R_scope.

(** ** Order entries *)
Lemma live_loc st a b : state_ok st -> live_ref st a -> live_ref st b -> fst a = fst b -> a = b.
Proof.
  intros Hok (t & It & Pt & Rt) (u & Iu & Pu & Ru) E.
  assert (t = u) by (apply (nodup_ptr_inj (s_vars st)); [apply Hok|auto|auto|congruence]). subst u.
  destruct a, b; simpl in *; congruence.
Qed.
Lemma live_id st e : state_ok st -> live_ref st e -> exists i, fst (snd e) = Some i /\ (i + psz e <= s_dim st)%nat.
Proof.
  intros Hok (t & It & Pt & Rt). destruct (consecutive_in 0 _ _ t (ok_layout _ Hok) It) as (id & A & B & C).
  exists id. unfold psz. rewrite <- Rt. unfold ref_of. simpl. auto.
Qed.
Lemma live_in_cov st o : state_ok st -> Forall (live_ref st) o -> in_cov (s_dim st) (map snd o).
Proof.
  intros Hok F. unfold in_cov. rewrite Forall_map. eapply Forall_impl; [|exact F]. intros e He.
  destruct (live_id st e Hok He) as (i & A & B). exists i. split; auto.
Qed.
Lemma live_has_id st e : state_ok st -> live_ref st e -> has_id e.
Proof. intros Hok He. destruct (live_id st e Hok He) as (i & A & _). exists i; auto. Qed.
Lemma live_ref_ptr st e : state_ok st -> live_ref st e -> ref_ptr st (fst e) = snd e.
Proof.
  intros Hok (t & It & Pt & Rt). unfold ref_ptr. rewrite <- Pt, (find_top_in_nodup (s_vars st) t); auto. apply Hok.
Qed.

Definition sumN (f : nat -> nat) (l : list nat) : nat := fold_right (fun x a => (f x + a)%nat) 0%nat l.
Lemma sumN_app f a b : sumN f (a ++ b) = (sumN f a + sumN f b)%nat.
Proof. induction a; simpl; lia. Qed.
Lemma sumN_incl f l : forall L, NoDup l -> incl l L -> (sumN f l <= sumN f L)%nat.
Proof.
  induction l as [|x l IH]; simpl; intros L N I; [lia|]. inversion N; subst.
  destruct (in_split x L) as (L1 & L2 & ->); [apply I; simpl; auto|].
  rewrite sumN_app. simpl. specialize (IH (L1 ++ L2) H2). rewrite sumN_app in IH.
  assert (incl l (L1 ++ L2)).
  { intros z Hz. assert (Hz' := I z (or_intror Hz)). apply in_app_or in Hz'. apply in_or_app. simpl in Hz'.
    destruct Hz' as [?|[<-|?]]; auto. contradiction. }
  specialize (IH H). lia.
Qed.
Lemma dim_sum st : state_ok st -> sumN (fun p => snd (ref_ptr st p)) (map ty_ptr (s_vars st)) = s_dim st.
Proof.
  intros Hok.
  assert (G : forall l off n, incl l (s_vars st) -> consecutive off l n ->
     (off + sumN (fun p => snd (ref_ptr st p)) (map ty_ptr l) = n)%nat).
  { induction l as [|t l IH]; simpl; intros off n I C; [lia|]. destruct C as [_ C].
    unfold ref_ptr at 1. rewrite (find_top_in_nodup (s_vars st) t); [|apply Hok|apply I; simpl; auto].
    simpl. rewrite <- (IH _ _ (fun z Hz => I z (or_intror Hz)) C). lia. }
  apply (G _ 0%nat _ (incl_refl _) (ok_layout _ Hok)).
Qed.
Lemma tot_sum st o : state_ok st -> Forall (live_ref st) o -> tot o = sumN (fun p => snd (ref_ptr st p)) (map fst o).
Proof.
  intros Hok. induction 1 as [|e o He _ IH]; simpl; auto. rewrite (live_ref_ptr st e) by auto. rewrite IH. reflexivity.
Qed.
Lemma cap_all st o : state_ok st -> NoDup (map fst o) -> Forall (live_ref st) o -> (tot o <= s_dim st)%nat.
Proof.
  intros Hok N F. rewrite (tot_sum st) by auto. rewrite <- (dim_sum st) by auto. apply sumN_incl; auto.
  intros p Hp. apply in_map_iff in Hp. destruct Hp as (e & <- & Ie). rewrite Forall_forall in F.
  destruct (F e Ie) as (t & It & <- & _). apply in_map; auto.
Qed.
Lemma slam_sum st : forall l, fold_right (fun e a => (snd (ref_ptr st (fst (snd e))) + a)%nat) 0%nat l
  = sumN (fun p => snd (ref_ptr st p)) (map (fun e : nat * (nat * bool) => fst (snd e)) l).
Proof. induction l; simpl; auto. Qed.
Lemma cap_nolm st o : state_ok st -> maps_ok st -> NoDup (map fst o) ->
  Forall (fun e => live_ref st e /\ ~ In (fst e) (slam_ptrs st)) o -> (tot o <= hx_size st)%nat.
Proof.
  intros Hok HM N F. assert (F1 : Forall (live_ref st) o) by (eapply Forall_impl; [|exact F]; intros e []; auto).
  rewrite (tot_sum st) by auto. unfold hx_size. rewrite <- (dim_sum st) by auto. rewrite slam_sum. fold (slam_ptrs st).
  enough (sumN (fun p => snd (ref_ptr st p)) (map fst o ++ slam_ptrs st) <=
          sumN (fun p => snd (ref_ptr st p)) (map ty_ptr (s_vars st)))%nat by (rewrite sumN_app in *; lia).
  apply sumN_incl.
  - apply NoDup_app_intro; auto; [exact (mp_sptrs _ HM)|]. intros p Hp. apply in_map_iff in Hp. destruct Hp as (e & <- & Ie).
    rewrite Forall_forall in F. intros C. exact (proj2 (F e Ie) C).
  - intros p Hp. apply in_app_or in Hp. destruct Hp as [Hp|Hp].
    + apply in_map_iff in Hp. destruct Hp as (e & <- & Ie). rewrite Forall_forall in F1.
      destruct (F1 e Ie) as (t & It & <- & _). apply in_map; auto.
    + apply in_map_iff in Hp. destruct Hp as ((i & q & b) & <- & Ie).
      destruct (mp_slam _ HM i q b Ie) as (_ & v & Iv & Ev). simpl. rewrite <- Ev. change (vo_ptr v) with (ty_ptr (TVec v)).
      apply in_map; auto.
Qed.

(** ** The gate *)
Lemma chi2_ok st Hx res o sig : state_ok st -> spsd (s_dim st) (s_cov st) -> Forall (live_ref st) o -> 0 < sig ->
  dc Hx = tot o -> dr Hx = dn res ->
  exists d, chi2_of st Hx res (map snd o) sig = Ok d /\ gate_dist st (mkSys Hx res o sig) d.
Proof.
  intros Hok HP F Hs Dc Dr. assert (Hc := live_in_cov st o Hok F).
  destruct (resolve_total _ _ Hc) as (l & El). destruct (resolve_ok _ _ _ El) as [Ep _].
  unfold chi2_of, get_marginal_covariance. rewrite El. cbn [obind dr].
  assert (Eo : osize l = tot o).
  { rewrite osize_indices, <- Ep. apply indices_len. eapply Forall_impl; [|exact F]. intros e. apply live_has_id; auto. }
  assert (Eg : ((dc Hx =? osize l) && (dr Hx =? dn res))%nat%bool = true)
    by (rewrite andb_true_iff, !Nat.eqb_eq; lia).
  rewrite Eg. cbn [guard]. eexists. split; [reflexivity|].
  unfold gate_dist, mahalanobis. cbn [y_H y_res y_order y_sig].
  set (m := dn res). set (n := s_dim st). cbn [dm].
  set (Sf := madd (congr n (widen (indices (map snd o)) (dm Hx)) (s_cov st)) (mscal sig mid)).
  set (Ss := innov m (dc Hx) (dm Hx) (marginal_block (s_cov st) l) (mscal sig mid)).
  assert (E : meq m m Ss Sf).
  { intros i j Hi Hj. unfold Ss, Sf, innov, madd. f_equal. rewrite Dc, <- Eo. rewrite (small_innov n) by (rewrite <- Ep; auto).
    rewrite <- Ep. reflexivity. }
  destruct (innov_spd n m (widen (indices (map snd o)) (dm Hx)) (s_cov st) (mscal sig mid) HP (sym_scal_id m sig) (pd_scal_id m sig Hs)) as [S1 S2].
  fold Sf in S1, S2.
  exists (mvec m (pdinv m Ss) (dv res)). split; auto.
  intros i Hi. transitivity (mvec m Sf (mvec m (pdinv m Sf) (dv res)) i).
  - unfold mvec at 1 3. apply sumn_ext. intros k Hk. f_equal. unfold mvec. apply sumn_ext. intros j Hj. f_equal.
    apply pdinv_ext; auto.
  - rewrite <- mvec_mmul. transitivity (mvec m mid (dv res) i); [|apply mid_mvec; auto].
    unfold mvec. apply sumn_ext. intros k Hk. f_equal. apply pdinv_r; auto.
Qed.

(** ** Step 1 and 3 *)
Definition feat_live (times : list R) (f : feature) : Prop := feat_ok f /\ only_times times f.

Lemma clean_old_ok times f : feat_ok f -> exists f', clean_old_measurements times f = Ok f' /\ feat_live times f' /\ same_info f' f /\
  forall cam, ftrack f' cam = filter (fun o => tfind times (otime o)) (ftrack f cam).
Proof.
  intros OK. destruct (clean_feature_spec (fun t => negb (tfind times t)) f OK) as (f' & E & O & S' & T).
  exists f'. split; [exact E|]. split; [split; auto|].
  - intros c o Ho. rewrite T in Ho. apply filter_In in Ho. destruct Ho as [_ Ho]. rewrite negb_involutive in Ho.
    apply tfind_in; auto.
  - split; auto. intros cam. rewrite T. apply filter_ext. intros o. apply negb_involutive.
Qed.

(** result of filtering steps: per feature, and untouched elsewhere *)
Definition steps (K : feature -> feature -> bool -> Prop) (ids : list nat) (d : db) (ids' : list nat) (d' : db) : Prop :=
  NoDup ids' /\ incl ids' ids /\ map fst d' = map fst d /\
  (forall id, ~ In id ids -> alook d' id = alook d id) /\
  (forall id, In id ids -> exists f f' b, alook d id = Some f /\ alook d' id = Some f' /\ K f f' b /\ (b = true <-> In id ids')).

Lemma aset_keys_same {A} (m : amap A) k v : (exists w, alook m k = Some w) -> map fst (aset m k v) = map fst m.
Proof.
  induction m as [|[k0 w0] m IH]; cbn [aset alook map fst]; [intros [w Hw]; discriminate|].
  destruct (Nat.eqb_spec k k0) as [->|N]; cbn [map fst]; [reflexivity|]. intros E. rewrite IH; auto.
Qed.

Lemma steps_cons (K : feature -> feature -> bool -> Prop) id ids d f f' b ids' d' : ~ In id ids -> alook d id = Some f -> K f f' b ->
  steps K ids (aset d id f') ids' d' -> steps K (id :: ids) d (if b then id :: ids' else ids') d'.
Proof.
  intros Ni E Kf (N & I & M & U & P).
  assert (Ei : alook d' id = Some f') by (rewrite U by auto; rewrite alook_aset, Nat.eqb_refl; reflexivity).
  assert (Ni' : ~ In id ids') by (intros C; apply Ni, I, C).
  split; [destruct b; [constructor|]; auto|]. split.
  { destruct b; intros z Hz; simpl in *; [destruct Hz; auto|right; auto]. }
  split; [rewrite M; apply aset_keys_same; eauto|]. split.
  - intros k Hk. simpl in Hk. rewrite U by tauto. rewrite alook_aset. destruct (Nat.eqb_spec k id); [subst; tauto|reflexivity].
  - intros k [<-|Hk].
    + exists f, f', b. split; auto. split; auto. split; auto. destruct b; simpl; split; intros; auto; try discriminate; contradiction.
    + destruct (P k Hk) as (g & g' & b' & A & B & C & D). assert (k <> id) by (intros ->; contradiction).
      rewrite alook_aset in A. destruct (Nat.eqb_spec k id); [contradiction|].
      exists g, g', b'. split; auto. split; auto. split; auto. rewrite D. destruct b; simpl; split; auto. intros [?|?]; auto. congruence.
Qed.
Lemma steps_nil K d : steps K [] d [] d.
Proof. repeat split; auto. constructor. intros z []. intros id []. Qed.

Definition cleaned_by (times : list R) (f f' : feature) (b : bool) : Prop :=
  exists f1, clean_old_measurements times f = Ok f1 /\ feat_live times f1 /\ same_info f1 f /\
    b = negb (count_meas f1 <? 2)%nat /\ f' = if b then f1 else set_del f1 true.
Definition tri_by (tri : feature -> (Z * R * v3 * v3) * bool) (f f' : feature) (b : bool) : Prop :=
  b = snd (tri f) /\ f' = if b then set_pos f (fst (tri f)) else set_del (set_pos f (fst (tri f))) true.

Lemma clean_step_ok times ids : forall d, NoDup ids -> (forall id, In id ids -> exists f, alook d id = Some f /\ feat_ok f) ->
  exists ids' d', clean_step times ids d = Ok (ids', d') /\ steps (cleaned_by times) ids d ids' d'.
Proof.
  induction ids as [|id ids IH]; intros d N F.
  - exists [], d. split; auto. apply steps_nil.
  - inversion N; subst. simpl. destruct (F id) as (f & E & O); [simpl; auto|]. rewrite E.
    destruct (clean_old_ok times f O) as (f1 & E1 & L1 & S1 & _). rewrite E1. simpl.
    assert (F' : forall g, forall k, In k ids -> exists f, alook (aset d id g) k = Some f /\ feat_ok f).
    { intros g k Hk. rewrite alook_aset. destruct (Nat.eqb_spec k id); [subst; contradiction|]. apply F; simpl; auto. }
    destruct (count_meas f1 <? 2)%nat eqn:C.
    + destruct (IH (aset d id (set_del f1 true)) H2 (F' _)) as (ids' & d' & E' & St).
      exists ids', d'. split; auto. apply (steps_cons _ id ids d f (set_del f1 true) false); auto.
      exists f1. rewrite C. auto.
    + destruct (IH (aset d id f1) H2 (F' _)) as (ids' & d' & E' & St). rewrite E'.
      exists (id :: ids'), d'. split; auto. apply (steps_cons _ id ids d f f1 true); auto.
      exists f1. rewrite C. auto.
Qed.
Lemma tri_step_ok tri ids : forall d, NoDup ids -> (forall id, In id ids -> exists f, alook d id = Some f) ->
  exists ids' d', tri_step tri ids d = Ok (ids', d') /\ steps (tri_by tri) ids d ids' d'.
Proof.
  induction ids as [|id ids IH]; intros d N F.
  - exists [], d. split; auto. apply steps_nil.
  - inversion N; subst. simpl. destruct (F id) as (f & E); [simpl; auto|]. rewrite E.
    assert (F' : forall g, forall k, In k ids -> exists f, alook (aset d id g) k = Some f).
    { intros g k Hk. rewrite alook_aset. destruct (Nat.eqb_spec k id); [eauto|]. apply F; simpl; auto. }
    destruct (snd (tri f)) eqn:C.
    + destruct (IH (aset d id (set_pos f (fst (tri f)))) H2 (F' _)) as (ids' & d' & E' & St). rewrite E'.
      exists (id :: ids'), d'. split; auto. apply (steps_cons _ id ids d f (set_pos f (fst (tri f))) true); auto.
      split; auto.
    + destruct (IH (aset d id (set_del (set_pos f (fst (tri f))) true)) H2 (F' _)) as (ids' & d' & E' & St).
      exists ids', d'. split; auto. apply (steps_cons _ id ids d f (set_del (set_pos f (fst (tri f))) true) false); auto.
      split; auto.
Qed.
