(** The state invariant holds in every reachable state and respected calls never terminate. *)
From Coq Require Import Reals List Arith Lia Lra Bool ZArith.
From Verif Require Import RBool Outcome Lin GeoModel GeoSpec GivensModel GivensSpec TypesModel StateModel StateSpec PdInv
  StateLin StateEkf TypesProofs GeoProofs GeoMore StateOps StateOps2 StateOps3 StateOps4 StateOps5 StateInit
  ReachModel ReachSpec.
Import ListNotations.
Open Scope R_scope.

Definition krel (t t' : ty) : Prop :=
  ty_ptrs t' = ty_ptrs t /\ ty_id t' = ty_id t /\ ty_size t' = ty_size t /\ same_class t t'.

Lemma krel_refl t : krel t t.
Proof. unfold krel. repeat split; auto. destruct t; simpl; auto. Qed.
Lemma same_class_trans a b c : same_class a b -> same_class b c -> same_class a c.
Proof. destruct a, b, c; simpl; tauto. Qed.
Lemma krel_trans a b c : krel a b -> krel b c -> krel a c.
Proof.
  intros (A1 & A2 & A3 & A4) (B1 & B2 & B3 & B4). unfold krel.
  rewrite B1, B2, B3. repeat split; auto. eapply same_class_trans; eauto.
Qed.
Lemma Forall2_refl {A} (Q : A -> A -> Prop) l : (forall x, Q x x) -> Forall2 Q l l.
Proof. intros H. induction l; constructor; auto. Qed.
Lemma Forall2_trans {A} (Q : A -> A -> Prop) : (forall x y z, Q x y -> Q y z -> Q x z) ->
  forall a b c, Forall2 Q a b -> Forall2 Q b c -> Forall2 Q a c.
Proof.
  intros T a b c H. revert c. induction H; intros c H'; inversion H'; subst; constructor; eauto.
Qed.
Lemma krel_ptr t t' : krel t t' -> ty_ptr t' = ty_ptr t.
Proof. intros (A & _). rewrite !ty_ptr_hd, A. reflexivity. Qed.
Lemma Forall2_in_l {A B} (Q : A -> B -> Prop) l l' x : Forall2 Q l l' -> In x l -> exists y, In y l' /\ Q x y.
Proof.
  induction 1 as [|a b l l' H _ IH]; simpl; [tauto|]. intros [->|Hx].
  - exists b. auto.
  - destruct (IH Hx) as (y & A1 & A2). exists y. auto.
Qed.
Lemma Forall2_in_r {A B} (Q : A -> B -> Prop) l l' y : Forall2 Q l l' -> In y l' -> exists x, In x l /\ Q x y.
Proof.
  induction 1 as [|a b l l' H _ IH]; simpl; [tauto|]. intros [->|Hy].
  - exists a. auto.
  - destruct (IH Hy) as (x & A1 & A2). exists x. auto.
Qed.

Lemma krel_pose q t' : krel (TPose q) t' -> exists q', t' = TPose q' /\ po_ptr q' = po_ptr q.
Proof.
  intros H. pose proof (krel_ptr _ _ H) as E. destruct H as (_ & _ & _ & K). destruct t'; simpl in *; try tauto. eauto.
Qed.
Lemma krel_vec q t' : krel (TVec q) t' -> exists q', t' = TVec q' /\ vo_ptr q' = vo_ptr q.
Proof.
  intros H. pose proof (krel_ptr _ _ H) as E. destruct H as (_ & _ & _ & K). destruct t'; simpl in *; try tauto. eauto.
Qed.

(** variables kept (possibly with new values), more appended *)
Lemma maps_ext st st' m rest :
  s_opts st' = s_opts st -> s_imu st' = s_imu st -> s_dt st' = s_dt st -> s_cintr st' = s_cintr st ->
  map fst (s_cams st') = map fst (s_cams st) -> s_clones st' = s_clones st -> s_slam st' = s_slam st ->
  (s_next st <= s_next st')%nat -> Forall2 krel (s_vars st) m -> s_vars st' = m ++ rest ->
  maps_ok st -> maps_ok st'.
Proof.
  intros E1 E2 E3 E4 E5 E6 E7 E8 HF E9 [M1 M2 M3 M4 M5 M6 M7 M8 M9 M10 M11 M12].
  constructor; rewrite ?E1, ?E2, ?E3, ?E4, ?E5, ?E6, ?E7; auto.
  - lia.
  - destruct M6 as (l & r & El & HB). rewrite El in HF. apply Forall2_app_inv_l in HF.
    destruct HF as (a & b & Ha & Hb & ->). exists a, (b ++ rest). split; [rewrite E9, app_assoc; auto|].
    eapply Forall2_trans; [|exact HB|exact Ha]. apply krel_trans.
  - intros t p H. destruct (M9 t p H) as (B & q & Hq & Hp). split; auto.
    destruct (Forall2_in_l _ _ _ _ HF Hq) as (t' & Ht' & K). destruct (krel_pose _ _ K) as (q' & -> & Eq).
    exists q'. split; [rewrite E9; apply in_or_app; auto|congruence].
  - intros t p b H. destruct (M12 t p b H) as (B & q & Hq & Hp). split; auto.
    destruct (Forall2_in_l _ _ _ _ HF Hq) as (t' & Ht' & K). destruct (krel_vec _ _ K) as (q' & -> & Eq).
    exists q'. split; [rewrite E9; apply in_or_app; auto|congruence].
Qed.

Lemma upd_krel dx vars vars' : Forall2 (upd_rel dx) vars vars' -> Forall2 krel vars vars'.
Proof.
  induction 1 as [|t t' a b (id & Hid & Hu) _ IH]; constructor; auto.
  destruct (ty_update_inv _ _ _ Hu) as (_ & W1 & W2 & W3 & W4 & _).
  pose proof (update_kind _ _ _ Hu). unfold krel. auto.
Qed.

(** constructor pointers *)
Lemma base_ptrs o p : In p (flat_map ty_ptrs (fst (build_vars o))) -> (p < base_top o)%nat.
Proof. apply (b_lt _ _ _ (build_vars_inv o)). Qed.

Lemma base_lt st l : Forall2 (fun t0 t => ty_ptrs t = ty_ptrs t0 /\ ty_id t = ty_id t0 /\ ty_size t = ty_size t0 /\ same_class t0 t)
        (fst (build_vars (s_opts st))) l -> forall t, In t l -> (ty_ptr t < base_top (s_opts st))%nat.
Proof.
  intros HF t Ht. destruct (Forall2_in_r _ _ _ _ HF Ht) as (t0 & H0 & K).
  rewrite (krel_ptr _ _ K). apply base_ptrs. apply ptr_in_flat; auto.
Qed.

(** removing a variable that no map refers to *)
Lemma marg_maps st p st' m : state_ok st -> maps_ok st -> marginalize st p = Ok (st', m) ->
  (base_top (s_opts st) <= p)%nat -> ~ In p (map snd (s_clones st)) ->
  ~ In p (map (fun e => fst (snd e)) (s_slam st)) -> maps_ok st'.
Proof.
  intros Hok [M1 M2 M3 M4 M5 M6 M7 M8 M9 M10 M11 M12] E Hp HC HS.
  destruct (marginalize_frame _ _ _ _ Hok E) as (F1 & F2 & F3 & F4 & F5 & F6 & F7 & F8 & F9).
  destruct (marginalize_vars _ _ _ _ Hok E) as [V1 _].
  destruct (marginalize_inv _ _ _ _ Hok E) as (l1 & marg & l2 & mid & Ev & Ep & Ei & C1 & C2 & Est & _).
  constructor; rewrite ?F1, ?F3, ?F4, ?F5, ?F6, ?F7, ?F8, ?F9; auto.
  - destruct M6 as (l & r & El & HB).
    assert (X : exists r1, l1 = l ++ r1).
    { rewrite Ev in El. pose proof (base_lt st l HB) as HL. clear -El HL Ep Hp. revert l El HL.
      induction l1 as [|a l1 IH]; intros [|b l] El HL; simpl in *.
      - exists []. auto.
      - injection El as <- El. exfalso. specialize (HL marg (or_introl eq_refl)). lia.
      - exists (a :: l1). auto.
      - injection El as <- El. destruct (IH l El) as (r1 & ->); auto. exists r1. auto. }
    destruct X as (r1 & ->). exists l, (r1 ++ map (shift_id mid (ty_size marg)) l2).
    split; [rewrite Est; simpl; rewrite app_assoc; auto|auto].
  - intros t q H. destruct (M9 t q H) as (B & w & Hw & Hq). split; auto.
    destruct (V1 _ Hw) as (t' & Ht' & (K1 & _) & K2).
    { simpl. intros Ex. apply HC. rewrite <- Ex, Hq. apply (in_map snd) in H. exact H. }
    destruct t'; simpl in K2; try tauto. exists p0. split; auto.
    unfold ty_ptrs in K1. simpl in K1. injection K1 as K1 _. congruence.
  - intros t q b H. destruct (M12 t q b H) as (B & w & Hw & Hq). split; auto.
    destruct (V1 _ Hw) as (t' & Ht' & (K1 & _) & K2).
    { simpl. intros Ex. apply HS. rewrite <- Ex, Hq. apply (in_map (fun e => fst (snd e))) in H. exact H. }
    destruct t'; simpl in K2; try tauto. exists v. split; auto.
    simpl in K1. injection K1 as K1. congruence.
Qed.

Lemma maps_clones_sub st c : maps_ok st -> NoDup (map fst c) -> NoDup (map snd c) ->
  (forall e, In e c -> In e (s_clones st)) -> maps_ok (set_clones st c).
Proof.
  intros [M1 M2 M3 M4 M5 M6 M7 M8 M9 M10 M11 M12] N1 N2 HS. constructor; simpl; auto; intros; eapply M9; eauto.
Qed.
Lemma maps_slam_sub st c : maps_ok st -> NoDup (map fst c) -> NoDup (map (fun e => fst (snd e)) c) ->
  (forall i p b, In (i, (p, b)) c -> exists b', In (i, (p, b')) (s_slam st)) -> maps_ok (set_slam st c).
Proof.
  intros [M1 M2 M3 M4 M5 M6 M7 M8 M9 M10 M11 M12] N1 N2 HS. constructor; simpl; auto.
  intros i p b H. destruct (HS i p b H) as (b' & H'). eauto.
Qed.

Lemma NoDup_map_filter {A B} (f : A -> B) g l : NoDup (map f l) -> NoDup (map f (filter g l)).
Proof.
  induction l as [|a l IH]; simpl; auto. intros H. inversion H; subst. destruct (g a); simpl; auto.
  constructor; auto. intros Hin. apply in_map_iff in Hin. destruct Hin as (x & Ex & Hx). apply filter_In in Hx.
  apply H2. rewrite <- Ex. apply in_map. tauto.
Qed.

Lemma marginalize_set_clones st p st1 m c : marginalize st p = Ok (st1, m) ->
  marginalize (set_clones st c) p = Ok (set_clones st1 c, m).
Proof.
  unfold marginalize. simpl. destruct (find_top (s_vars st) p); [|discriminate].
  destruct (ty_id t); [|discriminate]. intros H. apply guard_ok in H; [|discriminate].
  destruct H as [G H]. rewrite G. simpl. injection H as <- <-. reflexivity.
Qed.
Lemma marginalize_set_slam st p st1 m c : marginalize st p = Ok (st1, m) ->
  marginalize (set_slam st c) p = Ok (set_slam st1 c, m).
Proof.
  unfold marginalize. simpl. destruct (find_top (s_vars st) p); [|discriminate].
  destruct (ty_id t); [|discriminate]. intros H. apply guard_ok in H; [|discriminate].
  destruct H as [G H]. rewrite G. simpl. injection H as <- <-. reflexivity.
Qed.

Lemma old_clone_total st : state_ok st -> maps_ok st -> (0 <= o_max_clones (s_opts st))%Z ->
  exists st', marginalize_old_clone st = Ok st' /\ maps_ok st'.
Proof.
  intros Hok HM Hz. unfold marginalize_old_clone.
  destruct (o_max_clones (s_opts st) <? Z.of_nat (length (s_clones st)))%Z eqn:G; [|exists st; auto].
  apply Z.ltb_lt in G.
  destruct (margtimestep st) as [t|] eqn:Em.
  - destruct (margtimestep_min _ _ Em) as [Hin _].
    destruct (find_clone_time (s_clones st) t) as [p|] eqn:Ef.
    + apply find_clone_some in Ef. destruct (mp_clones _ HM t p Ef) as (Hb & q & Hq & Hp).
      destruct (marginalize_total st p (TPose q) Hok Hq Hp) as ([st1 m] & E). rewrite E. simpl.
      eexists. split; [reflexivity|].
      set (c := filter (fun e => negb (Reqb (fst e) t)) (s_clones st)).
      destruct (marginalize_frame _ _ _ _ Hok E) as (F1 & F2 & F3 & F4 & F5 & F6 & F7 & F8 & F9). rewrite F5. fold c.
      apply (marg_maps (set_clones st c) p _ m); simpl; auto.
      * apply set_clones_ok; auto.
      * apply maps_clones_sub; auto.
        -- apply NoDup_map_filter, (mp_times _ HM).
        -- apply NoDup_map_filter, (mp_cptrs _ HM).
        -- intros e He. apply filter_In in He. tauto.
      * apply marginalize_set_clones; auto.
      * intros Hin'. apply in_map_iff in Hin'. destruct Hin' as ((t' & p') & Ex & Hx). simpl in Ex. subst p'.
        apply filter_In in Hx. destruct Hx as [Hx Hn]. simpl in Hn. apply negb_true_iff in Hn.
        assert (t' = t).
        { pose proof (mp_cptrs _ HM) as ND. clear -ND Hx Ef.
          induction (s_clones st) as [|e l IH]; simpl in *; [tauto|]. inversion ND; subst.
          destruct Hx as [->|Hx], Ef as [Ef|Ef].
          - congruence.
          - exfalso. apply H1. apply (in_map snd) in Ef. exact Ef.
          - subst. exfalso. apply H1. apply (in_map snd) in Hx. exact Hx.
          - auto. }
        subst t'. destruct (Reqb_spec t t); congruence.
      * destruct (in_dec Nat.eq_dec p (map (fun e => fst (snd e)) (s_slam st))) as [Hs|Hs]; auto.
        apply in_map_iff in Hs. destruct Hs as ((i & (p' & b)) & Ex & Hs). simpl in Ex. subst p'.
        destruct (mp_slam _ HM i p b Hs) as (_ & v & Hv & Hvp).
        assert (X : TPose q = TVec v) by (eapply nodup_ptr_inj; [apply Hok|eauto..|simpl; congruence]). discriminate.
    + apply find_clone_none in Ef. tauto.
  - apply margtimestep_none in Em. rewrite Em in G. simpl in G. lia.
Qed.

Lemma slam_loop_total : forall todo st kept, state_ok st -> maps_ok (set_slam st (kept ++ todo)) ->
  exists st', marg_slam_loop st todo kept = Ok st' /\ maps_ok st'.
Proof.
  induction todo as [|e todo IH]; intros st kept Hok HM; simpl.
  - rewrite app_nil_r in HM. eauto.
  - destruct (slam_kill (s_opts st) e) eqn:Ek.
    + destruct e as [i [p b]]. simpl.
      destruct (mp_slam _ HM i p b) as (Hb & v & Hv & Hp); [simpl; apply in_or_app; simpl; auto|]. simpl in Hv, Hb.
      destruct (marginalize_total st p (TVec v) Hok Hv Hp) as ([st1 m] & E). rewrite E. simpl.
      apply IH; [eapply marginalize_ok; eauto|].
      pose proof (mp_sids _ HM) as N1. pose proof (mp_sptrs _ HM) as N2. simpl in N1, N2.
      apply (marg_maps (set_slam st (kept ++ todo)) p _ m); simpl; auto.
      * apply set_slam_ok; auto.
      * apply (maps_slam_sub (set_slam st (kept ++ (i, (p, b)) :: todo)) (kept ++ todo)); auto.
        -- rewrite map_app in *. simpl in N1. apply NoDup_remove_1 in N1. auto.
        -- rewrite map_app in *. simpl in N2. apply NoDup_remove_1 in N2. auto.
        -- intros i' p' b' H. exists b'. simpl. apply in_or_app. apply in_app_or in H. simpl. tauto.
      * apply marginalize_set_slam; auto.
      * intros Hc. apply in_map_iff in Hc. destruct Hc as ((t & p') & Ex & Hc). simpl in Ex. subst p'.
        destruct (mp_clones _ HM t p Hc) as (_ & q & Hq & Hqp). simpl in Hq.
        assert (X : TPose q = TVec v) by (eapply nodup_ptr_inj; [apply Hok|eauto..|simpl; congruence]). discriminate.
      * rewrite map_app in *. simpl in N2. apply NoDup_remove_2 in N2. auto.
    + apply IH; auto. rewrite <- app_assoc. simpl. auto.
Qed.

(** ** facts about the variables of the constructor *)
Lemma base_find st t0 : state_ok st -> maps_ok st -> In t0 (fst (build_vars (s_opts st))) ->
  exists t, In t (s_vars st) /\ krel t0 t /\ find_top (s_vars st) (ty_ptr t0) = Some t.
Proof.
  intros Hok HM H0. destruct (mp_base _ HM) as (l & r & El & HB).
  destruct (Forall2_in_l _ _ _ _ HB H0) as (t & Ht & K).
  assert (Hin : In t (s_vars st)) by (rewrite El; apply in_or_app; auto).
  exists t. split; auto. split; auto. rewrite <- (krel_ptr _ _ K). apply find_top_in_nodup; auto. apply Hok.
Qed.

Lemma push_in_old b t x : In x (fst b) -> In x (fst (push_var b t)).
Proof. intros H. simpl. apply in_or_app. auto. Qed.
Lemma push_if_old c t b x : In x (fst b) -> In x (fst (push_if c t b)).
Proof. intros H. destruct c; simpl; auto. apply in_or_app. auto. Qed.

Lemma cams_old o l b x : In x (fst b) -> In x (fst (fold_left (fun b i =>
     push_if (o_calib_intr o) (TVec (new_vec (ptr_intr i) 8))
       (push_if (o_calib_pose o) (TPose (new_pose (ptr_pose i))) b)) l b)).
Proof. revert b. induction l as [|i l IH]; intros b H; simpl; auto. apply IH. apply push_if_old, push_if_old; auto. Qed.

Lemma imu_built o : In (TImu (imu_set_id (new_imu ptr_imu) (Some 0%nat))) (fst (build_vars o)).
Proof.
  unfold build_vars. apply cams_old. repeat apply push_if_old. simpl. auto.
Qed.
Lemma push_if_new t b : In (set_local_id t (Some (snd b))) (fst (push_if true t b)).
Proof. simpl. apply in_or_app. simpl. auto. Qed.
Lemma dt_built o : o_calib_dt o = true -> exists k, In (set_local_id (TVec (new_vec ptr_dt 1)) k) (fst (build_vars o)).
Proof.
  intros H. unfold build_vars. rewrite H. eexists. apply cams_old. apply push_if_new.
Qed.
Lemma intr_built_aux o l b i : o_calib_intr o = true -> In i l ->
  exists k, In (set_local_id (TVec (new_vec (ptr_intr i) 8)) k) (fst (fold_left (fun b i =>
     push_if (o_calib_intr o) (TVec (new_vec (ptr_intr i) 8))
       (push_if (o_calib_pose o) (TPose (new_pose (ptr_pose i))) b)) l b)).
Proof.
  intros H. revert b. induction l as [|j l IH]; intros b Hin; [destruct Hin|]. simpl.
  destruct Hin as [->|Hin]; [|apply IH; auto].
  eexists. apply cams_old. rewrite H. eapply (push_if_new (TVec (new_vec (ptr_intr i) 8))).
Qed.
Lemma intr_built o i : o_calib_intr o = true -> (i < o_ncams o)%nat ->
  exists k, In (set_local_id (TVec (new_vec (ptr_intr i) 8)) k) (fst (build_vars o)).
Proof. intros H Hi. unfold build_vars. apply intr_built_aux; auto. apply in_seq. lia. Qed.

Lemma imu_live st : state_ok st -> maps_ok st ->
  exists imu, In (TImu imu) (s_vars st) /\ io_ptr imu = s_imu st /\ io_id imu = Some 0%nat /\
    find_top (s_vars st) (s_imu st) = Some (TImu imu).
Proof.
  intros Hok HM. destruct (base_find st _ Hok HM (imu_built _)) as (t & Ht & K & F).
  pose proof (krel_ptr _ _ K) as E. destruct K as (_ & K2 & _ & K4). destruct t; simpl in *; try tauto.
  exists i. rewrite (mp_imu _ HM). auto.
Qed.

Lemma cams_ready_of st : state_ok st -> maps_ok st -> cams_ready st.
Proof.
  intros Hok HM Hc. split.
  - intros c p H. rewrite (mp_cintr _ HM) in H. apply in_map_iff in H. destruct H as (i & E & Hi). injection E as <- <-.
    apply in_seq in Hi. destruct (intr_built (s_opts st) i Hc) as (k & Hk); [lia|].
    destruct (base_find st _ Hok HM Hk) as (t & Ht & K & F).
    destruct (krel_vec _ _ K) as (v & -> & Ev). split.
    + exists v. split; auto.
    + apply (mp_cams _ HM). lia.
  - rewrite (mp_cintr _ HM), map_map. simpl. rewrite map_id. apply seq_NoDup.
Qed.

Lemma dt_live st : state_ok st -> maps_ok st -> o_calib_dt (s_opts st) = true ->
  exists t id, In t (s_vars st) /\ ty_ptr t = s_dt st /\ ty_id t = Some id /\ find_top (s_vars st) (s_dt st) = Some t.
Proof.
  intros Hok HM Hc. destruct (dt_built _ Hc) as (k & Hk). destruct (base_find st _ Hok HM Hk) as (t & Ht & K & F).
  destruct (consecutive_in _ _ _ _ (ok_layout _ Hok) Ht) as (id & Hid & _).
  exists t, id. rewrite (mp_dt _ HM). pose proof (krel_ptr _ _ K). simpl in *. auto.
Qed.

(** ** augment *)
Lemma find_app_l {A} (f : A -> bool) l l' x : find f l = Some x -> find f (l ++ l') = Some x.
Proof. induction l as [|a l IH]; simpl; [discriminate|]. destruct (f a); auto. Qed.
Lemma augment_total st w : state_ok st -> maps_ok st -> ~ In (s_time st) (map fst (s_clones st)) ->
  exists st', augment_clone st w = Ok st' /\ maps_ok st'.
Proof.
  intros Hok HM Ht.
  assert (T : exists st', augment_clone st w = Ok st').
  { unfold augment_clone. rewrite (proj2 (find_clone_none _ _) Ht).
    destruct (imu_live st Hok HM) as (imu & Hin & Hp & Hi & F). rewrite F.
    destruct (clone_total st (po_ptr (io_pose imu)) Hok) as ([st1 c] & E).
    { apply in_flat_map. exists (TImu imu). split; auto. simpl. auto. }
    rewrite E. simpl.
    destruct (clone_inv _ _ _ _ Hok E) as (t & loc & c0 & Fv & Hloc & Hle & Ec & -> & Est).
    rewrite (find_var_pose st imu Hok Hin) in Fv. injection Fv as <-. simpl in Ec. injection Ec as <-.
    simpl. destruct (o_calib_dt (s_opts st)) eqn:Ed; [|eauto].
    destruct (dt_live st Hok HM Ed) as (td & did & Htd & Hpd & Hid & Fd).
    assert (Fd' : find_top (s_vars st1) (s_dt st) = Some td).
    { rewrite Est. simpl. unfold find_top in *. rewrite find_app_l with (x := td); auto. }
    rewrite Fd', Hid. unfold guard.
    destruct (consecutive_in _ _ _ _ (ok_layout _ Hok) Htd) as (id' & Hid' & _ & Hb).
    assert (id' = did) by congruence. subst id'.
    assert (Hpos : (0 < ty_size td)%nat).
    { apply vals_ok_pos. pose proof (ok_vals _ Hok) as V. rewrite Forall_forall in V. auto. }
    assert (D : s_dim st1 = (s_dim st + 6)%nat) by (rewrite Est; reflexivity).
    rewrite D. rewrite Nat.leb_refl. rewrite (proj2 (Nat.ltb_lt did (s_dim st + 6))) by lia. simpl. eauto. }
  destruct T as (st' & E). exists st'. split; auto.
  destruct (augment_inv st w st' Hok E) as (_ & imu & loc & pose & st1 & I1 & I2 & I3 & I4 & Ec & V1 & D1 & _ & _ & _ & _ &
     V2 & D2 & N2 & G1 & G2 & G3 & G4 & G5 & G6 & G7 & G8 & _).
  destruct (clone_frame _ _ _ _ Hok Ec) as (F1 & F2 & F3 & F4 & F5 & F6 & F7 & F8).
  destruct (clone_inv _ _ _ _ Hok Ec) as (t & loc' & c0 & Fv & _ & _ & Ecl & Ep & Est).
  rewrite (find_var_pose st imu Hok I1) in Fv. injection Fv as <-. simpl in Ecl. injection Ecl as <-.
  assert (Pp : po_ptr pose = s_next st) by (simpl in Ep; injection Ep as ->; reflexivity).
  assert (M' : maps_ok (set_clones st' (s_clones st))).
  { apply (maps_ext st (set_clones st' (s_clones st)) (s_vars st) [TPose pose]); simpl; auto.
    - rewrite G7; auto.
    - rewrite N2, Est. simpl. lia.
    - apply Forall2_refl, krel_refl.
    - rewrite V2, V1. auto. }
  destruct M' as [M1 M2 M3 M4 M5 M6 M7 M8 M9 M10 M11 M12]. simpl in *.
  constructor; simpl; auto; rewrite G8.
  - rewrite map_app. simpl. apply NoDup_disj; auto.
    + repeat constructor; simpl; tauto.
    + intros x Hx [<-|[]]. auto.
  - rewrite map_app. simpl. apply NoDup_disj; auto.
    + repeat constructor; simpl; tauto.
    + intros x Hx [<-|[]]. apply in_map_iff in Hx. destruct Hx as ((t & p) & Ex & Hx). simpl in Ex. subst p.
      destruct (mp_clones _ HM _ _ Hx) as (_ & q & Hq & Hqp).
      pose proof (ok_alloc _ Hok (po_ptr q)) as A. rewrite Hqp, Pp in A.
      enough (s_next st < s_next st)%nat by lia. apply A. rewrite <- Pp, <- Hqp. apply (ptr_in_flat _ (TPose q)); auto.
  - intros t p H. apply in_app_or in H. destruct H as [H|[H|[]]]; [apply (M9 _ _ H)|]. injection H as <- <-.
    split.
    + rewrite Pp, G1. apply HM.
    + exists pose. split; auto. rewrite V2, V1. apply in_or_app. simpl; auto.
Qed.

(** ** setting values *)
Lemma set_var_inv f p vars t t' : NoDup (flat_map ty_ptrs vars) -> In t vars -> ty_ptr t = p -> f t = Ok t' ->
  exists l1 l2, vars = l1 ++ t :: l2 /\ set_var f p vars = Ok (l1 ++ t' :: l2).
Proof.
  intros ND Hin Hp Hf. induction vars as [|a vars IH]; [destruct Hin|]. simpl.
  destruct Hin as [->|Hin].
  - rewrite Hp, Nat.eqb_refl, Hf. simpl. exists [], vars. auto.
  - simpl in ND. apply NoDup_app_parts in ND. destruct ND as (_ & N2 & N3).
    destruct (Nat.eqb_spec (ty_ptr a) p) as [Ea|Ea].
    + exfalso. apply (N3 p); [rewrite <- Ea; apply ty_ptr_in_ptrs|]. rewrite <- Hp. apply ptr_in_flat; auto.
    + destruct (IH N2 Hin) as (l1 & l2 & -> & ->). simpl. exists (a :: l1), l2. auto.
Qed.

Lemma with_var_ok st p f t t' : state_ok st -> maps_ok st -> In t (s_vars st) -> ty_ptr t = p -> f t = Ok t' ->
  krel t t' -> subs_ok t' -> vals_ok t' -> ori_unit t' ->
  exists st' vars, with_var st p f = Ok st' /\ state_ok st' /\ maps_ok st' /\
    Forall2 krel (s_vars st) vars /\ st' = set_vars_cov st vars (s_dim st) (s_cov st) /\ In t' vars.
Proof.
  intros Hok HM Hin Hp Hf K S V U. unfold with_var.
  destruct (set_var_inv f p _ t t' (ok_nodup _ Hok) Hin Hp Hf) as (l1 & l2 & El & ->). simpl.
  assert (HF : Forall2 krel (s_vars st) (l1 ++ t' :: l2)).
  { rewrite El. apply Forall2_app; [apply Forall2_refl, krel_refl|]. constructor; auto. apply Forall2_refl, krel_refl. }
  assert (Rp : forall Q, Forall Q (s_vars st) -> Q t' -> Forall Q (l1 ++ t' :: l2)).
  { intros Q HQ HQt. rewrite El in HQ. apply Forall_app in HQ. destruct HQ as [Q1 Q2]. inversion Q2; subst.
    apply Forall_app. split; auto. }
  assert (Pt : flat_map ty_ptrs (l1 ++ t' :: l2) = flat_map ty_ptrs (s_vars st)).
  { rewrite El, !flat_map_app. simpl. rewrite (proj1 K). reflexivity. }
  eexists. exists (l1 ++ t' :: l2). split; [reflexivity|]. split; [|split; [|split; [auto|split; auto]]].
  - destruct Hok as [A1 A2 A3 A4 A5 A6 A7]. constructor; simpl; auto; try rewrite Pt; auto.
    eapply consecutive_ext; [|exact A1]. clear -HF. induction HF as [|x y a b (_ & B1 & B2 & _) _ IH]; constructor; auto.
  - apply (maps_ext st _ (l1 ++ t' :: l2) []); simpl; auto. rewrite app_nil_r. reflexivity.
  - apply in_or_app; simpl; auto.
Qed.

(** ** one step *)
Lemma new_maps o cams st : (forall i, (i < o_ncams o)%nat -> In i (map fst cams)) -> new_state o cams = Ok st -> maps_ok st.
Proof.
  intros HC H. unfold new_state in H. pose proof (build_vars_inv o) as B. destruct (build_vars o) as [vars n] eqn:Eb.
  destruct (build_cov o vars n); try discriminate. simpl in H. injection H as <-.
  constructor; simpl; auto; try constructor; try tauto.
  exists vars, []. rewrite app_nil_r. split; auto. rewrite Eb. simpl. apply Forall2_refl, krel_refl.
Qed.

Definition inv (st : state) : Prop := state_ok st /\ spsd (s_dim st) (s_cov st) /\ maps_ok st.

Lemma set_next_ok st k : state_ok st -> state_ok (set_next st (s_next st + k)).
Proof.
  intros [A1 A2 A3 A4 A5 A6 A7]. constructor; simpl; auto; try lia. intros p Hp. apply A6 in Hp. lia.
Qed.

Lemma set_vec_ok v x y : vals_ok (TVec v) -> subs_ok (TVec v) -> length x = vo_size v -> length y = vo_size v ->
  exists t', set_vec_both x y (TVec v) = Ok t' /\ krel (TVec v) t' /\ subs_ok t' /\ vals_ok t' /\ ori_unit t'.
Proof.
  intros (V1 & V2 & V3) S Hx Hy. simpl. unfold vec_set_value, vec_set_fej. rewrite V1, Hx, Nat.eqb_refl. simpl.
  rewrite V2, Hy, Nat.eqb_refl. simpl. eexists. split; [reflexivity|]. simpl. repeat split; auto.
Qed.

Lemma step_inv chi2q st o : inv st -> allowed st o -> exists st', exec chi2q st o = Ok st' /\ inv st'.
Proof.
  intros (Hok & HP & HM) HA. unfold inv. destruct o; simpl in HA |- *.
  - (* clone *)
    destruct (clone_total st p Hok HA) as ([st1 c] & E). rewrite E. simpl. exists st1. split; auto.
    split; [eapply clone_ok; eauto|]. split; [eapply spsd_clone; eauto|].
    destruct (clone_frame _ _ _ _ Hok E) as (F1 & F2 & F3 & F4 & F5 & F6 & F7 & F8).
    destruct (clone_inv _ _ _ _ Hok E) as (t & loc' & c0 & _ & _ & _ & _ & _ & Est).
    apply (maps_ext st st1 (s_vars st) [c]); auto; try (rewrite Est; simpl; auto; lia).
    apply Forall2_refl, krel_refl.
  - (* marginalize *)
    destruct HA as ((t & Ht & Hp) & Hb & Hc & Hs).
    destruct (marginalize_total st p t Hok Ht Hp) as ([st1 m] & E). rewrite E. simpl. exists st1. split; auto.
    split; [eapply marginalize_ok; eauto|]. split; [eapply spsd_marginalize; eauto|]. eapply marg_maps; eauto.
  - (* augment *)
    destruct (augment_total st w Hok HM HA) as (st' & E & HM'). exists st'. split; auto.
    split; [eapply augment_ok; eauto|]. split; [eapply spsd_augment; eauto|auto].
  - (* marginalize_old_clone *)
    destruct (old_clone_total st Hok HM HA) as (st' & E & HM'). exists st'. split; auto.
    split; [eapply old_clone_ok; eauto|]. split; [eapply spsd_old_clone; eauto|auto].
  - (* marginalize_slam *)
    destruct (slam_loop_total (s_slam st) st [] Hok) as (st' & E & HM').
    { simpl. destruct HM as [M1 M2 M3 M4 M5 M6 M7 M8 M9 M10 M11 M12]. constructor; simpl; auto. }
    exists st'. split; auto. destruct (slam_loop_inv _ _ _ _ Hok (proj1 HP) E) as (Hok' & _ & _ & _ & _ & _ & _ & _ & _ & _ & (f & Pf) & _).
    split; auto. split; auto. eapply spsd_projects; eauto.
  - (* propagation *)
    destruct HA as (A1 & A2 & A3 & A4 & A5 & A6 & A7 & A8 & A9 & A10).
    destruct (propagation_total st NEW OLD Phi Q) as (st' & E); auto. exists st'. split; auto.
    split; [eapply propagation_ok; eauto; apply HP|]. split; [eapply spsd_propagation; eauto|].
    destruct (propagation_inv _ _ _ _ _ _ E (proj1 HP)) as (_ & _ & _ & _ & _ & _ & _ & _ & s0 & C & _ & _ & -> & _).
    apply (maps_ext st _ (s_vars st) []); simpl; auto; [apply Forall2_refl, krel_refl|rewrite app_nil_r; auto].
  - (* update *)
    destruct HA as (A1 & A2 & A3 & A4 & A5 & A6 & A7).
    destruct (update_full st order H res Rn) as (st' & K & E & _ & D & _ & HP' & HV & Hok' & cams & Est & Cf & Ct); auto.
    { apply cams_ready_of; auto. }
    exists st'. split; auto. split; auto. split; [rewrite D; auto|].
    apply (maps_ext st st' (s_vars st') []); try (rewrite Est; simpl; auto; fail).
    + rewrite Est; simpl. destruct (o_calib_intr (s_opts st)) eqn:Ec; [apply Ct; auto|rewrite Cf; auto].
    + eapply upd_krel; eauto.
    + rewrite app_nil_r; auto.
    + auto.
  - (* initialize *)
    destruct HA as (A1 & A2 & A3 & A4 & A5 & A6 & A7 & A8 & A9 & A10 & A11 & A12 & A13).
    destruct (initialize_total chi2q st nv order HR HL Rn res mult) as (b & st' & E & Hok' & HP' & D & HT); auto.
    { apply cams_ready_of; auto. }
    rewrite E. simpl. exists st'. split; auto. split; auto. split; auto.
    destruct b.
    + destruct (HT eq_refl) as (vars & nv' & V & HF & P1 & P2 & P3 & G1 & G2 & G3 & G4 & G5 & G6 & G7 & G8 & G9).
      apply (maps_ext st st' vars [nv']); auto. rewrite G2; auto.
    + destruct (initialize_inv _ _ _ _ _ _ _ _ _ _ _ E) as (_ & _ & _ & _ & _ & _ & _ & _ & _ & _ & G & _ & _ & L & X & rr & _ & _ & _ & [(_ & -> & _)|(Hf & _)]); auto.
      discriminate.
  - (* set_initial_covariance *)
    destruct HA as (A1 & A2 & A3 & A4 & A5 & A6).
    destruct (set_initial_full st P order A1 A2 A3 A4 (proj1 A5) (proj1 HP)) as (C & E & _). exists (set_vars_cov st (s_vars st) (s_dim st) C).
    split; auto. split; [eapply state_ok_ext; [..|exact Hok]; auto|]. split.
    + eapply (spsd_set_initial st P order); eauto.
    + apply (maps_ext st _ (s_vars st) []); simpl; auto; [apply Forall2_refl, krel_refl|rewrite app_nil_r; auto].
  - eexists. split; [reflexivity|]. split; [apply set_next_ok; auto|]. split; auto.
    apply (maps_ext st _ (s_vars st) []); simpl; auto; [lia|apply Forall2_refl, krel_refl|rewrite app_nil_r; auto].
  - (* slam add *)
    destruct HA as (A1 & A2 & A3 & v & A4 & A5). eexists. split; [reflexivity|]. split; [apply set_slam_ok; auto|]. split; auto.
    destruct HM as [M1 M2 M3 M4 M5 M6 M7 M8 M9 M10 M11 M12]. constructor; simpl; auto.
    + rewrite map_app. apply NoDup_disj; simpl; auto; [repeat constructor; simpl; tauto|]. intros x Hx [<-|[]]. auto.
    + rewrite map_app. apply NoDup_disj; simpl; auto; [repeat constructor; simpl; tauto|]. intros x Hx [<-|[]]. auto.
    + intros i q b Hin. apply in_app_or in Hin. destruct Hin as [Hin|[Hin|[]]]; [eauto|]. injection Hin as <- <- <-. eauto.
  - (* slam mark *)
    eexists. split; [reflexivity|]. split; [apply set_slam_ok; auto|]. split; auto.
    apply maps_slam_sub; auto.
    + rewrite map_map. rewrite (map_ext _ fst); [apply HM|]. intros [i [q b]]. simpl. destruct (i =? id)%nat; auto.
    + rewrite map_map. rewrite (map_ext _ (fun e => fst (snd e))); [apply HM|]. intros [i [q b]]. simpl. destruct (i =? id)%nat; auto.
    + intros i q b Hin. apply in_map_iff in Hin. destruct Hin as ([i' [q' b']] & Ex & Hin). simpl in Ex.
      destruct (i' =? id)%nat; injection Ex as <- <- <-; eauto.
  - eexists. split; [reflexivity|]. split; [apply set_time_ok; auto|]. split; auto.
    apply (maps_ext st _ (s_vars st) []); simpl; auto; [apply Forall2_refl, krel_refl|rewrite app_nil_r; auto].
  - (* set vec *)
    destruct HA as (v & Hv & Hp & Hx & Hy).
    pose proof (proj1 (Forall_forall _ _) (ok_vals _ Hok) _ Hv) as V.
    pose proof (proj1 (Forall_forall _ _) (ok_subs _ Hok) _ Hv) as Sb.
    destruct (set_vec_ok v x y V Sb Hx Hy) as (t' & Ef & K & S' & V' & U').
    destruct (with_var_ok st p (set_vec_both x y) (TVec v) t') as (st' & vars & E & Hok' & HM' & _ & Est & _); auto.
    exists st'. split; auto. split; auto. split; auto. rewrite Est. auto.
  - destruct HA as ((q & Hq & Hp) & Hu).
    pose proof (proj1 (Forall_forall _ _) (ok_vals _ Hok) _ Hq) as V.
    pose proof (proj1 (Forall_forall _ _) (ok_subs _ Hok) _ Hq) as Sb.
    destruct (with_var_ok st p (set_quat_both x y) (TQuat q) (TQuat (quat_set_fej (quat_set_value q x) y))) as (st' & vars & E & Hok' & HM' & _ & Est & _); auto.
    + unfold krel; simpl; auto.
    + split; reflexivity.
    + exists st'. split; auto. split; auto. split; auto. rewrite Est. auto.
  - destruct HA as ((q & Hq & Hp) & Hu).
    pose proof (proj1 (Forall_forall _ _) (ok_vals _ Hok) _ Hq) as V.
    pose proof (proj1 (Forall_forall _ _) (ok_subs _ Hok) _ Hq) as Sb.
    destruct (with_var_ok st p (set_pose_both x y) (TPose q) (TPose (pose_set_fej (pose_set_value q x) y))) as (st' & vars & E & Hok' & HM' & _ & Est & _); auto.
    + unfold krel; simpl; auto.
    + simpl. unfold pose_vals_ok, quat_ok; simpl. destruct x, y; auto.
    + exists st'. split; auto. split; auto. split; auto. rewrite Est. auto.
  - destruct (imu_live st Hok HM) as (q & Hq & Hp & _ & _).
    pose proof (proj1 (Forall_forall _ _) (ok_vals _ Hok) _ Hq) as V.
    pose proof (proj1 (Forall_forall _ _) (ok_subs _ Hok) _ Hq) as Sb.
    destruct (with_var_ok st (s_imu st) (set_imu_both x y) (TImu q) (TImu (imu_set_fej (imu_set_value q x) y))) as (st' & vars & E & Hok' & HM' & _ & Est & _); auto.
    + unfold krel; simpl; auto.
    + simpl. unfold pose_vals_ok, quat_ok; simpl. destruct x, y; auto.
    + exists st'. split; auto. split; auto. split; auto. rewrite Est. auto.
Qed.
