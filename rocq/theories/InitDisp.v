From Coq Require Import Reals List Arith Bool Lia Lra Sorted.
From Verif Require Import RBool Outcome GeoModel Lin DbModel DbSpec DbProofs InitModel InitSpec InitProofs InitThms.
Import ListNotations.
Open Scope R_scope.

Lemma rsum_total l : rsum l = total l.
Proof. induction l; simpl; congruence. Qed.
Lemma total_nonneg l : (forall x, In x l -> 0 <= x) -> 0 <= total l.
Proof. induction l as [|a l IH]; simpl; intros H; [lra|]. assert (0 <= a) by auto. assert (0 <= total l) by auto. lra. Qed.

Definition stats_of (ds : list R) (r : option R * option R * nat) : Prop :=
  match ds with
  | [] => r = (None, Some 0, O)
  | [d] => r = (Some d, None, 1%nat)
  | _ => exists m s, r = (Some m, Some s, length ds) /\ is_mean ds m /\ is_std ds m s
  end.
Lemma disp_stats_of ds : stats_of ds (disp_stats ds).
Proof.
  destruct ds as [|a [|b ds]].
  - unfold stats_of, disp_stats. cbn [length map rsum]. unfold Rdiv. rewrite Rmult_0_l, sqrt_0. reflexivity.
  - unfold stats_of, disp_stats. simpl. repeat f_equal. field.
  - unfold stats_of. set (l := a :: b :: ds). exists (rsum l / INR (length l)), (sqrt (rsum (map (fun x => (x - rsum l / INR (length l)) ^ 2) l) / INR (length l - 1))).
    assert (P : 0 < INR (length l)) by (apply inr_pos; simpl; lia).
    assert (P1 : INR (length l - 1) = INR (length l) - 1) by (unfold l; cbn [length]; rewrite Nat.sub_succ, Nat.sub_0_r, (S_INR (S (length ds))); ring).
    assert (P2 : 0 < INR (length l) - 1) by (apply inr_pred; simpl; lia).
    split; [reflexivity|]. split; [unfold is_mean; replace (total l) with (rsum l) by apply rsum_total; field; lra|].
    split; [apply sqrt_pos|]. rewrite P1. set (m := rsum l / INR (length l)).
    rewrite sqrt_sqrt.
    + replace (map (fun x => (x - m) * (x - m)) l) with (map (fun x => (x - m) ^ 2) l) by (apply map_ext; intros; ring).
      replace (total (map (fun x => (x - m) ^ 2) l)) with (rsum (map (fun x => (x - m) ^ 2) l)) by apply rsum_total. field. lra.
    + apply Rmult_le_pos; [|left; apply Rinv_0_lt_compat; auto]. change (0 <= total (map (fun x => (x - m) ^ 2) l)). apply total_nonneg.
      intros x Hx. apply in_map_iff in Hx. destruct Hx as (y & <- & _). apply pow2_ge_0.
Qed.

(** ** collected displacements *)
Definition pdist (p : nat * uv * uv) : R := uvdist (snd (fst p)) (snd p).
Definition qdist (p : nat * nat * uv * uv) : R := uvdist (snd (fst p)) (snd p).
Definition tag (id : nat) (p : nat * uv * uv) : nat * nat * uv * uv := (id, fst (fst p), snd (fst p), snd p).
Definition qkey (p : nat * nat * uv * uv) : nat * nat := fst (fst p).
Definition tagged (P : feature -> list (nat * uv * uv)) (sel : db) : list (nat * nat * uv * uv) :=
  flat_map (fun e => map (tag (fst e)) (P (snd e))) sel.

Lemma uvdist_displacement a b : displacement a b (uvdist a b).
Proof.
  unfold displacement, uvdist. split; [apply sqrt_pos|]. rewrite sqrt_sqrt; [ring|]. apply Rplus_le_le_0_compat; apply pow2_ge_0.
Qed.
Lemma qdist_forall l : Forall2 (fun p x => displacement (snd (fst p)) (snd p) x) l (map qdist l).
Proof. induction l; simpl; constructor; auto. apply uvdist_displacement. Qed.

Lemma collect_pairs (g : feature -> outcome (list R)) P sel : (forall id f, In (id, f) sel -> g f = Ok (map pdist (P f))) ->
  collect g (map snd sel) = Ok (map qdist (tagged P sel)).
Proof.
  induction sel as [|[id f] sel IH]; intros H; [reflexivity|]. cbn [map snd collect]. rewrite (H id f) by (left; auto). cbn [obind].
  rewrite IH by (intros; eapply H; right; eauto). cbn [obind]. unfold tagged. cbn [flat_map fst snd]. rewrite map_app. f_equal. f_equal.
  rewrite map_map. reflexivity.
Qed.
Lemma tagged_in P sel id cam a b : In (id, cam, a, b) (tagged P sel) <-> exists f, In (id, f) sel /\ In (cam, a, b) (P f).
Proof.
  unfold tagged. rewrite in_flat_map. split.
  - intros ((i & f) & I & J). apply in_map_iff in J. destruct J as ([[c x] y] & E & J). unfold tag in E. simpl in E. injection E as <- <- <- <-. eauto.
  - intros (f & I & J). exists (id, f). split; auto. apply in_map_iff. exists (cam, a, b). auto.
Qed.
Lemma nodup_app {A} (l1 l2 : list A) : NoDup l1 -> NoDup l2 -> (forall x, In x l1 -> ~ In x l2) -> NoDup (l1 ++ l2).
Proof.
  induction l1 as [|a l1 IH]; simpl; auto. intros N1 N2 D. apply NoDup_cons_iff in N1. destruct N1 as [N N1]. constructor.
  - rewrite in_app_iff. intros [I|I]; [auto|]. apply (D a); auto.
  - apply IH; auto.
Qed.
Lemma tagged_nodup P sel : NoDup (map fst sel) -> (forall id f, In (id, f) sel -> NoDup (map (fun p => fst (fst p)) (P f))) ->
  NoDup (map qkey (tagged P sel)).
Proof.
  induction sel as [|[id f] sel IH]; intros N H; [constructor|]. unfold tagged. cbn [flat_map fst snd]. rewrite map_app.
  cbn [map fst] in N. apply NoDup_cons_iff in N. destruct N as [NI N]. apply nodup_app.
  - specialize (H id f (or_introl eq_refl)). rewrite map_map. clear -H. induction (P f) as [|x l IH]; simpl in *; [constructor|].
    apply NoDup_cons_iff in H. destruct H as [H1 H2]. constructor; auto. intros I. apply H1. apply in_map_iff in I. destruct I as (y & E & I).
    unfold qkey, tag in E. simpl in E. injection E as E. rewrite <- E. apply in_map_iff. eauto.
  - apply IH; auto. intros; eapply H; right; eauto.
  - intros k I J. apply NI. apply in_map_iff in I. destruct I as (y & <- & I). apply in_map_iff in I. destruct I as (z & <- & _).
    apply in_map_iff in J. destruct J as ([[[i c] u] v] & E & J). unfold qkey, tag in E. simpl in E. injection E as -> _.
    change (In (id, c, u, v) (tagged P sel)) in J. apply tagged_in in J. destruct J as (f' & J & _). apply (in_map fst) in J. exact J.
Qed.

(** ** overload 1 *)
Lemma tindex_spec l t : NoDup l -> match tindex l t with Some i => nth_error l i = Some t | None => ~ In t l end.
Proof.
  induction l as [|x l IH]; simpl; intros N; auto. apply NoDup_cons_iff in N. destruct N as [NI N]. specialize (IH N).
  destruct (Reqb_spec x t) as [->|Ne]; [reflexivity|]. destruct (tindex l t); simpl; auto. intros [|]; auto.
Qed.
Lemma nth_zip3 ts us ns i t u : length us = length ts -> length ns = length ts -> nth_error ts i = Some t -> nth_error us i = Some u ->
  exists n, nth_error (zip3 ts us ns) i = Some (t, u, n).
Proof.
  revert us ns i. induction ts as [|a ts IH]; intros [|b us] [|c ns] i L1 L2 E1 E2; simpl in *; try discriminate; [destruct i; discriminate|].
  destruct i; simpl in *; [injection E1 as ->; injection E2 as ->; eauto|]. eapply IH; eauto.
Qed.
Lemma zip3_obs_unique ts us ns t u v n m : NoDup (map otime (zip3 ts us ns)) -> In (t, u, n) (zip3 ts us ns) -> In (t, v, m) (zip3 ts us ns) -> u = v.
Proof.
  intros N I J. assert (G : forall l : list obs, NoDup (map otime l) -> In (t, u, n) l -> In (t, v, m) l -> u = v).
  { clear. induction l as [|x l IH]; [intros _ []|]. intros N I J. cbn [map] in N. apply NoDup_cons_iff in N. destruct N as [NI N].
    destruct I as [->|I], J as [E|J].
    - congruence.
    - exfalso. apply NI. apply (in_map otime) in J. exact J.
    - subst x. exfalso. apply NI. apply (in_map otime) in I. exact I.
    - auto. }
  eauto.
Qed.

Definition seen_both (t0 t1 : R) (f : feature) (e : nat * list R) : list (nat * uv * uv) :=
  match tindex (snd e) t0, tindex (snd e) t1 with
  | Some i0, Some i1 =>
      match nth_error (aget (f_uvs f) (fst e)) i0, nth_error (aget (f_uvs f) (fst e)) i1 with
      | Some u0, Some u1 => [(fst e, u0, u1)]
      | _, _ => []
      end
  | _, _ => []
  end.
Definition pairs1 (t0 t1 : R) (f : feature) : list (nat * uv * uv) := flat_map (seen_both t0 t1 f) (f_ts f).

Lemma tindex_lt l t i : tindex l t = Some i -> (i < length l)%nat.
Proof.
  revert i. induction l as [|x l IH]; simpl; [discriminate|]. intros i. destruct (Reqb x t); [intros [= <-]; lia|].
  destruct (tindex l t); simpl; [|discriminate]. intros [= <-]. specialize (IH _ eq_refl). lia.
Qed.
Lemma par_uvs f cam ts : feat_ok f -> In (cam, ts) (f_ts f) -> alook (f_ts f) cam = Some ts /\ alook (f_uvs f) cam = Some (aget (f_uvs f) cam) /\ length (aget (f_uvs f) cam) = length ts /\ length (aget (f_uvn f) cam) = length ts.
Proof.
  intros [N P] I. apply alook_in in I; auto. specialize (P cam). rewrite I in P. split; auto. unfold aget.
  destruct (alook (f_uvs f) cam); [|contradiction]. destruct (alook (f_uvn f) cam); [|contradiction]. tauto.
Qed.
Lemma disp_cams_pairs t0 t1 f : feat_ok f -> disp_cams f t0 t1 (f_ts f) = Ok (map pdist (pairs1 t0 t1 f)).
Proof.
  intros OK. unfold pairs1. assert (H : forall e, In e (f_ts f) -> In e (f_ts f)) by auto. revert H. generalize (f_ts f) at 1 3 4 as l.
  induction l as [|[cam ts] l IH]; intros H; [reflexivity|]. cbn [disp_cams flat_map]. specialize (IH (fun e He => H e (or_intror He))).
  destruct (par_uvs f cam ts OK (H _ (or_introl eq_refl))) as (_ & E2 & E3 & _).
  unfold seen_both at 1. cbn [fst snd]. destruct (tindex ts t0) as [i0|] eqn:I0; [|exact IH]. destruct (tindex ts t1) as [i1|] eqn:I1; [|exact IH].
  rewrite E2. apply tindex_lt in I0, I1. unfold at_uv.
  destruct (nth_error (aget (f_uvs f) cam) i0) as [u0|] eqn:N0; [|apply nth_error_None in N0; lia].
  destruct (nth_error (aget (f_uvs f) cam) i1) as [u1|] eqn:N1; [|apply nth_error_None in N1; lia].
  cbn [obind]. rewrite IH. cbn [obind]. reflexivity.
Qed.
Lemma seen_both_cam t0 t1 f e p : In p (seen_both t0 t1 f e) -> fst (fst p) = fst e.
Proof.
  unfold seen_both. destruct (tindex _ t0); [|intros []]. destruct (tindex _ t1); [|intros []]. destruct (nth_error _ _); [|intros []].
  destruct (nth_error _ _); [|intros []]. intros [<-|[]]. reflexivity.
Qed.
Lemma cams_nodup {B} (h : nat * B -> list (nat * uv * uv)) (l : list (nat * B)) :
  (forall e p, In p (h e) -> fst (fst p) = fst e) -> (forall e, (length (h e) <= 1)%nat) -> NoDup (map fst l) ->
  NoDup (map (fun p => fst (fst p)) (flat_map h l)).
Proof.
  intros C L. induction l as [|e l IH]; simpl; intros N; [constructor|]. apply NoDup_cons_iff in N. destruct N as [NI N]. rewrite map_app.
  apply nodup_app; auto.
  - specialize (L e). destruct (h e) as [|x [|y t]]; simpl in *; [constructor|constructor; [auto|constructor]|lia].
  - intros c I J. apply NI. apply in_map_iff in I. destruct I as (p & <- & I). rewrite (C _ _ I) in J.
    apply in_map_iff in J. destruct J as (p' & E & J). apply in_flat_map in J. destruct J as (e' & I' & J). rewrite (C _ _ J) in E. rewrite <- E. apply in_map; auto.
Qed.
Lemma pairs1_nodup t0 t1 f : feat_ok f -> NoDup (map (fun p => fst (fst p)) (pairs1 t0 t1 f)).
Proof.
  intros [N _]. apply cams_nodup; auto; [apply seen_both_cam|]. intros e. unfold seen_both.
  destruct (tindex _ t0); simpl; [|lia]. destruct (tindex _ t1); simpl; [|lia]. destruct (nth_error _ _); simpl; [|lia]. destruct (nth_error _ _); simpl; lia.
Qed.
Lemma pairs1_in t0 t1 f cam u0 u1 : feat_ok f -> (forall c, NoDup (map otime (ftrack f c))) ->
  (In (cam, u0, u1) (pairs1 t0 t1 f) <-> (exists n, In (t0, u0, n) (ftrack f cam)) /\ exists n, In (t1, u1, n) (ftrack f cam)).
Proof.
  intros OK S. pose proof OK as [N P]. unfold pairs1. rewrite in_flat_map.
  assert (Key : forall ts, In (cam, ts) (f_ts f) -> forall t i, tindex ts t = Some i ->
     exists u n, nth_error (aget (f_uvs f) cam) i = Some u /\ In (t, u, n) (ftrack f cam)).
  { intros ts I t i E. destruct (par_uvs f cam ts OK I) as (A1 & _ & A3 & A4). pose proof (tindex_lt _ _ _ E) as Lt.
    assert (Nts : NoDup ts) by (specialize (S cam); rewrite ftrack_times in S by auto; unfold aget in S; rewrite A1 in S; exact S).
    pose proof (tindex_spec ts t Nts) as Sp. rewrite E in Sp.
    destruct (nth_error (aget (f_uvs f) cam) i) as [u|] eqn:Eu; [|apply nth_error_None in Eu; lia].
    destruct (nth_zip3 ts (aget (f_uvs f) cam) (aget (f_uvn f) cam) i t u A3 A4 Sp Eu) as (n & En). exists u, n. split; auto.
    unfold ftrack. unfold aget at 1. rewrite A1. eapply nth_error_In; eauto. }
  split.
  - intros ((c & ts) & I & J). pose proof (seen_both_cam _ _ _ _ _ J) as Ec. simpl in Ec. subst c. unfold seen_both in J. cbn [fst snd] in J.
    destruct (tindex ts t0) as [i0|] eqn:E0; [|destruct J]. destruct (tindex ts t1) as [i1|] eqn:E1; [|destruct J].
    destruct (Key ts I t0 i0 E0) as (v0 & n0 & F0 & G0). destruct (Key ts I t1 i1 E1) as (v1 & n1 & F1 & G1). rewrite F0, F1 in J.
    destruct J as [[= <- <-]|[]]. split; eauto.
  - intros ((n0 & I0) & (n1 & I1)). destruct (alook (f_ts f) cam) as [ts|] eqn:A.
    2:{ exfalso. unfold ftrack, aget in I0. rewrite A in I0. destruct I0. }
    pose proof A as A'. apply alook_in in A'; auto. exists (cam, ts). split; auto.
    assert (T : map otime (ftrack f cam) = ts) by (rewrite ftrack_times by auto; unfold aget; rewrite A; reflexivity).
    assert (Nts : NoDup ts) by (rewrite <- T; apply S).
    assert (Fi : forall t u n, In (t, u, n) (ftrack f cam) -> exists i, tindex ts t = Some i /\ nth_error (aget (f_uvs f) cam) i = Some u).
    { intros t u n I. pose proof (tindex_spec ts t Nts) as Sp. destruct (tindex ts t) as [i|] eqn:E.
      - exists i. split; auto. destruct (Key ts A' t i E) as (v & m & F & G). rewrite F. f_equal.
        unfold ftrack in *. eapply zip3_obs_unique; eauto.
      - exfalso. apply Sp. rewrite <- T. apply (in_map otime) in I. exact I. }
    destruct (Fi _ _ _ I0) as (i0 & E0 & F0). destruct (Fi _ _ _ I1) as (i1 & E1 & F1). unfold seen_both. cbn [fst snd]. rewrite E0, E1, F0, F1. simpl; auto.
Qed.

Lemma disparity_pairs d t0 t1 : db_ok d -> single_obs d ->
  exists pairs ds r, compute_disparity d t0 t1 = Ok r /\
    NoDup (map qkey pairs) /\
    (forall id cam u0 u1, In (id, cam, u0, u1) pairs <->
       (exists f, alook d id = Some f /\ f_del f = false) /\ observed d id cam t0 u0 /\ observed d id cam t1 u1) /\
    Forall2 (fun p x => displacement (snd (fst p)) (snd p) x) pairs ds /\ stats_of ds r.
Proof.
  intros OK S. pose proof OK as [ND F]. unfold compute_disparity, features_containing. rewrite query_loop_eq. cbn [fst andb].
  set (sel := filter _ d).
  assert (Fs : forall id f, In (id, f) sel -> feat_ok f /\ In (id, f) d /\ f_del f = false).
  { intros id f I. unfold sel in I. apply filter_In in I. destruct I as [I B]. cbn [snd] in B. apply andb_true_iff in B. destruct B as [B _].
    apply F in I as I'. split; [tauto|]. split; auto. destruct (f_del f); auto. }
  rewrite (collect_pairs _ (pairs1 t0 t1)) by (intros id f I; apply disp_cams_pairs; apply (Fs id f I)). cbn [obind].
  exists (tagged (pairs1 t0 t1) sel), (map qdist (tagged (pairs1 t0 t1) sel)). eexists. split; [reflexivity|].
  split; [apply tagged_nodup; [apply nodup_filter_keys; auto|intros id f I; apply pairs1_nodup; apply (Fs id f I)]|].
  split; [|split; [apply qdist_forall|apply disp_stats_of]].
  intros id cam u0 u1. rewrite tagged_in. split.
  - intros (f & I & J). destruct (Fs id f I) as (Fo & I' & Del). apply alook_in in I'; auto. split; [eauto|].
    rewrite pairs1_in in J; auto; [|intros c; eapply S; eauto]. destruct J as ((n0 & J0) & (n1 & J1)). split; eexists _, _; eauto.
  - intros ((f & A & Del) & (f0 & n0 & A0 & J0) & (f1 & n1 & A1 & J1)). rewrite A in A0, A1. injection A0 as <-. injection A1 as <-.
    exists f. assert (I : In (id, f) d) by (apply alook_in; auto). assert (Fo : feat_ok f) by (apply F in I; tauto).
    split; [|rewrite pairs1_in; auto; [split; eauto|intros c; eapply S; eauto]].
    unfold sel. apply filter_In. split; auto. cbn [snd]. rewrite Del. cbn [negb andb]. unfold has_time. apply existsb_exists.
    destruct (alook (f_ts f) cam) as [ts|] eqn:At; [|exfalso; unfold ftrack, aget in J0; rewrite At in J0; destruct J0].
    destruct Fo as [Nf Pf]. exists (cam, ts). split; [apply alook_in; auto|]. cbn [snd]. unfold tfind. apply existsb_exists. exists t0.
    split; [|apply Reqb_true; auto]. apply (in_map otime) in J0. rewrite ftrack_times in J0 by auto. unfold aget in J0. rewrite At in J0. exact J0.
Qed.

(** ** overload 2 *)
Definition okl (lo t : R) : bool := (Reqb lo (-1) || Rltb lo t)%bool.
Definition okh (hi t : R) : bool := (Reqb hi (-1) || Rltb t hi)%bool.
Fixpoint scanl (lo hi : R) (l : list obs) (b0 b1 : option uv) : option uv * option uv :=
  match l with
  | [] => (b0, b1)
  | o :: l' => match b0 with
               | None => if okl lo (otime o) then scanl lo hi l' (Some (raw o)) b1 else scanl lo hi l' b0 b1
               | Some _ => if okh hi (otime o) then scanl lo hi l' b0 (Some (raw o)) else scanl lo hi l' b0 b1
               end
  end.
Lemma scan_eq lo hi ts : forall pre us ns b0 b1, length us = length ts -> length ns = length ts ->
  disp_scan lo hi ts (pre ++ us) (length pre) b0 b1 = Ok (scanl lo hi (zip3 ts us ns) b0 b1).
Proof.
  induction ts as [|t ts IH]; intros pre [|u us] [|n ns] b0 b1 L1 L2; simpl in L1, L2; try discriminate; [reflexivity|].
  cbn [disp_scan zip3 scanl otime fst]. assert (E : at_uv (pre ++ u :: us) (length pre) = Ok u).
  { unfold at_uv. rewrite nth_error_app2 by lia. rewrite Nat.sub_diag. reflexivity. }
  specialize (IH (pre ++ [u]) us ns). rewrite app_length, Nat.add_comm, <- app_assoc in IH. cbn [length app Nat.add] in IH.
  unfold okl, okh. rewrite E. cbn [obind]. destruct b0; (destruct (_ || _)%bool); apply IH; lia.
Qed.
Lemma scanl_some lo hi u l b1 : scanl lo hi l (Some u) b1 =
  (Some u, match filter (fun o => okh hi (otime o)) l with [] => b1 | o :: l' => Some (raw (last l' o)) end).
Proof.
  revert b1. induction l as [|o l IH]; intros b1; [reflexivity|]. cbn [scanl filter]. destruct (okh hi (otime o)) eqn:E; rewrite IH; auto.
  f_equal. destruct (filter _ l) as [|x l'] eqn:F; [reflexivity|]. destruct l' as [|y l']; [reflexivity|]. f_equal. f_equal.
  change (last (y :: l') x = last (y :: l') o). apply last_default. discriminate.
Qed.
Lemma scanl_spec lo hi l : StronglySorted Rlt (map otime l) ->
  forall u0 u1, scanl lo hi l None None = (Some u0, Some u1) <->
   exists a mid b, filter (fun o => okl lo (otime o) && okh hi (otime o))%bool l = a :: mid ++ [b] /\ u0 = raw a /\ u1 = raw b.
Proof.
  intros Srt u0 u1. induction l as [|o l IH].
  { simpl. split; [discriminate|]. intros (a & mid & b & E & _). destruct mid; discriminate. }
  cbn [map] in Srt. apply StronglySorted_inv in Srt. destruct Srt as [Srt Fa]. specialize (IH Srt).
  assert (Lt : forall x, In x l -> otime o < otime x) by (intros x Hx; rewrite Forall_forall in Fa; apply Fa; apply in_map; auto).
  cbn [scanl filter]. destruct (okl lo (otime o)) eqn:E; [|exact IH]. rewrite scanl_some.
  assert (Fl : filter (fun x => okl lo (otime x) && okh hi (otime x))%bool l = filter (fun x => okh hi (otime x)) l).
  { apply filter_ext_in. intros x Hx. assert (O : okl lo (otime x) = true).
    { unfold okl in *. apply orb_true_iff in E. apply orb_true_iff. destruct E as [E|E]; auto. right. rewrite Rltb_true in *. specialize (Lt x Hx). lra. }
    rewrite O. reflexivity. }
  rewrite Fl. destruct (okh hi (otime o)) eqn:E2; cbn [andb].
  - destruct (filter (fun x => okh hi (otime x)) l) as [|x l'] eqn:F.
    + split; [discriminate|]. intros (a & mid & b & Eq & _). injection Eq as _ Eq. destruct mid; discriminate.
    + split.
      * intros [= <- <-]. exists o, (removelast (x :: l')), (last (x :: l') x). split; [f_equal; apply app_removelast_last; discriminate|].
        split; auto. destruct l'; reflexivity.
      * intros (a & mid & b & Eq & -> & ->). injection Eq as <- Eq. f_equal. f_equal. f_equal.
        destruct mid as [|m mid]; simpl in Eq; injection Eq as -> ->; [reflexivity|]. destruct (mid ++ [b]) as [|y t] eqn:Em; [destruct mid; discriminate|].
        rewrite <- Em. clear. induction mid as [|z mid IH]; [reflexivity|]. simpl. destruct (mid ++ [b]) eqn:K; [destruct mid; discriminate|]. exact IH.
  - assert (Nil : filter (fun x => okh hi (otime x)) l = []).
    { clear -Lt E2. induction l as [|x l IH]; auto. simpl. assert (O : okh hi (otime x) = false).
      { unfold okh in *. apply orb_false_iff in E2. destruct E2 as [A B]. rewrite A. simpl. rewrite Rltb_false in *. specialize (Lt x (or_introl eq_refl)). lra. }
      rewrite O. apply IH. intros; apply Lt; right; auto. }
    rewrite Nil. split; [discriminate|]. intros (a & mid & b & Eq & _). destruct mid; discriminate.
Qed.

Definition range_cam (lo hi : R) (f : feature) (e : nat * list R) : list (nat * uv * uv) :=
  if (length (snd e) <? 2)%nat then [] else
  match scanl lo hi (ftrack f (fst e)) None None with (Some u0, Some u1) => [(fst e, u0, u1)] | _ => [] end.
Definition pairs2 (lo hi : R) (f : feature) : list (nat * uv * uv) := flat_map (range_cam lo hi f) (f_ts f).
Lemma disp_range_pairs lo hi f : feat_ok f -> disp_range_cams f lo hi (f_ts f) = Ok (map pdist (pairs2 lo hi f)).
Proof.
  intros OK. unfold pairs2. assert (H : forall e, In e (f_ts f) -> In e (f_ts f)) by auto. revert H. generalize (f_ts f) at 1 3 4 as l.
  induction l as [|[cam ts] l IH]; intros H; [reflexivity|]. cbn [disp_range_cams flat_map]. specialize (IH (fun e He => H e (or_intror He))).
  destruct (par_uvs f cam ts OK (H _ (or_introl eq_refl))) as (E1 & E2 & E3 & E4).
  unfold range_cam at 1. cbn [fst snd]. destruct (length ts <? 2)%nat; [exact IH|]. rewrite E2.
  pose proof (scan_eq lo hi ts [] (aget (f_uvs f) cam) (aget (f_uvn f) cam) None None E3 E4) as Sc. cbn [app length] in Sc. rewrite Sc. cbn [obind]. rewrite IH. cbn [obind].
  unfold ftrack. unfold aget at 3. rewrite E1. destruct (scanl _ _ _ _ _) as [[u0|] [u1|]]; reflexivity.
Qed.
Lemma range_cam_cam lo hi f e p : In p (range_cam lo hi f e) -> fst (fst p) = fst e.
Proof. unfold range_cam. destruct (_ <? _)%nat; [intros []|]. destruct (scanl _ _ _ _ _) as [[u0|] [u1|]]; intros H; try contradiction; destruct H as [<-|[]]; reflexivity. Qed.
Lemma pairs2_nodup lo hi f : feat_ok f -> NoDup (map (fun p => fst (fst p)) (pairs2 lo hi f)).
Proof.
  intros [N _]. apply cams_nodup; auto; [apply range_cam_cam|]. intros e. unfold range_cam.
  destruct (_ <? _)%nat; simpl; [lia|]. destruct (scanl _ _ _ _ _) as [[u0|] [u1|]]; simpl; lia.
Qed.
Lemma range_ends_iff lo hi l u0 u1 : range_ends lo hi l u0 u1 <->
  exists a mid b, filter (fun o => okl lo (otime o) && okh hi (otime o))%bool l = a :: mid ++ [b] /\ u0 = raw a /\ u1 = raw b.
Proof.
  assert (Q : forall o, (okl lo (otime o) && okh hi (otime o))%bool = true <-> in_range lo hi (otime o)).
  { intros o. unfold okl, okh, in_range. rewrite andb_true_iff, !orb_true_iff, !Reqb_true, !Rltb_true. tauto. }
  split.
  - intros (sel & a & mid & b & Hs & E & A). exists a, mid, b. split; auto. rewrite <- E. apply filter_ext. intros o.
    specialize (Q o). specialize (Hs o). destruct (_ && _)%bool, (sel o); auto; exfalso; intuition congruence.
  - intros (a & mid & b & E & A). exists (fun o => okl lo (otime o) && okh hi (otime o))%bool, a, mid, b. auto.
Qed.
Lemma pairs2_in lo hi f cam u0 u1 : feat_ok f -> (forall c, StronglySorted Rlt (map otime (ftrack f c))) ->
  (In (cam, u0, u1) (pairs2 lo hi f) <-> range_ends lo hi (ftrack f cam) u0 u1).
Proof.
  intros OK St. pose proof OK as [N P]. rewrite range_ends_iff, <- scanl_spec by auto. unfold pairs2. rewrite in_flat_map. split.
  - intros ((c & ts) & I & J). pose proof (range_cam_cam _ _ _ _ _ J) as Ec. simpl in Ec. subst c. unfold range_cam in J. cbn [fst snd] in J.
    destruct (_ <? _)%nat; [destruct J|]. destruct (scanl _ _ _ _ _) as [[v0|] [v1|]]; try contradiction; destruct J as [[= <- <-]|[]]. reflexivity.
  - intros E. destruct (alook (f_ts f) cam) as [ts|] eqn:A.
    2:{ exfalso. unfold ftrack, aget in E. rewrite A in E. discriminate. }
    exists (cam, ts). split; [apply alook_in; auto|]. unfold range_cam. cbn [fst snd]. rewrite E.
    destruct (Nat.ltb_spec (length ts) 2) as [L|L]; [|simpl; auto]. exfalso.
    assert (Ln : length (ftrack f cam) = length ts).
    { rewrite <- (map_length otime), ftrack_times by auto. unfold aget. rewrite A. reflexivity. }
    destruct (ftrack f cam) as [|x [|y l]]; [discriminate| |simpl in Ln; lia]. cbn [scanl] in E. destruct (okl lo (otime x)); discriminate.
Qed.
Lemma chron_sorted f cam : (forall l1 a l2 b l3, ftrack f cam = l1 ++ a :: l2 ++ b :: l3 -> otime a < otime b) ->
  StronglySorted Rlt (map otime (ftrack f cam)).
Proof.
  generalize (ftrack f cam). induction l as [|a l IH]; intros H; [constructor|]. cbn [map]. constructor.
  - apply IH. intros l1 x l2 y l3 E. apply (H (a :: l1) x l2 y l3). rewrite E. reflexivity.
  - apply Forall_forall. intros t Ht. apply in_map_iff in Ht. destruct Ht as (x & <- & Hx). apply in_split in Hx. destruct Hx as (l1 & l2 & ->).
    apply (H [] a l1 x l2). reflexivity.
Qed.
Lemma disparity_range_pairs d hi lo : db_ok d -> strictly_chron d ->
  exists pairs ds r, compute_disparity_range d hi lo = Ok r /\
    NoDup (map qkey pairs) /\
    (forall id cam u0 u1, In (id, cam, u0, u1) pairs <-> exists f, alook d id = Some f /\ range_ends lo hi (ftrack f cam) u0 u1) /\
    Forall2 (fun p x => displacement (snd (fst p)) (snd p) x) pairs ds /\ stats_of ds r.
Proof.
  intros OK St. pose proof OK as [ND F]. unfold compute_disparity_range.
  rewrite (collect_pairs _ (pairs2 lo hi)) by (intros id f I; apply disp_range_pairs; apply F in I; tauto). cbn [obind].
  exists (tagged (pairs2 lo hi) d), (map qdist (tagged (pairs2 lo hi) d)). eexists. split; [reflexivity|].
  split; [apply tagged_nodup; auto; intros id f I; apply pairs2_nodup; apply F in I; tauto|].
  split; [|split; [apply qdist_forall|apply disp_stats_of]].
  intros id cam u0 u1. rewrite tagged_in. split; intros (f & I & J); exists f.
  - assert (A : alook d id = Some f) by (apply alook_in; auto). split; auto. rewrite pairs2_in in J; auto; [apply F in I; tauto|].
    intros c. apply chron_sorted. intros. eapply St; eauto.
  - assert (A : In (id, f) d) by (apply alook_in; auto). split; auto. rewrite pairs2_in; auto; [apply F in A; tauto|].
    intros c. apply chron_sorted. intros. eapply St; eauto.
Qed.
