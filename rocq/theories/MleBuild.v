(** C92: the problem that is built. *)
From Coq Require Import Reals List Arith ZArith Bool Sorted Lia Lra.
From Verif Require Import RBool Outcome GeoModel GeoSpec Lin TypesModel ImuModel ImuSpec ImuProofs DbModel DbSpec DbProofs DbThms InitModel InitSpec InitProofs StartModel StartSpec StartThms StateModel PropModel CamModel HelpModel CpiModel CpiSpec CeresModel CeresSpec CeresPrior
  DynModel DynSpec DynProofs DynThms DynGuess DynTurn MleModel MleSpec.
Import ListNotations.
Open Scope R_scope.

(** ** the cameras *)
Lemma nins_in c x l : In x (nins c l) <-> x = c \/ In x l.
Proof.
  induction l as [|y l IH]; cbn [nins]; [simpl; intuition|].
  destruct (Nat.ltb_spec c y); [simpl; intuition|]. destruct (Nat.eqb_spec c y); [subst; simpl; intuition|]. cbn [In]. rewrite IH. intuition.
Qed.
Lemma nins_sorted c l : StronglySorted lt l -> StronglySorted lt (nins c l).
Proof.
  induction l as [|y l IH]; intros H; cbn [nins]; [repeat constructor|]. inversion H; subst.
  destruct (Nat.ltb_spec c y) as [L|L]. { constructor; [exact H|]. constructor; [exact L|]. eapply Forall_impl; [|exact H3]. intros; simpl in *; lia. }
  destruct (Nat.eqb_spec c y) as [E|E]; [exact H|]. constructor; [auto|]. apply Forall_forall. intros x Hx. apply nins_in in Hx. destruct Hx as [->|Hx]; [lia|].
  rewrite Forall_forall in H3. auto.
Qed.
Lemma nins_all x cs : forall l, In x (fold_left (fun l c => nins c l) cs l) <-> In x cs \/ In x l.
Proof. induction cs as [|c cs IH]; intros l; cbn [fold_left]; [simpl; intuition|]. rewrite IH, nins_in. simpl. intuition. Qed.
Lemma nins_all_sorted cs : forall l, StronglySorted lt l -> StronglySorted lt (fold_left (fun l c => nins c l) cs l).
Proof. induction cs as [|c cs IH]; intros l H; cbn [fold_left]; [exact H|]. apply IH, nins_sorted, H. Qed.

Lemma pick_ids_gen dt P Q cam : 0 < dt -> spaced dt Q -> forall l acc ids, spaced dt (P ++ acc) ->
  let r := fold_left (fun (a : list R * list nat) (ct : nat * list R) => let ts := pick_cam dt P (fst a) (snd ct) in (ts, if Nat.eqb (length ts) (length (fst a)) then snd a else nins (fst ct) (snd a))) l (acc, ids) in
  fst r = fold_left (fun acc (ct : nat * list R) => pick_cam dt P acc (snd ct)) l acc /\ (exists new, fst r = acc ++ new) /\
  (incl (P ++ fst r) Q -> (In cam (snd r) <-> In cam ids \/ exists ts t, In (cam, ts) l /\ In t ts /\ In t Q)).
Proof.
  intros Hd HQ. induction l as [|[c ts] l IH]; intros acc ids Hs; cbn [fold_left]; cbv zeta.
  - cbn [fst snd]. split; [reflexivity|]. split; [exists []; rewrite app_nil_r; reflexivity|]. intros _. split; [auto|]. intros [H|(ts & t & [] & _)]; exact H.
  - cbn [fst snd]. destruct (pick_cam_spec dt P ts Hd acc Hs) as (new & E & S & I & C). rewrite E.
    specialize (IH (acc ++ new) (if Nat.eqb (length (acc ++ new)) (length acc) then ids else nins c ids) S). cbv zeta in IH. destruct IH as (A1 & (n2 & A2) & A3).
    split; [exact A1|]. split; [exists (new ++ n2); rewrite A2, app_assoc; reflexivity|]. intros Hi. specialize (A3 Hi).
    assert (Hi' : incl (P ++ acc ++ new) Q). { intros x Hx. apply Hi. rewrite A2. rewrite !in_app_iff in *. tauto. }
    specialize (C Q HQ Hi'). rewrite A3. rewrite app_length. destruct (Nat.eqb_spec (length acc + length new) (length acc)) as [Z|Z].
    + assert (F : filter (tfind Q) ts = []) by (destruct (filter (tfind Q) ts); [reflexivity|cbn [length] in C; lia]).
      split; [intros [H|(u & t & B1 & B2)]; [auto|right; exists u, t; split; [right; exact B1|exact B2]]|].
      intros [H|(u & t & [B1|B1] & B2 & B3)]; [auto| |right; exists u, t; auto]. injection B1 as <- <-.
      exfalso. assert (X : In t (filter (tfind Q) ts)) by (apply filter_In; split; [exact B2|apply tfind_in, B3]). rewrite F in X. destruct X.
    + rewrite nins_in. assert (F : exists t, In t ts /\ In t Q).
      { destruct (filter (tfind Q) ts) as [|t r] eqn:Ef; [cbn [length] in C; lia|]. exists t. assert (X : In t (filter (tfind Q) ts)) by (rewrite Ef; left; auto). apply filter_In in X. split; [apply X|apply tfind_in, X]. }
      split.
      * intros [[->|H]|(u & t & B1 & B2)]; [|auto|right; exists u, t; split; [right; exact B1|exact B2]]. destruct F as (t & F1 & F2). right. exists ts, t. split; [left; auto|auto].
      * intros [H|(u & t & [B1|B1] & B2 & B3)]; [auto|injection B1 as <- <-; auto|right; exists u, t; auto].
Qed.
Lemma pick_ids_spec dt P f Q cam : 0 < dt -> spaced dt P -> spaced dt Q -> incl (P ++ pick dt P f) Q ->
  (In cam (pick_ids dt P f) <-> exists ts t, In (cam, ts) (f_ts f) /\ In t ts /\ In t Q).
Proof.
  intros Hd HP HQ Hi. pose proof (pick_ids_gen dt P Q cam Hd HQ (f_ts f) [] []) as G. rewrite app_nil_r in G. specialize (G HP). cbv zeta in G. destruct G as (G1 & _ & G3).
  unfold pick_ids. cbv zeta. rewrite G3; [|rewrite G1; exact Hi]. split; [intros [[]|H]; exact H|auto].
Qed.
Lemma ids_gen o dt cam : 0 < dt -> forall l s ids, NoDup (map fst l) -> spaced dt (sc_poses s) -> StronglySorted Rlt (sc_poses s) ->
  let r := fold_left (ids_step o dt) l (s, ids) in let s' := fold_left (scan_step o dt) l s in
  fst r = s' /\ (StronglySorted lt ids -> StronglySorted lt (snd r)) /\
  (In cam (snd r) <-> In cam ids \/ exists e ts t, In e l /\ usable o (num_of s' (fst e)) = true /\ In (cam, ts) (f_ts (snd e)) /\ In t ts /\ In t (sc_poses s')).
Proof.
  intros Hd. induction l as [|e l IH]; intros s ids Nd Hs Ho; cbn [fold_left]; cbv zeta.
  - split; [reflexivity|]. split; [auto|]. split; [auto|]. intros [H|(e & ts & t & [] & _)]; exact H.
  - cbn [map] in Nd. inversion Nd as [|? ? Ne Nd']; subst. unfold ids_step at 2 4 6. cbv zeta. cbn [fst snd]. set (times := pick dt (sc_poses s) (snd e)).
    set (s1 := scan_step o dt s e). destruct (pick_spec dt (sc_poses s) (snd e) Hd Hs) as (P1 & _ & _). fold times in P1.
    assert (EN : num_of (fold_left (scan_step o dt) l s1) (fst e) = length times). { rewrite scan_num_other by exact Ne. unfold s1. rewrite step_num, Nat.eqb_refl. reflexivity. }
    assert (Q : spaced dt (sc_poses s1) /\ StronglySorted Rlt (sc_poses s1)).
    { unfold s1, scan_step. fold times. destruct (usable o (length times)); cbn [sc_poses]; [|auto]. split; [|apply tins_all_sorted, Ho].
      intros x y Hx Hy. apply tins_all_in in Hx. apply tins_all_in in Hy. apply P1; apply in_or_app; tauto. }
    destruct Q as [Q1 Q2]. set (ids1 := if usable o (length times) then fold_left (fun l c => nins c l) (pick_ids dt (sc_poses s) (snd e)) ids else ids).
    specialize (IH s1 ids1 Nd' Q1 Q2). cbv zeta in IH. destruct IH as (A1 & A2 & A3).
    destruct (scan_inv o dt l Hd Nd' s1 Q1 Q2) as (B1 & _ & B3 & _). set (s' := fold_left (scan_step o dt) l s1) in *.
    split; [exact A1|]. split. { intros H. apply A2. unfold ids1. destruct (usable o (length times)); [apply nins_all_sorted, H|exact H]. }
    rewrite A3. unfold ids1. destruct (usable o (length times)) eqn:U.
    + assert (Hi : incl (sc_poses s ++ times) (sc_poses s')).
      { intros x Hx. apply B3. unfold s1, scan_step. fold times. rewrite U. cbn [sc_poses]. apply tins_all_in. apply in_app_or in Hx. tauto. }
      rewrite nins_all, (pick_ids_spec dt _ _ (sc_poses s') cam Hd Hs B1 Hi). split.
      * intros [[(ts & t & C1 & C2 & C3)|H]|(e' & ts & t & C1 & C2)]; [right; exists e, ts, t; rewrite EN; repeat split; auto; left; auto|auto|right; exists e', ts, t; split; [right; exact C1|exact C2]].
      * intros [H|(e' & ts & t & [<-|C1] & C2 & C3 & C4 & C5)]; [auto|left; left; exists ts, t; auto|right; exists e', ts, t; auto].
    + split.
      * intros [H|(e' & ts & t & C1 & C2)]; [auto|right; exists e', ts, t; split; [right; exact C1|exact C2]].
      * intros [H|(e' & ts & t & [<-|C1] & C2 & C3)]; [auto|rewrite EN, U in C2; discriminate|right; exists e', ts, t; auto].
Qed.
Lemma camera_ids_spec o d tn : NoDup (map fst d) -> 0 < yo_window o -> (0 <= yo_npose o)%Z -> let s := scan o d tn in
  StronglySorted lt (camera_ids o d tn) /\ forall cam, In cam (camera_ids o d tn) <-> exists e ts t, In e d /\ usable o (num_of s (fst e)) = true /\ In (cam, ts) (f_ts (snd e)) /\ In t ts /\ In t (sc_poses s).
Proof.
  intros Nd W N s. assert (S0 : spaced (pose_dt o) [tn]) by (intros x y [<-|[]] [<-|[]] X; contradiction).
  assert (G : forall cam, StronglySorted lt (camera_ids o d tn) /\ (In cam (camera_ids o d tn) <-> exists e ts t, In e d /\ usable o (num_of s (fst e)) = true /\ In (cam, ts) (f_ts (snd e)) /\ In t ts /\ In t (sc_poses s))).
  { intros cam. pose proof (ids_gen o (pose_dt o) cam (pose_dt_pos o W N) d (mkSc [] 0 None [tn] 0) [] Nd S0 ltac:(repeat constructor)) as G. cbv zeta in G. destruct G as (_ & G2 & G3).
    split; [apply G2; constructor|]. unfold camera_ids. rewrite G3. split; [intros [[]|H]; exact H|auto]. }
  split; [apply (G 0%nat)|]. intros cam. apply G.
Qed.

(** ** indices *)
Lemma index_nth {A} (eqb : A -> A -> bool) : (forall a b, eqb a b = true <-> a = b) -> forall l i x, NoDup l -> nth_error l i = Some x -> index eqb x l = Ok i.
Proof.
  intros He. induction l as [|y l IH]; intros [|i] x Nd H; cbn [nth_error index] in *; try discriminate; inversion Nd; subst.
  - injection H as ->. rewrite (proj2 (He x x) eq_refl). reflexivity.
  - destruct (eqb x y) eqn:E; [apply He in E; subst; apply nth_error_In in H; contradiction|]. rewrite (IH i x) by auto. reflexivity.
Qed.
Lemma Reqb_iff a b : Reqb a b = true <-> a = b. Proof. destruct (Reqb_spec a b); intuition discriminate. Qed.
Lemma index_in {A} (eqb : A -> A -> bool) : (forall a b, eqb a b = true <-> a = b) -> forall l x, In x l -> exists i, index eqb x l = Ok i /\ nth_error l i = Some x.
Proof.
  intros He. induction l as [|y l IH]; intros x []; cbn [index].
  - subst. rewrite (proj2 (He x x) eq_refl). exists O. auto.
  - destruct (eqb x y) eqn:E; [apply He in E; subst; exists O; auto|]. destruct (IH x H) as (i & -> & Hi). exists (S i). auto.
Qed.

(** ** the preintegrations *)
Lemma preint_all_spec o data old : forall P lt cs, NoDup P -> preint_all o data old lt P = Ok (Some cs) ->
  map fst cs = P /\ forall i t, nth_error P i = Some t ->
    (t = old -> find (fun c => Reqb (fst c) t) cs = Some (t, None)) /\
    (t <> old -> exists c0 c1, find (fun c => Reqb (fst c) t) cs = Some (t, Some (c0, c1)) /\ preint o data (match i with O => lt | S j => nth j P 0 end) t = Ok (Some c1)).
Proof.
  induction P as [|t P IH]; intros lt cs Nd E; cbn [preint_all] in E.
  - injection E as <-. split; [reflexivity|]. intros [|i] t H; discriminate.
  - inversion Nd as [|? ? Nt Nd']; subst. unfold otry in E.
    assert (G : exists x r, preint_all o data old t P = Ok (Some r) /\ cs = (t, x) :: r /\ (t = old -> x = None) /\ (t <> old -> exists c0 c1, x = Some (c0, c1) /\ preint o data lt t = Ok (Some c1))).
    { destruct (Reqb_spec t old) as [Q|Q].
      - apply obind_ok in E. destruct E as ([r|] & Er & E); [|discriminate]. injection E as <-. exists None, r. split; [exact Er|]. split; [reflexivity|]. split; [auto|contradiction].
      - apply obind_ok in E. destruct E as ([c0|] & E0 & E); [|discriminate]. apply obind_ok in E. destruct E as ([c1|] & E1 & E); [|discriminate]. apply obind_ok in E. destruct E as ([r|] & Er & E); [|discriminate].
        injection E as <-. exists (Some (c0, c1)), r. split; [exact Er|]. split; [reflexivity|]. split; [contradiction|]. intros _. exists c0, c1. auto. }
    destruct G as (x & r & Er & -> & G1 & G2). destruct (IH t r Nd' Er) as [I1 I2]. split; [cbn [map]; rewrite I1; reflexivity|].
    intros [|i] u H; cbn [nth_error] in H.
    + injection H as <-. cbn [find fst]. destruct (Reqb_spec t t); [|contradiction]. split; [intros Q; rewrite (G1 Q); reflexivity|]. intros Q. destruct (G2 Q) as (c0 & c1 & -> & C). exists c0, c1. auto.
    + cbn [find fst]. destruct (Reqb_spec t u) as [->|_]; [apply nth_error_In in H; contradiction|]. destruct (I2 i u H) as [J1 J2]. split; [exact J1|]. intros Q. destruct (J2 Q) as (c0 & c1 & C1 & C2).
      exists c0, c1. split; [exact C1|]. destruct i as [|i]; [exact C2|]. exact C2.
Qed.
Lemma run_q : forall l c, cp_q c <> None -> cp_q (cpi_run c l) <> None.
Proof.
  induction l as [|r l IH]; intros c H; [exact H|]. cbn [cpi_run fold_left]. fold (cpi_run (cpi_feed c r) l). apply IH. unfold cpi_feed. cbv zeta. destruct (Reqb _ 0); cbn [cp_q]; [exact H|discriminate].
Qed.
Lemma chrono_q c rd : chrono rd -> (2 <= length rd)%nat -> cp_q (cpi_run c (pairs_of rd)) <> None.
Proof.
  destruct rd as [|a [|b rd]]; cbn [length]; try lia. intros [C _] _. specialize (C b (or_introl eq_refl)).
  change (pairs_of (a :: b :: rd)) with (mkRd (i_t a) (i_t b) (i_w a) (i_a a) (i_w b) (i_a b) :: pairs_of (b :: rd)). cbn [cpi_run fold_left]. fold (cpi_run (cpi_feed c (mkRd (i_t a) (i_t b) (i_w a) (i_a a) (i_w b) (i_a b))) (pairs_of (b :: rd))).
  apply run_q. unfold cpi_feed. cbv zeta. cbn [rd_t0 rd_t1]. destruct (Reqb_spec (i_t b - i_t a) 0); [lra|]. discriminate.
Qed.
Lemma preint_mean o data a b c : a < b -> chrono data -> preint o data a b = Ok (Some c) -> exists l q, span o data a b l /\ c = mean_of o l /\ cp_q c = Some q.
Proof.
  intros L C E. destruct (preint_span _ _ _ _ _ E) as (rd & E1 & -> & Ln & _).
  destruct (select_good (fun _ => True) (fun _ _ _ _ _ _ _ => I) data (a + yo_dt o) (b + yo_dt o) rd ltac:(lra) C (fun _ _ => I) E1) as [Ch _].
  pose proof (chrono_q (cpi_new true (yo_Qc o) (yo_bg o) (yo_ba o)) rd Ch Ln) as Q. destruct (cp_q _) as [q|] eqn:Eq; [|contradiction].
  exists (pairs_of rd), q. split; [exists rd; auto|]. split; [reflexivity|reflexivity].
Qed.

(** ** the guess *)
Lemma core_inv L o d data tn gu : dyn_core L o d data tn = Ok (Some gu) -> let s := scan o d tn in
  map ptime (gu_poses gu) = sc_poses s /\ (forall id, In id (map fst (gu_feats gu)) -> usable o (num_of s id) = true) /\
  exists old cs, sc_old s = Some old /\ old < tn /\ preint_all o data old 0 (sc_poses s) = Ok (Some cs).
Proof.
  intros E s. split; [apply (core_poses _ _ _ _ _ _ E)|]. revert E. unfold dyn_core. cbv zeta. fold s. destruct (Z.ltb_spec (Z.of_nat (length (sc_poses s))) (yo_npose o)) as [L1|L1]; [discriminate|].
  destruct (sc_cnt s <? 8)%nat; [discriminate|]. destruct (sc_old s) as [old|]; [|discriminate]. intros E. apply obind_ok in E. destruct E as (rd & _ & E).
  apply guard_ok in E; [|discriminate]. destruct E as [_ E]. destruct (Rltb _ (yo_deg o)); [discriminate|]. destruct (sc_meas s <? _)%nat; [discriminate|].
  apply guard_ok in E; [|discriminate]. destruct E as [Lo E]. unfold otry in E. apply obind_ok in E. destruct E as (cs & Ec & E). destruct cs as [cs|]; [|discriminate].
  apply obind_ok in E. destruct E as (rows & _ & E). apply guard_ok in E; [|discriminate]. destruct E as [_ E]. destruct (solve _ _ _ _ _ _) as [[x g]|]; [|discriminate].
  apply obind_ok in E. destruct E as (fs & Ef & E). destruct (length fs <? 8)%nat; [discriminate|]. apply obind_ok in E. destruct E as (Rg & _ & E). injection E as <-. cbn [gu_feats].
  split.
  - intros id H. rewrite map_map in H. cbn [fst] in H. apply in_map_iff in H. destruct H as ([i p] & <- & H). destruct (guess_feats_spec _ _ _ _ _ Ef i p H) as (k & f & H1 & _).
    apply nth_error_In in H1. unfold valid_feats in H1. apply filter_In in H1. apply H1.
  - exists old, cs. destruct (Rltb_spec old tn); [auto|discriminate].
Qed.

(** ** the states *)
Lemma nodup_snoc {A} (l : list A) x l' : NoDup (l ++ x :: l') -> NoDup (l ++ [x]).
Proof.
  induction l as [|y l IH]; cbn [app]; intros H; inversion H; subst; [repeat constructor; auto|]. constructor; [|auto].
  intros X. apply H2. apply in_app_or in X. apply in_or_app. destruct X as [X|[<-|[]]]; [auto|right; left; auto].
Qed.
Lemma states_loop F o cs : forall l D e0 terms, (forall e, In e (e0 :: l) -> ptime e <> -1) -> NoDup (map ptime (D ++ e0 :: l)) ->
  (forall e, In e l -> exists c0 c1 f, find (fun c => Reqb (fst c) (ptime e)) cs = Some (ptime e, Some (c0, c1)) /\ imu_factor (fa_solve F) (fa_chol F) (up_gravity o) c1 = Ok f) ->
  exists lt ts, ofold (state_step F o cs) l (ptime e0, map ptime (D ++ [e0]), map (start_of o) (D ++ [e0]), terms) = Ok (lt, map ptime (D ++ e0 :: l), map (start_of o) (D ++ e0 :: l), terms ++ ts) /\
    length ts = length l /\ forall i t, nth_error ts i = Some t -> exists e c0 c1 f, nth_error l i = Some e /\ find (fun c => Reqb (fst c) (ptime e)) cs = Some (ptime e, Some (c0, c1)) /\
      imu_factor (fa_solve F) (fa_chol F) (up_gravity o) c1 = Ok f /\ t = TImu f (length D + i) (S (length D + i)).
Proof.
  induction l as [|e l IH]; intros D e0 terms Hm Nd Hc.
  - cbn [ofold]. exists (ptime e0), []. rewrite app_nil_r. split; [reflexivity|]. split; [reflexivity|]. intros [|i] t H; discriminate.
  - cbn [ofold]. destruct (Hc e (or_introl eq_refl)) as (c0 & c1 & f & Ef & Ei). destruct e as [[[t q] p] v]. cbn [ptime fst] in Ef.
    unfold state_step at 1. rewrite Ef. destruct (map ptime (D ++ [e0])) as [|z zs] eqn:Ez. { rewrite map_app in Ez. destruct (map ptime D); discriminate. }
    cbn [obind]. rewrite <- Ez. unfold guard. destruct (Reqb_spec (ptime e0) (-1)) as [Q|_]; [exfalso; apply (Hm e0 (or_introl eq_refl) Q)|]. cbn [negb].
    assert (N1 : NoDup (map ptime (D ++ [e0]) ++ [t])).
    { rewrite map_app. cbn [map]. rewrite <- app_assoc. cbn [app]. rewrite map_app in Nd. cbn [map] in Nd. replace (map ptime D ++ ptime e0 :: [t]) with ((map ptime D ++ [ptime e0]) ++ [t]) by (rewrite <- app_assoc; reflexivity).
      apply nodup_snoc with (l' := map ptime l). rewrite <- app_assoc. exact Nd. }
    assert (J1 : nth_error (map ptime (D ++ [e0]) ++ [t]) (length D) = Some (ptime e0)).
    { rewrite map_app, <- app_assoc. rewrite nth_error_app2 by (rewrite map_length; lia). rewrite map_length, Nat.sub_diag. reflexivity. }
    assert (J2 : nth_error (map ptime (D ++ [e0]) ++ [t]) (S (length D)) = Some t).
    { rewrite nth_error_app2 by (rewrite map_length, app_length; simpl; lia). rewrite map_length, app_length. cbn [length]. replace (S (length D) - (length D + 1))%nat with 0%nat by lia. reflexivity. }
    rewrite (index_nth Reqb Reqb_iff _ _ _ N1 J1). cbn [obind]. rewrite (index_nth Reqb Reqb_iff _ _ _ N1 J2). cbn [obind]. rewrite Ei. cbn [obind app].
    destruct (IH (D ++ [e0]) (t, q, p, v) (terms ++ [TImu f (length D) (S (length D))])) as (lt & ts & E & Ln & Ht).
    { intros e He. apply Hm. right. exact He. }
    { rewrite <- app_assoc. exact Nd. }
    { intros e He. apply Hc. right. exact He. }
    exists lt, (TImu f (length D) (S (length D)) :: ts). rewrite <- !app_assoc in E. cbn [app] in E. split; [|split].
    + replace (map ptime (D ++ [e0]) ++ [t]) with (map ptime (D ++ [e0; (t, q, p, v)])) by (rewrite !map_app; rewrite <- app_assoc; reflexivity).
      replace (map (start_of o) (D ++ [e0]) ++ [mkCl q (yo_bg o) v (yo_ba o) p]) with (map (start_of o) (D ++ [e0; (t, q, p, v)])) by (rewrite !map_app; rewrite <- app_assoc; reflexivity).
      exact E.
    + cbn [length]. congruence.
    + intros [|i] u H; cbn [nth_error] in H.
      * injection H as <-. exists (t, q, p, v), c0, c1, f. rewrite Nat.add_0_r. auto.
      * destruct (Ht i u H) as (e & x0 & x1 & g & A & B & C & ->). exists e, x0, x1, g. rewrite app_length. cbn [length]. replace (length D + 1 + i)%nat with (length D + S i)%nat by lia. auto.
Qed.

(** ** the cameras' priors *)
Lemma prior_new_fine F n ng x ts I : forallb known ts = true -> n = CeresModel.total psize ts -> ng = CeresModel.total perr ts -> factors F ng I -> exists f, prior_new (fa_llt F) (fa_tri F) n ng ng x ts I (fun _ => 0) = Ok f.
Proof.
  intros K -> -> (L & J & E1 & _ & E2). unfold prior_new, guard. rewrite K, !Nat.eqb_refl. cbn [andb]. rewrite E1, E2. eexists; reflexivity.
Qed.
Lemma cams_loop F o : factors F 6 ext_info -> factors F 8 int_info -> forall l cams es ks terms,
  (forall cam, In cam l -> (exists e, alook (yo_ext (mo_y o)) cam = Some e) /\ exists k, alook (mo_int o) cam = Some k) ->
  exists es' ks' ts, ofold (cam_step F o) l (cams, es, ks, terms) = Ok (cams ++ l, es ++ es', ks ++ ks', terms ++ ts) /\
    Forall2 (fun cam e => alook (yo_ext (mo_y o)) cam = Some e) l es' /\ Forall2 (fun cam k => exists m, alook (mo_int o) cam = Some (m, k)) l ks' /\
    length ts = (2 * length l)%nat /\
    forall c cam, nth_error l c = Some cam -> exists e m k fe fk, alook (yo_ext (mo_y o)) cam = Some e /\ alook (mo_int o) cam = Some (m, k) /\
      nth_error ts (2 * c) = Some (TExt fe (length cams + c)) /\ prior_new (fa_llt F) (fa_tri F) 7 6 6 (ext_lin e) [PQuat; PVec 3] ext_info (fun _ => 0) = Ok fe /\
      nth_error ts (S (2 * c)) = Some (TInt fk (length cams + c)) /\ prior_new (fa_llt F) (fa_tri F) 8 8 8 k [PVec 8] int_info (fun _ => 0) = Ok fk.
Proof.
  intros F6 F8. induction l as [|cam l IH]; intros cams es ks terms H; cbn [ofold].
  - exists [], [], []. rewrite !app_nil_r. split; [reflexivity|]. split; [constructor|]. split; [constructor|]. split; [reflexivity|]. intros [|c] x E; discriminate.
  - destruct (H cam (or_introl eq_refl)) as [(e & Ee) ([m k] & Ek)]. unfold cam_step at 1. rewrite Ee.
    destruct (prior_new_fine F 7 6 (ext_lin e) [PQuat; PVec 3] ext_info eq_refl eq_refl eq_refl F6) as (fe & Efe). rewrite Efe. cbn [obind]. rewrite Ek.
    destruct (prior_new_fine F 8 8 k [PVec 8] int_info eq_refl eq_refl eq_refl F8) as (fk & Efk). rewrite Efk. cbn [obind].
    destruct (IH (cams ++ [cam]) (es ++ [e]) (ks ++ [k]) (terms ++ [TExt fe (length cams); TInt fk (length cams)])) as (es' & ks' & ts & E & A1 & A2 & A3 & A4); [intros c Hc; apply H; right; exact Hc|].
    exists (e :: es'), (k :: ks'), (TExt fe (length cams) :: TInt fk (length cams) :: ts). rewrite <- !app_assoc in E. cbn [app] in E. split; [exact E|].
    split; [constructor; auto|]. split; [constructor; eauto|]. split; [cbn [length]; rewrite A3; lia|].
    intros [|c] x Hx; cbn [nth_error] in Hx.
    + injection Hx as <-. exists e, m, k, fe, fk. rewrite Nat.add_0_r. repeat split; auto.
    + destruct (A4 c x Hx) as (e' & m' & k' & fe' & fk' & B1 & B2 & B3 & B4 & B5 & B6). exists e', m', k', fe', fk'. rewrite app_length in B3, B5. cbn [length] in B3, B5.
      replace (2 * S c)%nat with (S (S (2 * c))) by lia. cbn [nth_error]. replace (length cams + S c)%nat with (length cams + 1 + c)%nat by lia. repeat split; auto.
Qed.

(** ** the observations *)
Section Obs.
Variables (o : mopts) (times : list R) (cams : list nat) (gf : list (nat * v3)).
Hypothesis Nt : NoDup times.
Hypothesis Nc : NoDup cams.
Definition good (S : list sight) (a : list nat * list v3 * list term) : Prop :=
  let '(ids, fs, terms) := a in
  NoDup ids /\ Forall2 (fun id p => In (id, p) gf) ids fs /\ map (about times ids cams) terms = map Some S /\ Forall (img_term o cams) terms /\
  forall id, In id ids <-> exists s, In s S /\ fst (fst (fst s)) = id.
Lemma about_more ids x t s : about times ids cams t = Some s -> about times (ids ++ x) cams t = Some s.
Proof.
  destruct t; cbn [about]; try discriminate. destruct (nth_error ids k) as [id|] eqn:E; [|discriminate]. rewrite nth_error_app1 by (apply nth_error_Some; congruence). rewrite E. auto.
Qed.
Lemma map_more ids x terms S : map (about times ids cams) terms = map Some S -> map (about times (ids ++ x) cams) terms = map Some S.
Proof.
  revert S. induction terms as [|t terms IH]; intros [|s S] H; cbn [map] in *; try discriminate; auto. injection H as H1 H2. rewrite (about_more _ x _ _ H1), (IH _ H2). reflexivity.
Qed.
Lemma Nat_eqb_iff a b : Nat.eqb a b = true <-> a = b. Proof. apply Nat.eqb_eq. Qed.
Lemma obs_loop id cam model kv p : In (id, p) gf -> alook (mo_int o) cam = Some (model, kv) -> forall ts us ns S a, length us = length ts -> length ns = length ts ->
  (forall t, In t ts -> In t times -> In cam cams) -> good S a ->
  exists a', obs_terms o times cams id cam model p ts us a = Ok a' /\
    good (S ++ map (fun ob : obs => (id, cam, otime ob, snd (fst ob))) (filter (fun ob => tfind times (otime ob)) (zip3 ts us ns))) a'.
Proof.
  intros Hg Hk. induction ts as [|t ts IH]; intros us ns S a Lu Ln Hc G.
  - cbn [obs_terms zip3 filter map]. exists a. rewrite app_nil_r. auto.
  - destruct us as [|u us]; [discriminate|]. destruct ns as [|n ns]; [discriminate|]. cbn [length] in Lu, Ln. injection Lu as Lu. injection Ln as Ln. cbn [obs_terms zip3 filter tl]. change (otime (t, u, n)) with t.
    destruct (tfind times t) eqn:T; [|apply IH; auto; intros x Hx; apply Hc; right; exact Hx].
    cbn [map fst snd]. apply tfind_in in T. destruct a as [[ids fs] terms]. destruct G as (G1 & G2 & G3 & G4 & G5).
    destruct (index_in Reqb Reqb_iff times t T) as (i & Ei & Hi). destruct (index_in Nat.eqb Nat_eqb_iff cams cam (Hc t (or_introl eq_refl) T)) as (c & Ec & Hcc).
    set (r := if existsb (Nat.eqb id) ids then (ids, fs) else (ids ++ [id], fs ++ [p])).
    assert (R : let '(ids', fs') := r in NoDup ids' /\ Forall2 (fun id p => In (id, p) gf) ids' fs' /\ map (about times ids' cams) terms = map Some S /\ In id ids' /\ (forall x, In x ids' <-> In x ids \/ x = id)).
    { unfold r. destruct (existsb (Nat.eqb id) ids) eqn:X.
      - apply existsb_exists in X. destruct X as (x & X1 & X2). apply Nat.eqb_eq in X2. subst x. split; [exact G1|]. split; [exact G2|]. split; [exact G3|]. split; [exact X1|]. intros x. split; [auto|intros [H| ->]; auto].
      - assert (X' : ~ In id ids). { intros H. assert (existsb (Nat.eqb id) ids = true) by (apply existsb_exists; exists id; split; [exact H|apply Nat.eqb_refl]). congruence. }
        split; [|split; [|split; [|split]]].
        + clear -G1 X'. induction ids as [|y ids IHi]; [repeat constructor; auto|]. inversion G1; subst. cbn [app]. constructor; [intros H; apply in_app_or in H; destruct H as [H|[<-|[]]]; [contradiction|apply X'; left; auto]|]. apply IHi; auto. intros H; apply X'; right; auto.
        + apply Forall2_app; [exact G2|constructor; auto].
        + apply map_more, G3.
        + apply in_or_app; right; left; auto.
        + intros x. rewrite in_app_iff. simpl. intuition. }
    destruct r as [ids' fs'] eqn:Er. destruct R as (R1 & R2 & R3 & R4 & R5). destruct (index_in Nat.eqb Nat_eqb_iff ids' id R4) as (k & Ek & Hk').
    rewrite Ei, Ek, Ec. cbn [obind]. set (tm := TImg (mkIF (vec2 (fst u) (snd u)) (mo_sigma o) model 1) i k c).
    destruct (IH us ns (S ++ [(id, cam, t, u)]) (ids', fs', terms ++ [tm]) Lu Ln) as (a' & Ea & Ga).
    { intros x Hx. apply Hc. right. exact Hx. }
    { split; [exact R1|]. split; [exact R2|]. split; [|split].
      - rewrite !map_app, R3. cbn [map]. f_equal. unfold tm. cbn [about]. rewrite Hk', Hcc, Hi. cbn [im_uv]. unfold vec2. destruct u; reflexivity.
      - apply Forall_app. split; [exact G4|]. constructor; [|constructor]. unfold tm. eexists _, i, k, c, cam, model, kv. split; [reflexivity|]. cbn [im_sigma im_cam im_gate]. auto.
      - intros x. rewrite R5, G5. split.
        + intros [(s & A & B)| ->]; [exists s; split; [apply in_or_app; auto|exact B]|]. exists (id, cam, t, u). split; [apply in_or_app; right; left; auto|reflexivity].
        + intros (s & A & B). apply in_app_or in A. destruct A as [A|[<-|[]]]; [left; exists s; auto|right; symmetry; exact B]. }
    exists a'. rewrite <- app_assoc in Ga. split; [exact Ea|exact Ga].
Qed.
Lemma cams_obs id f p : feat_ok f -> In (id, p) gf -> (forall cam ts, In (cam, ts) (f_ts f) -> exists k, alook (mo_int o) cam = Some k) ->
  (forall cam ts t, In (cam, ts) (f_ts f) -> In t ts -> In t times -> In cam cams) -> forall l, incl l (f_ts f) -> forall S a, good S a ->
  exists a', ofold (fun a ct => match alook (mo_int o) (fst ct) with None => UB | Some (model, _) => obs_terms o times cams id (fst ct) model p (snd ct) (aget (f_uvs f) (fst ct)) a end) l a = Ok a' /\
    good (S ++ flat_map (fun cam => map (fun ob : obs => (id, cam, otime ob, snd (fst ob))) (filter (fun ob => tfind times (otime ob)) (ftrack f cam))) (map fst l)) a'.
Proof.
  intros [Nd Pa] Hg Hk Hc. induction l as [|[cam ts] l IH]; intros Hi S a G; cbn [ofold map flat_map].
  - exists a. rewrite app_nil_r. auto.
  - cbn [fst snd]. assert (Hin : In (cam, ts) (f_ts f)) by (apply Hi; left; auto). destruct (Hk cam ts Hin) as ([m kv] & Ek). rewrite Ek.
    assert (Et : alook (f_ts f) cam = Some ts) by (apply alook_in; auto). pose proof (Pa cam) as Pc. rewrite Et in Pc.
    destruct (alook (f_uvs f) cam) as [us|] eqn:Eu; [|contradiction]. destruct (alook (f_uvn f) cam) as [ns|] eqn:En; [|contradiction]. destruct Pc as [L1 L2].
    assert (Ft : ftrack f cam = zip3 ts us ns) by (unfold ftrack, aget; rewrite Et, Eu, En; reflexivity). assert (Au : aget (f_uvs f) cam = us) by (unfold aget; rewrite Eu; reflexivity). rewrite Ft, Au.
    destruct (obs_loop id cam m kv p Hg Ek ts us ns S a L1 L2) as (a' & Ea & Ga); [intros t; apply (Hc cam ts t Hin)|exact G|]. rewrite Ea. cbn [obind].
    destruct (IH (fun x Hx => Hi x (or_intror Hx)) _ a' Ga) as (a2 & E2 & G2). exists a2. rewrite <- app_assoc in G2. split; [exact E2|exact G2].
Qed.
Lemma feats_loop s : (forall id, In id (map fst gf) -> usable (mo_y o) (num_of s id) = true) -> forall d, (forall id f, In (id, f) d -> feat_ok f) -> ints_known o d ->
  (forall id f cam ts t, In (id, f) d -> usable (mo_y o) (num_of s id) = true -> In (cam, ts) (f_ts f) -> In t ts -> In t times -> In cam cams) -> forall S a, good S a ->
  exists a', ofold (feat_step o s times cams gf) d a = Ok a' /\ good (S ++ wanted d times (map fst gf)) a'.
Proof.
  intros Hu. induction d as [|[id f] d IH]; intros Fk Ik Hc S a G; cbn [ofold].
  - exists a. cbn [wanted flat_map]. rewrite app_nil_r. auto.
  - assert (X : exists a1, feat_step o s times cams gf a (id, f) = Ok a1 /\ good (S ++ (if existsb (Nat.eqb id) (map fst gf) then
        flat_map (fun cam => map (fun ob : obs => (id, cam, otime ob, snd (fst ob))) (filter (fun ob => tfind times (otime ob)) (ftrack f cam))) (map fst (f_ts f)) else [])) a1).
    { unfold feat_step. cbn [fst snd]. fold (num_of s id). destruct (find (fun g => Nat.eqb (fst g) id) gf) as [[id' p]|] eqn:Ef.
      - apply find_some in Ef. destruct Ef as [E1 E2]. cbn [fst] in E2. apply Nat.eqb_eq in E2. subst id'.
        assert (In id (map fst gf)) as Hm by (apply in_map_iff; exists (id, p); auto). rewrite (Hu id Hm).
        replace (existsb (Nat.eqb id) (map fst gf)) with true by (symmetry; apply existsb_exists; exists id; split; [exact Hm|apply Nat.eqb_refl]).
        apply cams_obs; [apply (Fk id); left; auto|exact E1|intros cam ts; apply (Ik id f); left; auto|intros cam ts t; apply (Hc id f); [left; auto|apply Hu, Hm]|apply incl_refl|exact G].
      - replace (existsb (Nat.eqb id) (map fst gf)) with false.
        + exists a. rewrite app_nil_r. destruct (usable (mo_y o) (num_of s id)); auto.
        + symmetry. apply not_true_iff_false. intros H. apply existsb_exists in H. destruct H as (x & H1 & H2). apply Nat.eqb_eq in H2. subst x. apply in_map_iff in H1. destruct H1 as ([y p] & H3 & H4).
          pose proof (find_none _ _ Ef _ H4) as X. cbv beta in X. rewrite H3, Nat.eqb_refl in X. discriminate. }
    destruct X as (a1 & E1 & G1). rewrite E1. cbn [obind].
    destruct (IH (fun i g H => Fk i g (or_intror H)) (fun i g c t H => Ik i g c t (or_intror H)) (fun i g c u t H => Hc i g c u t (or_intror H)) _ a1 G1) as (a2 & E2 & G2).
    exists a2. split; [exact E2|]. cbn [wanted flat_map fst snd]. rewrite <- app_assoc in G2. exact G2.
Qed.
End Obs.

(** ** all of it *)
Lemma sorted_nodup l : StronglySorted Rlt l -> NoDup l.
Proof. induction 1 as [|a l H IH Hf]; constructor; auto. intros X. rewrite Forall_forall in Hf. specialize (Hf a X). lra. Qed.
Lemma sorted_lt_nodup l : StronglySorted lt l -> NoDup l.
Proof. induction 1 as [|a l H IH Hf]; constructor; auto. intros X. rewrite Forall_forall in Hf. specialize (Hf a X). lia. Qed.
Lemma sorted_next P : forall i, StronglySorted Rlt P -> (S i < length P)%nat -> exists a b, next_to P i a b /\ a < b.
Proof.
  induction P as [|x P IH]; intros i So Hi; cbn [length] in Hi; [lia|]. inversion So as [|? ? So' Hf]; subst. destruct i as [|i].
  - destruct P as [|y P]; [cbn [length] in Hi; lia|]. exists x, y. split; [split; reflexivity|]. rewrite Forall_forall in Hf. apply Hf. left; auto.
  - destruct (IH i So' ltac:(lia)) as (a & b & [A B] & C). exists a, b. split; [split; assumption|exact C].
Qed.
Lemma head_min P old : StronglySorted Rlt P -> In old P -> (forall t, In t P -> old <= t) -> exists P', P = old :: P'.
Proof.
  intros So Hin Hm. destruct P as [|x P]; [destruct Hin|]. inversion So as [|? ? _ Hf]; subst. rewrite Forall_forall in Hf. destruct Hin as [->|Hin]; [eexists; reflexivity|].
  specialize (Hf _ Hin). specialize (Hm x (or_introl eq_refl)). lra.
Qed.
Lemma ftrack_in f cam ts t : feat_ok f -> In (cam, ts) (f_ts f) -> In t ts -> exists ob, In ob (ftrack f cam) /\ otime ob = t.
Proof.
  intros [Nd Pa] Hi Ht. assert (Et : alook (f_ts f) cam = Some ts) by (apply alook_in; auto). specialize (Pa cam). rewrite Et in Pa. unfold ftrack, aget. rewrite Et.
  destruct (alook (f_uvs f) cam) as [us|]; [|contradiction]. destruct (alook (f_uvn f) cam) as [ns|]; [|contradiction]. destruct Pa as [L1 L2].
  revert us ns L1 L2. clear Et Hi. induction ts as [|x ts IH]; intros [|u us] [|n ns] L1 L2; try discriminate; [destruct Ht|]. cbn [zip3]. destruct Ht as [->|Ht].
  - exists (t, u, n). split; [left; auto|reflexivity].
  - destruct (IH Ht us ns) as (ob & A & B); [cbn [length] in *; lia..|]. exists ob. split; [right; exact A|exact B].
Qed.
Lemma build_gen F o d data tn gu old cs : let y := mo_y o in db_ok d -> 0 < yo_window y -> (0 <= yo_npose y)%Z -> chrono data -> 0 <= tn - yo_window y -> (forall t, measured d t -> tn - yo_window y < t <= tn) ->
  cams_known y d -> ints_known o d -> let s := scan y d tn in map ptime (gu_poses gu) = sc_poses s -> (forall id, In id (map fst (gu_feats gu)) -> usable y (num_of s id) = true) ->
  sc_old s = Some old -> old < tn -> preint_all y data old 0 (sc_poses s) = Ok (Some cs) -> priors_ok F -> spans_ok F y data (map ptime (gu_poses gu)) ->
  exists pr, assemble F o d data tn gu = Ok pr /\ In tn (pr_times pr) /\ built F o d data gu pr.
Proof.
  intros y Dk W N Ch Tn Hm Kc Ki s E1 E2 E3 E4 E5 (F10 & F6 & F8) Sp.
  pose proof (scan_facts y d tn Dk W N Hm) as X. cbv zeta in X. fold s in X. destruct X as (X1 & X2 & X3 & X4 & X5 & X6 & X7).
  set (P := sc_poses s) in *. pose proof (sorted_nodup _ X2) as NP.
  assert (Hb : forall t, In t P -> tn - yo_window y < t <= tn). { intros t Ht. destruct (X4 t Ht) as [->|M]; [lra|apply Hm, M]. }
  destruct (head_min P old X2 (X5 old E3)) as (P' & EP).
  { intros t Ht. destruct (Req_dec t tn) as [->|Q]; [lra|]. destruct (X6 t Ht Q) as (m & M1 & M2). rewrite E3 in M1. injection M1 as <-. exact M2. }
  destruct (preint_all_spec y data old P 0 cs NP E5) as [C1 C2].
  destruct (gu_poses gu) as [|e0 l] eqn:Egu; [cbn [map] in E1; rewrite EP in E1; discriminate|].
  assert (Ee0 : ptime e0 = old) by (cbn [map] in E1; rewrite EP in E1; injection E1; auto). assert (El : map ptime l = P') by (cbn [map] in E1; rewrite EP in E1; injection E1; auto).
  (* factors between the poses *)
  assert (Fac : forall i e, nth_error l i = Some e -> exists c0 c1 a r f, find (fun c => Reqb (fst c) (ptime e)) cs = Some (ptime e, Some (c0, c1)) /\ next_to P i a (ptime e) /\ span y data a (ptime e) r /\ c1 = mean_of y r /\
     imu_factor (fa_solve F) (fa_chol F) (up_gravity y) c1 = Ok f).
  { intros i e He. assert (Hn : nth_error P (S i) = Some (ptime e)) by (rewrite EP; cbn [nth_error]; rewrite <- El; apply map_nth_error; exact He).
    assert (Ln : (S i < length P)%nat) by (apply nth_error_Some; congruence). destruct (sorted_next P i X2 Ln) as (a & b & [Na Nb] & Lab). rewrite Hn in Nb. injection Nb as <-.
    assert (Neo : ptime e <> old). { intros Q. rewrite <- Q in EP. rewrite EP in NP. inversion NP as [|? ? Nx _]; subst. apply Nx. rewrite EP in Hn. cbn [nth_error] in Hn. apply nth_error_In in Hn. exact Hn. }
    destruct (proj2 (C2 (S i) (ptime e) Hn) Neo) as (c0 & c1 & G1 & G2). rewrite (nth_error_nth P i 0 Na) in G2. destruct (preint_mean y data a (ptime e) c1 Lab Ch G2) as (r & q & R1 & R2 & R3).
    destruct (Sp i a (ptime e) r) as (I & I1 & _); [rewrite E1; split; assumption|exact R1|].
    unfold imu_factor, imu_sqrtI. exists c0, c1, a, r. rewrite R3, R2, I1. cbn [obind]. eexists. split; [rewrite <- R2; exact G1|]. split; [split; assumption|]. split; [exact R1|]. split; reflexivity. }
  destruct (prior_new_fine F 13 10 (first_lin (start_of y e0)) [PYaw; PVec 3; PVec 3; PVec 3] first_info eq_refl eq_refl eq_refl F10) as (f0 & Ef0).
  destruct (states_loop F y cs l [] e0 [TFirst f0]) as (lt & imus & S1 & S2 & S3).
  { intros e He. assert (In (ptime e) P) by (rewrite <- E1; apply in_map; exact He). specialize (Hb _ H). lra. }
  { cbn [app]. rewrite E1. exact NP. }
  { intros e He. apply In_nth_error in He. destruct He as (i & He). destruct (Fac i e He) as (c0 & c1 & a & r & f & G1 & _ & _ & _ & G5). exists c0, c1, f. auto. }
  destruct (camera_ids_spec y d tn (proj1 Dk) W N) as [K1 K2]. fold s in K2.
  destruct (cams_loop F o F6 F8 (camera_ids y d tn) [] [] [] []) as (es & ks & cals & Q1 & Q2 & Q3 & Q4 & Q5).
  { intros cam Hc. apply K2 in Hc. destruct Hc as ([id f] & ts & t & H1 & H2 & H3 & _). split; [apply (Kc id f cam ts H1 H3)|apply (Ki id f cam ts H1 H3)]. }
  cbn [app] in Q1. set (cams := camera_ids y d tn) in *.
  assert (Fg : forall i t, In (i, t) d -> feat_ok t) by (intros i t Hi; apply (proj2 Dk i t Hi)).
  destruct (feats_loop o P cams (gu_feats gu) s E2 d Fg Ki) with (S := @nil sight) (a := (@nil nat, @nil v3, @nil term)) as ([[ids fs] imgs] & T1 & T2).
  { intros id f cam ts t H1 H2 H3 H4 H5. apply K2. exists (id, f), ts, t. auto. }
  { cbn. split; [constructor|]. split; [constructor|]. split; [reflexivity|]. split; [constructor|]. intros id. split; [intros []|intros (? & [] & _)]. }
  destruct T2 as (T2 & T3 & T4 & T5 & T6). cbn [app] in T4, T6, S1.
  exists (mkPr P cams ids (mkAs (map (start_of y) (gu_poses gu)) es ks fs) (negb (mo_opt_calib o)) (TFirst f0 :: imus ++ cals ++ imgs)). split.
  - unfold assemble. cbv zeta. fold y. fold s. fold P. rewrite E3, E5. cbn [obind]. rewrite Egu. cbn [ofold].
    assert (St : state_step F y cs (-1, [], [], []) e0 = Ok (ptime e0, [ptime e0], [start_of y e0], [TFirst f0])).
    { destruct e0 as [[[t q] p] v]. cbn [ptime fst] in *. unfold state_step. destruct (C2 0%nat t) as [Z _]; [rewrite EP, Ee0; reflexivity|]. rewrite (Z Ee0).
      unfold first_prior. cbn [start_of] in Ef0. rewrite Ef0. reflexivity. }
    rewrite St. cbn [obind]. cbn [map app] in S1. rewrite S1. cbn [obind]. fold cams. rewrite Q1. cbn [obind]. cbn [map] in E1. rewrite E1. rewrite T1. cbn [obind]. reflexivity.
  - split; [exact X3|]. unfold built. cbv zeta. rewrite Egu, E1. fold y. cbn [pr_times pr_cams pr_fids pr_vars pr_const pr_terms as_x as_c as_k as_f].
    split; [split; [reflexivity|exact X2]|]. split; [split; [exact K1|]|].
    { intros cam H. apply K2 in H. destruct H as ([id f] & ts & t & H1 & _ & H3 & H4 & H5). destruct (ftrack_in f cam ts t (Fg id f H1) H3 H4) as (ob & O1 & O2). exists id, f, ob. rewrite O2. auto. }
    split; [split; [exact T2|exact T6]|]. split; [split; [reflexivity|split; [exact Q2|split; [exact Q3|exact T3]]]|]. split; [reflexivity|].
    exists f0, imus, cals, imgs. split; [reflexivity|]. split; [exists e0, l; split; [reflexivity|exact Ef0]|]. split; [|split; [|split; [exact T4|exact T5]]].
    + split; [rewrite S2, EP, <- El; cbn [length]; rewrite map_length; reflexivity|]. intros i t Ht. destruct (S3 i t Ht) as (e & c0 & c1 & f & G1 & G2 & G3 & G4). cbn [length Nat.add] in G4.
      destruct (Fac i e G1) as (c0' & c1' & a & r & f' & H1 & H2 & H3 & H4 & H5). rewrite G2 in H1. injection H1 as <- <-. exists f, a, (ptime e), r. split; [exact G4|]. split; [exact H2|]. split; [exact H3|]. rewrite <- H4. exact G3.
    + split; [exact Q4|]. intros c cam Hc. destruct (Q5 c cam Hc) as (e & m & k & fe & fk & G). exists e, m, k, fe, fk. exact G.
Qed.
Lemma core_built F L o d data tn gu : let y := mo_y o in db_ok d -> 0 < yo_window y -> (0 <= yo_npose y)%Z -> chrono data -> 0 <= tn - yo_window y -> (forall t, measured d t -> tn - yo_window y < t <= tn) ->
  cams_known y d -> ints_known o d -> dyn_core L y d data tn = Ok (Some gu) -> priors_ok F -> spans_ok F y data (map ptime (gu_poses gu)) ->
  exists pr, assemble F o d data tn gu = Ok pr /\ In tn (pr_times pr) /\ built F o d data gu pr.
Proof.
  intros y Dk W N Ch Tn Hm Kc Ki E Pk Sp. destruct (core_inv _ _ _ _ _ _ E) as (E1 & E2 & old & cs & E3 & E4 & E5). exact (build_gen F o d data tn gu old cs Dk W N Ch Tn Hm Kc Ki E1 E2 E3 E4 E5 Pk Sp).
Qed.
Lemma built_thm F L o d0 data0 d data gu : let y := mo_y o in db_ok d0 -> 0 < yo_window y -> (0 <= yo_npose y)%Z -> chrono data0 -> cams_known y d -> ints_known o d ->
  dynamic_guess L y d0 data0 = Ok (Some gu, d, data) -> priors_ok F -> spans_ok F y data (map ptime (gu_poses gu)) ->
  exists tn pr, newest d0 tn /\ assemble F o d data tn gu = Ok pr /\ In tn (pr_times pr) /\ built F o d data gu pr.
Proof.
  intros y Dk W N Ch Kc Ki. unfold dynamic_guess. cbv zeta. rewrite newest_cam_eq. destruct (fold_max (all_times d0) (-1)) as (M1 & M2 & M3). set (tn := fold_left std_max (all_times d0) (-1)) in *.
  destruct (Rltb_spec tn 0) as [H0|H0]; cbn [orb]; [discriminate|]. destruct (Rltb_spec (tn - yo_window y) 0) as [H1|H1]; [discriminate|].
  destruct (cleanup_measurements_thm d0 (tn - yo_window y) Dk) as (d1 & Ec & Dk1 & Cl). rewrite Ec. cbn [obind].
  destruct (Rltb (INR (length d1)) _); [discriminate|]. destruct (_ || _)%bool; [discriminate|]. intros E Pr Sp. apply obind_ok in E. destruct E as (r & Er & E). injection E as -> <- <-.
  assert (Nw : newest d0 tn). { split; [apply all_times_spec; auto; destruct M3 as [M3|M3]; [lra|exact M3]|]. intros t Ht. apply M2. apply all_times_spec; auto. }
  destruct (core_built F L o d1 (drop_before (tn - yo_window y + yo_dt y) data0) tn gu Dk1 W N (chrono_drop _ _ Ch)) as (pr & P1 & P2); [|  |exact Kc|exact Ki|exact Er|exact Pr|exact Sp|exists tn, pr; auto].
  - fold y. lra.
  - intros t Ht. apply (cleaned_measured _ _ _ _ Cl) in Ht. destruct Ht as [A B]. split; [exact B|apply Nw, A].
Qed.
