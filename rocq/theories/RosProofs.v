(** Proofs about the ROS message queue (C57). *)
From Coq Require Import Reals Lra Lia List Arith Bool Sorting.Sorted Sorting.Permutation.
From Verif Require Import RBool RosModel RosSpec.
Import ListNotations.
Open Scope R_scope.

Definition fle (a b : cframe) : Prop := cf_t a < cf_t b \/ (cf_t a = cf_t b /\ (min_id a <= min_id b)%nat).
Lemma flt_spec a b : flt a b = true -> fle a b. 
Proof. unfold flt, fle. destruct (Reqb (cf_t a) (cf_t b)) eqn:E; [apply Reqb_true in E|apply Reqb_false in E]; intros H; [apply Nat.ltb_lt in H; right; split; [auto|lia]|apply Rltb_true in H; auto]. Qed.
Lemma flt_false a b : flt a b = false -> fle b a.
Proof. unfold flt, fle. destruct (Reqb (cf_t a) (cf_t b)) eqn:E; [apply Reqb_true in E|apply Reqb_false in E]; intros H; [apply Nat.ltb_ge in H; right; split; [auto|lia]|apply Rltb_false in H; left; lra]. Qed.
Lemma fle_trans a b c : fle a b -> fle b c -> fle a c.
Proof. unfold fle. intros [H|[H H']] [G|[G G']]; [left; lra|left; lra|left; lra|right; split; [lra|lia]]. Qed.
Lemma fle_t a b : fle a b -> cf_t a <= cf_t b. Proof. unfold fle. intros [H|[H _]]; lra. Qed.
Lemma finsert_perm x l : Permutation (finsert x l) (x :: l).
Proof. induction l as [|y l IH]; cbn; [reflexivity|]. destruct (flt x y); [reflexivity|]. rewrite IH. apply perm_swap. Qed.
Lemma finsert_sorted x l : StronglySorted fle l -> StronglySorted fle (finsert x l).
Proof.
  induction l as [|y l IH]; intros H; cbn; [repeat constructor|]. apply StronglySorted_inv in H. destruct H as [H1 H2].
  destruct (flt x y) eqn:E.
  - apply flt_spec in E. constructor; [constructor; auto|]. constructor; [exact E|]. eapply Forall_impl; [|exact H2]. intros z Hz. eapply fle_trans; eauto.
  - apply flt_false in E. constructor; [auto|]. rewrite finsert_perm. constructor; auto.
Qed.
Lemma finsert_last x l : Forall (fun y => flt x y = false) l -> finsert x l = l ++ [x].
Proof. induction l as [|y l IH]; intros H; [reflexivity|]. inversion H as [|a b E F]; subst. cbn. rewrite E, IH by auto. reflexivity. Qed.
Definition fsorted (l : list cframe) : Prop := StronglySorted (fun a b => flt b a = false) l.
Lemma fle_not a b : fle a b -> flt b a = false.
Proof.
  unfold fle, flt. intros [H|[H H']]; destruct (Reqb (cf_t b) (cf_t a)) eqn:E; [apply Reqb_true in E; lra|apply Rltb_false; lra|apply Nat.ltb_ge; lia|apply Reqb_false in E; lra].
Qed.
Lemma fsort_app acc l : StronglySorted fle (acc ++ l) -> fold_left (fun a x => finsert x a) l acc = acc ++ l.
Proof.
  revert acc. induction l as [|x l IH]; intros acc H; cbn; [rewrite app_nil_r; reflexivity|].
  rewrite finsert_last.
  - rewrite IH; rewrite <- app_assoc; [reflexivity|exact H].
  - clear IH. induction acc as [|y acc IHa]; [constructor|]. cbn in H. apply StronglySorted_inv in H. destruct H as [H1 H2].
    constructor; [|auto]. apply fle_not. rewrite Forall_app in H2. destruct H2 as [_ H2]. inversion H2; auto.
Qed.
Lemma fsort_snoc q f : StronglySorted fle q -> fsort (q ++ [f]) = finsert f q.
Proof. intros H. unfold fsort. rewrite fold_left_app. rewrite (fsort_app [] q H). reflexivity. Qed.

Lemma of_cam_app c a b : of_cam c (a ++ b) = of_cam c a ++ of_cam c b. Proof. apply filter_app. Qed.
Lemma of_cam_insert_other c f q : cf_id0 f <> c -> of_cam c (finsert f q) = of_cam c q.
Proof.
  intros H. assert (E : Nat.eqb (cf_id0 f) c = false) by (apply Nat.eqb_neq; auto).
  induction q as [|y q IH]; cbn; [rewrite E; reflexivity|]. destruct (flt f y); cbn; [rewrite E; reflexivity|]. unfold of_cam in IH. rewrite IH. reflexivity.
Qed.
Lemma of_cam_none c q t : (forall y, In y q -> t <= cf_t y) -> Forall (fun y => cf_t y < t) (of_cam c q) -> of_cam c q = [].
Proof.
  intros H F. destruct (of_cam c q) as [|y r] eqn:E; [reflexivity|]. exfalso. inversion F; subst.
  assert (In y (of_cam c q)) by (rewrite E; left; reflexivity). apply filter_In in H0. destruct H0 as [H0 _]. apply H in H0. lra.
Qed.
Lemma of_cam_insert f q : StronglySorted fle q -> Forall (fun y => cf_t y < cf_t f) (of_cam (cf_id0 f) q) ->
  of_cam (cf_id0 f) (finsert f q) = of_cam (cf_id0 f) q ++ [f].
Proof.
  intros S F. induction q as [|y q IH]; cbn; [rewrite Nat.eqb_refl; reflexivity|]. destruct (flt f y) eqn:E.
  - apply flt_spec in E. assert (N : of_cam (cf_id0 f) (y :: q) = []).
    { apply (of_cam_none _ _ (cf_t f)); [|exact F]. apply StronglySorted_inv in S. destruct S as [_ S]. apply fle_t in E.
      intros z [<-|Hz]; [exact E|]. rewrite Forall_forall in S. specialize (S z Hz). apply fle_t in S. lra. }
    change (filter (fun f0 => Nat.eqb (cf_id0 f0) (cf_id0 f)) (y :: q)) with (of_cam (cf_id0 f) (y :: q)).
    change (of_cam (cf_id0 f) (f :: y :: q) = (if Nat.eqb (cf_id0 y) (cf_id0 f) then y :: of_cam (cf_id0 f) q else of_cam (cf_id0 f) q) ++ [f]).
    change (of_cam (cf_id0 f) (f :: y :: q)) with (if Nat.eqb (cf_id0 f) (cf_id0 f) then f :: of_cam (cf_id0 f) (y :: q) else of_cam (cf_id0 f) (y :: q)).
    rewrite Nat.eqb_refl, N. cbn in N. unfold of_cam. rewrite N. reflexivity.
  - apply StronglySorted_inv in S. destruct S as [S _]. cbn in F |- *. destruct (Nat.eqb (cf_id0 y) (cf_id0 f)); [inversion F; subst|]; rewrite <- ?app_comm_cons; unfold of_cam in *; rewrite IH; auto.
Qed.

(** ** invariant: the images of each camera, handed over and queued, are the accepted ones in order *)
Lemma rlook_set l c t x : rlook (rset l c t) x = if Nat.eqb x c then Some t else rlook l x.
Proof.
  unfold rlook, rset. cbn [find fst]. rewrite (Nat.eqb_sym x c). destruct (Nat.eqb_spec c x) as [->|N]; [reflexivity|].
  assert (E : find (fun e => Nat.eqb (fst e) x) (filter (fun e => negb (Nat.eqb (fst e) c)) l) = find (fun e => Nat.eqb (fst e) x) l).
  { induction l as [|[k v] l IH]; [reflexivity|]. cbn. destruct (Nat.eqb_spec k c) as [->|]; cbn.
    - rewrite IH. destruct (Nat.eqb_spec c x); [congruence|reflexivity].
    - rewrite IH. reflexivity. }
  rewrite E. reflexivity.
Qed.
Definition rinv (freq : R) (s : ros) (done acc : list cframe) : Prop :=
  StronglySorted fle (rq s) /\ Permutation (done ++ rq s) acc /\
  (forall c, of_cam c (done ++ rq s) = of_cam c acc) /\ (forall c, spaced freq (of_cam c acc)) /\
  (forall c f, In f (of_cam c acc) -> exists l, rlook (rlast s) c = Some l /\ cf_t f <= l).

Lemma hand_over_app lim q : let '(d, q') := hand_over lim q in q = d ++ q' /\ Forall (fun f => cf_t f < lim) d /\
  match q' with [] => True | f :: _ => lim <= cf_t f end.
Proof.
  induction q as [|f q IH]; cbn; [auto|]. destruct (Rltb_spec (cf_t f) lim).
  - destruct (hand_over lim q) as [d q']. destruct IH as (-> & I2 & I3). auto.
  - split; [reflexivity|]. split; [constructor|]. lra.
Qed.
Lemma SS_app_r {A} (P : A -> A -> Prop) l1 l2 : StronglySorted P (l1 ++ l2) -> StronglySorted P l2.
Proof. induction l1 as [|x l1 IH]; intros H; [exact H|]. apply IH. apply StronglySorted_inv in H. apply H. Qed.
Lemma SS_app_l {A} (P : A -> A -> Prop) l1 l2 : StronglySorted P (l1 ++ l2) -> StronglySorted P l1.
Proof.
  induction l1 as [|x l1 IH]; intros H; [constructor|]. cbn in H. apply StronglySorted_inv in H. destruct H as [H1 H2].
  constructor; [auto|]. apply Forall_app in H2. apply H2.
Qed.
Lemma SS_snoc {A} (P : A -> A -> Prop) l x : StronglySorted P l -> Forall (fun y => P y x) l -> StronglySorted P (l ++ [x]).
Proof.
  induction l as [|y l IH]; intros H F; cbn; [repeat constructor|]. apply StronglySorted_inv in H. destruct H as [H1 H2]. inversion F; subst.
  constructor; [auto|]. apply Forall_app. split; auto.
Qed.
Lemma callback_imu_inv freq ncam s t dt done acc : rinv freq s done acc ->
  let '(s', d) := callback_inertial ncam s t dt in rinv freq s' (done ++ d) acc /\ Forall (fun f => cf_t f < t - dt) d /\ rlast s' = rlast s.
Proof.
  intros (H1 & H2 & H3 & H4 & H5). unfold callback_inertial. cbv zeta. destruct (Nat.eqb _ _).
  - pose proof (hand_over_app (t - dt) (rq s)) as HO. destruct (hand_over (t - dt) (rq s)) as [d q]. destruct HO as (E & F & _).
    split; [|split; [exact F|reflexivity]]. unfold rinv. cbn [rq rlast]. rewrite <- app_assoc, <- E.
    split; [rewrite E in H1; eapply SS_app_r; exact H1|]. auto.
  - rewrite app_nil_r. split; [repeat split; auto|]. split; [constructor|reflexivity].
Qed.
Lemma callback_cam_inv freq s c c' t ok img done acc : 0 < freq -> rinv freq s done acc ->
  let drop := match rlook (rlast s) c with Some l => Rltb t (l + 1 / freq) | None => false end in
  rinv freq (callback_camera freq s c c' t ok img) done (acc ++ if drop then [] else if ok then [mkF t c c' img] else []).
Proof.
  intros Hf (H1 & H2 & H3 & H4 & H5) drop. assert (P : 0 < 1 / freq) by (apply Rdiv_lt_0_compat; lra).
  unfold callback_camera. fold drop. destruct drop eqn:ED. { rewrite app_nil_r. repeat split; auto. }
  assert (NEW : forall f, In f (of_cam c acc) -> cf_t f + 1 / freq <= t).
  { intros f Hin. destruct (H5 c f Hin) as (l & El & Ll). unfold drop in ED. rewrite El in ED. apply Rltb_false in ED. lra. }
  destruct ok.
  - set (f := mkF t c c' img). unfold rinv. cbn [rq rlast]. rewrite (fsort_snoc _ _ H1).
    assert (FQ : Forall (fun y => cf_t y < cf_t f) (of_cam (cf_id0 f) (rq s))).
    { apply Forall_forall. intros y Hy. assert (In y (of_cam c acc)). { rewrite <- H3, of_cam_app. apply in_or_app. right. exact Hy. }
      apply NEW in H. cbn. lra. }
    split; [apply finsert_sorted; auto|].
    split. { rewrite finsert_perm. rewrite <- H2. rewrite <- app_assoc. apply Permutation_app_head. apply Permutation_cons_append. }
    assert (OC : forall x, of_cam x (acc ++ [f]) = of_cam x acc ++ if Nat.eqb c x then [f] else []).
    { intros x. rewrite of_cam_app. reflexivity. }
    split.
    { intros x. rewrite OC, of_cam_app. destruct (Nat.eqb_spec c x) as [<-|N].
      - change c with (cf_id0 f) at 2. rewrite (of_cam_insert f) by auto. rewrite app_assoc. change (cf_id0 f) with c. rewrite <- of_cam_app, H3. reflexivity.
      - rewrite (of_cam_insert_other x f) by (cbn; auto). rewrite app_nil_r, <- of_cam_app. apply H3. }
    split.
    { intros x. rewrite OC. destruct (Nat.eqb_spec c x) as [<-|N]; [|rewrite app_nil_r; apply H4].
      apply SS_snoc; [apply H4|]. apply Forall_forall. intros y Hy. apply NEW in Hy. exact Hy. }
    { intros x y Hy. rewrite rlook_set. rewrite OC in Hy. apply in_app_or in Hy. destruct (Nat.eqb_spec x c) as [->|N].
      - exists t. split; [reflexivity|]. destruct Hy as [Hy|Hy]; [apply NEW in Hy; lra|]. rewrite Nat.eqb_refl in Hy. destruct Hy as [<-|[]]. cbn. lra.
      - destruct Hy as [Hy|Hy]; [apply H5; auto|]. destruct (Nat.eqb_spec c x); [congruence|destruct Hy]. }
  - rewrite app_nil_r. unfold rinv. cbn [rq rlast]. repeat split; auto. intros x y Hy. rewrite rlook_set. destruct (Nat.eqb_spec x c) as [->|N]; [|auto].
    exists t. split; [reflexivity|]. apply NEW in Hy. lra.
Qed.

Lemma accepted_ext freq ms : forall l1 l2, (forall c, l1 c = l2 c) -> accepted freq l1 ms = accepted freq l2 ms.
Proof.
  induction ms as [|[t dt|c c' t ok img] ms IH]; intros l1 l2 H; cbn; [reflexivity|auto|].
  rewrite H. destruct (match l2 c with Some l => Rltb t (l + 1 / freq) | None => false end); [auto|]. f_equal. apply IH. intros x. destruct (Nat.eqb x c); auto.
Qed.
Lemma rrun_inv freq ncam ms : 0 < freq -> forall s done acc, rinv freq s done acc ->
  let '(s', d) := rrun freq ncam s ms in rinv freq s' (done ++ d) (acc ++ accepted freq (rlook (rlast s)) ms).
Proof.
  intros Hf. induction ms as [|m ms IH]; intros s done acc H; cbn [rrun]; [cbn; rewrite !app_nil_r; exact H|].
  destruct m as [t dt|c c' t ok img]; cbn [rstep].
  - pose proof (callback_imu_inv freq ncam s t dt done acc H) as CI. destruct (callback_inertial ncam s t dt) as [s1 d1]. destruct CI as (C1 & _ & C3).
    specialize (IH s1 _ _ C1). destruct (rrun freq ncam s1 ms) as [s2 d2]. rewrite app_assoc. cbn [accepted]. rewrite <- C3. exact IH.
  - pose proof (callback_cam_inv freq s c c' t ok img done acc Hf H) as CC. cbv zeta in CC.
    specialize (IH _ _ _ CC). destruct (rrun freq ncam (callback_camera freq s c c' t ok img) ms) as [s2 d2]. cbn [app accepted].
    rewrite <- app_assoc in IH. revert IH. unfold callback_camera. cbv zeta.
    destruct (match rlook (rlast s) c with Some l => Rltb t (l + 1 / freq) | None => false end); [auto|].
    destruct ok; cbn [rlast]; intros IH.
    + rewrite (accepted_ext freq ms (rlook (rset (rlast s) c t)) (fun x => if Nat.eqb x c then Some t else rlook (rlast s) x)) in IH by (intros; apply rlook_set). exact IH.
    + rewrite (accepted_ext freq ms (rlook (rset (rlast s) c t)) (fun x => if Nat.eqb x c then Some t else rlook (rlast s) x)) in IH by (intros; apply rlook_set). exact IH.
Qed.
Lemma rinv0 freq : rinv freq ros0 [] [].
Proof. unfold rinv, ros0; cbn. repeat split; try constructor. intros c f []. Qed.

Lemma rrun_main freq ncam ms : 0 < freq -> let '(s, d) := rrun freq ncam ros0 ms in
  let acc := accepted freq (fun _ => None) ms in
  Permutation (d ++ rq s) acc /\ (forall c, of_cam c (d ++ rq s) = of_cam c acc) /\ (forall c, spaced freq (of_cam c acc)) /\ (forall c, spaced freq (of_cam c d)).
Proof.
  intros Hf. pose proof (rrun_inv freq ncam ms Hf ros0 [] [] (rinv0 freq)) as H. destruct (rrun freq ncam ros0 ms) as [s d]. cbn [app] in H.
  cbv zeta. change (rlook (rlast ros0)) with (rlook []) in H. rewrite (accepted_ext freq ms (rlook []) (fun _ => None)) in H by reflexivity.
  destruct H as (H1 & H2 & H3 & H4 & H5). split; [exact H2|]. split; [exact H3|]. split; [exact H4|].
  intros c. specialize (H4 c). rewrite <- H3, of_cam_app in H4. eapply SS_app_l. exact H4.
Qed.

Lemma rrun_app freq ncam ms1 ms2 : forall s, rrun freq ncam s (ms1 ++ ms2) =
  let '(s1, d1) := rrun freq ncam s ms1 in let '(s2, d2) := rrun freq ncam s1 ms2 in (s2, d1 ++ d2).
Proof.
  induction ms1 as [|m ms1 IH]; intros s; cbn [rrun app]; [destruct (rrun freq ncam s ms2); reflexivity|].
  destruct (rstep freq ncam s m) as [s1 d1]. rewrite IH. destruct (rrun freq ncam s1 ms1) as [s2 d2]. destruct (rrun freq ncam s2 ms2) as [s3 d3]. rewrite app_assoc. reflexivity.
Qed.
(** what one IMU message hands over *)
Lemma imu_hand_over freq ncam ms t dt : 0 < freq ->
  let '(s, d) := rrun freq ncam ros0 ms in let '(s', d') := rrun freq ncam ros0 (ms ++ [MImu t dt]) in
  exists new, d' = d ++ new /\ rq s = new ++ rq s' /\ Forall (fun f => cf_t f < t - dt) new /\ StronglySorted fle new /\
    (length (nodup Nat.eq_dec (map cf_id0 (rq s))) = (if Nat.eqb ncam 2 then 1 else ncam)%nat -> Forall (fun f => t - dt <= cf_t f) (rq s')) /\
    (length (nodup Nat.eq_dec (map cf_id0 (rq s))) <> (if Nat.eqb ncam 2 then 1 else ncam)%nat -> new = []).
Proof.
  intros Hf. rewrite rrun_app. pose proof (rrun_inv freq ncam ms Hf ros0 [] [] (rinv0 freq)) as H. destruct (rrun freq ncam ros0 ms) as [s d].
  cbn [rrun rstep]. destruct H as (H1 & _). unfold callback_inertial. cbv zeta.
  destruct (Nat.eqb_spec (length (nodup Nat.eq_dec (map cf_id0 (rq s)))) (if Nat.eqb ncam 2 then 1%nat else ncam)) as [E|E].
  - pose proof (hand_over_app (t - dt) (rq s)) as HO. destruct (hand_over (t - dt) (rq s)) as [n q]. destruct HO as (E1 & E2 & E3).
    exists n. cbn [rq]. rewrite app_nil_r. split; [reflexivity|]. split; [exact E1|]. split; [exact E2|]. rewrite E1 in H1. split; [eapply SS_app_l; exact H1|].
    split; [|congruence]. intros _. apply SS_app_r in H1. destruct q as [|f q]; [constructor|]. apply StronglySorted_inv in H1. destruct H1 as [_ H1].
    constructor; [exact E3|]. eapply Forall_impl; [|exact H1]. intros g Hg. apply fle_t in Hg. lra.
  - exists []. split; [reflexivity|]. split; [reflexivity|]. split; [constructor|]. split; [constructor|]. split; [congruence|reflexivity].
Qed.
(** one image stream *)
Lemma of_cam_all c l : Forall (fun f => cf_id0 f = c) l -> of_cam c l = l.
Proof. induction l as [|f l IH]; intros H; [reflexivity|]. inversion H; subst. cbn. rewrite Nat.eqb_refl. f_equal. auto. Qed.
Definition single (c : nat) (m : rmsg) : Prop := match m with MCam c' _ _ _ _ => c' = c | _ => True end.
Lemma accepted_single freq c ms : forall l, Forall (single c) ms -> Forall (fun f => cf_id0 f = c) (accepted freq l ms).
Proof.
  induction ms as [|[t dt|c0 c' t ok img] ms IH]; intros l H; inversion H; subst; cbn; auto.
  destruct (match l c0 with Some l => Rltb t (l + 1 / freq) | None => false end); [auto|]. apply Forall_app. split; [|auto].
  destruct ok; [|constructor]. constructor; [|constructor]. cbn. auto.
Qed.
Lemma single_in_order freq ncam c ms : 0 < freq -> Forall (single c) ms ->
  let '(s, d) := rrun freq ncam ros0 ms in d ++ rq s = accepted freq (fun _ => None) ms /\ spaced freq d /\ in_order d.
Proof.
  intros Hf Hs. pose proof (rrun_main freq ncam ms Hf) as H. destruct (rrun freq ncam ros0 ms) as [s d]. cbv zeta in H. destruct H as (H1 & H2 & H3 & H4).
  pose proof (accepted_single freq c ms (fun _ => None) Hs) as A.
  assert (A' : Forall (fun f => cf_id0 f = c) (d ++ rq s)). { rewrite Forall_forall in *. intros f Hf'. apply A. eapply Permutation_in; eauto. }
  specialize (H2 c). rewrite !of_cam_all in H2 by auto. split; [exact H2|].
  assert (AD : Forall (fun f => cf_id0 f = c) d) by (apply Forall_app in A'; apply A').
  specialize (H4 c). rewrite of_cam_all in H4 by auto. split; [exact H4|].
  assert (P : 0 < 1 / freq) by (apply Rdiv_lt_0_compat; lra).
  clear - H4 P. unfold spaced, in_order in *. induction H4; constructor; auto. eapply Forall_impl; [|exact H]. cbn; intros; lra.
Qed.
