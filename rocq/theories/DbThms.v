(** Final statements about the feature database. *)
From Coq Require Import Reals List Arith ZArith Bool Sorted Lia Lra.
From Verif Require Import RBool Outcome GeoModel DbModel DbSpec DbProofs DbProofs2.
Import ListNotations.
Open Scope R_scope.

Lemma fresh_unseen old new : fresh old new = unseen old new.
Proof.
  unfold fresh, unseen. apply filter_ext. intros o.
  destruct (in_dec Req_EM_T (otime o) (map otime old)) as [I|I].
  - apply tfind_in in I. rewrite I. reflexivity.
  - apply tfind_false in I. rewrite I. reflexivity.
Qed.

Lemma calls_return d o :
  db_reach d -> (forall other, o = DAppend other -> db_reach other) ->
  exists d', dbexec d o = Ok d' /\ db_reach d' /\ db_ok d'.
Proof.
  intros H A. destruct (dbexec_total d o) as [d' E].
  - apply reach_ok; auto.
  - intros other X. apply reach_ok; auto.
  - assert (db_reach d') by (eapply dr_step; eauto). eauto using reach_ok.
Qed.

Lemma not_newer_thm d t remove skip :
  db_ok d -> db_chron d ->
  let r := features_not_containing_newer t remove skip d in
  selects (fun f => forall t', seen f t' -> t' < t) remove skip d (fst r) (snd r).
Proof.
  intros OK C. apply query_selects; auto. intros id f E.
  destruct (db_ok_look _ _ _ OK E) as [_ F]. pose proof (has_newer_spec t f F (C id f E)) as S.
  split.
  - intros H t' X. apply negb_true_iff in H. apply Rnot_le_lt. intros L.
    enough (has_newer t f = true) by congruence. apply S. eauto.
  - intros H. apply negb_true_iff. apply not_true_is_false. intros X. apply S in X.
    destruct X as [t' [X1 X2]]. specialize (H t' X1). lra.
Qed.

Lemma older_thm d t remove skip :
  db_ok d -> db_chron d ->
  let r := features_containing_older t remove skip d in
  selects (fun f => exists t', seen f t' /\ t' < t) remove skip d (fst r) (snd r).
Proof.
  intros OK C. apply query_selects; auto. intros id f E.
  destruct (db_ok_look _ _ _ OK E) as [_ F]. exact (has_older_spec t f F (C id f E)).
Qed.

Lemma containing_thm d t remove skip :
  db_ok d ->
  let r := features_containing t remove skip d in
  selects (fun f => seen f t) remove skip d (fst r) (snd r).
Proof.
  intros OK. apply query_selects; auto. intros id f E.
  destruct (db_ok_look _ _ _ OK E) as [_ F]. exact (has_time_spec t f F).
Qed.

Lemma chron_thm (l : list (nat * nat * obs)) :
  StronglySorted Rle (map (fun e => otime (snd e)) l) -> db_ok (fed [] l) /\ db_chron (fed [] l).
Proof.
  intros S. destruct l as [|e l]; [split; [split; [constructor|intros ? ? []]|intros id f E; discriminate]|].
  apply (fed_chron (e :: l) [] (otime (snd e))).
  - split; [constructor|intros ? ? []].
  - intros id cam. unfold track. cbn. split; constructor.
  - cbn [map] in *. constructor; [auto|]. apply StronglySorted_inv in S. destruct S as [S F].
    constructor; [lra|auto].
Qed.

Lemma chron_kept_thm d o d' :
  db_ok d -> db_chron d ->
  match o with
  | DUpdate _ _ _ _ _ | DAppend _ => False
  | _ => True
  end -> dbexec d o = Ok d' -> db_chron d'.
Proof.
  intros OK C A. destruct o; cbn [dbexec]; intros H; try contradiction;
    try (injection H as <-; apply query_chron; assumption).
  - injection H as <-. unfold get_feature. destruct (alook d id); [|auto]. destruct remove; cbn [snd]; [|auto].
    intros id' f' E. unfold aerase in E. rewrite (alook_filter_keys (fun k => negb (Nat.eqb k id))) in E.
    destruct (negb _); [eauto|discriminate].
  - injection H as <-. rewrite cleanup_eq. intros id f E. rewrite alook_filter_nodup in E by apply OK.
    destruct (alook d id) as [g|] eqn:G; [|discriminate]. destruct (negb _); [|discriminate].
    injection E as <-. eauto.
  - eapply clean_chron; eauto.
  - eapply clean_chron; eauto.
  - unfold on_feature in H. destruct (alook d id) as [f|] eqn:E; [|injection H as <-; auto].
    cbn in H. injection H as <-. intros id' f' E'. rewrite alook_aset in E'.
    destruct (Nat.eqb id' id); [injection E' as <-; exact (C id f E)|eauto].
  - unfold on_feature in H. destruct (alook d id) as [f|] eqn:E; [|injection H as <-; auto].
    destruct (db_ok_look _ _ _ OK E) as [_ F].
    destruct (clean_feature_spec (fun x => negb (tfind valid x)) f F) as [g [X [_ [_ T]]]].
    unfold clean_old_measurements in H. rewrite X in H.
    cbn in H. injection H as <-. intros id' f' E'. rewrite alook_aset in E'.
    destruct (Nat.eqb id' id); [injection E' as <-|eauto].
    intros cam. rewrite T. apply SS_filter. exact (C id f E cam).
  - unfold on_feature in H. destruct (alook d id) as [f|] eqn:E; [|injection H as <-; auto].
    destruct (db_ok_look _ _ _ OK E) as [_ F].
    destruct (clean_feature_spec (fun x => tfind inv x) f F) as [g [X [_ [_ T]]]].
    unfold clean_invalid_measurements in H. rewrite X in H.
    cbn in H. injection H as <-. intros id' f' E'. rewrite alook_aset in E'.
    destruct (Nat.eqb id' id); [injection E' as <-|eauto].
    intros cam. rewrite T. apply SS_filter. exact (C id f E cam).
  - unfold on_feature in H. destruct (alook d id) as [f|] eqn:E; [|injection H as <-; auto].
    cbn in H. injection H as <-. intros id' f' E'. rewrite alook_aset in E'.
    destruct (Nat.eqb id' id); [injection E' as <-; exact (C id f E)|eauto].
Qed.

Lemma cleanup_thm d id : db_ok d ->
  alook (cleanup d) id = match alook d id with
                         | Some f => if f_del f then None else Some f
                         | None => None
                         end.
Proof.
  intros OK. rewrite cleanup_eq, alook_filter_nodup by apply OK. cbn [snd].
  destruct (alook d id) as [f|]; [|reflexivity]. destruct (f_del f); reflexivity.
Qed.

Lemma filter_nil_iff {A} (p : A -> bool) l : filter p l = [] <-> forall x, In x l -> p x = false.
Proof.
  induction l as [|a l IH]; cbn [filter]; [split; [intros _ x []|auto]|].
  destruct (p a) eqn:E.
  - split; [discriminate|]. intros H. rewrite (H a) in E; [discriminate|left; auto].
  - rewrite IH. split; [intros H x [->|I]; auto|intros H x I; apply H; right; auto].
Qed.

Lemma clean_thm keep drop d :
  db_ok d -> (forall t, drop t = false <-> keep t) ->
  exists d', clean_loop (clean_feature drop) d = Ok d' /\ db_ok d' /\ cleaned keep d d'.
Proof.
  intros OK K. destruct (clean_loop_spec drop d OK) as [d' [E [O [_ T]]]].
  exists d'. split; [auto|]. split; [auto|]. intros id. specialize (T id).
  destruct (alook d id) as [f|] eqn:Ef; [|auto]. cbn zeta in T.
  set (sel := fun o => negb (drop (otime o))) in T.
  assert (S : forall o, sel o = true <-> keep (otime o)).
  { intros o. unfold sel. rewrite negb_true_iff. apply K. }
  split.
  - intros f' E'. rewrite E' in T. destruct T as [T1 [_ T2]]. split; [auto|]. eauto.
  - split.
    + intros N. rewrite N in T. intros t [cam [o [I X]]] H.
      assert (sel o = true) by (apply S; congruence).
      pose proof (proj1 (filter_nil_iff sel _) (T cam) o I). congruence.
    + intros H. destruct (alook d' id) as [f'|]; [|reflexivity]. exfalso.
      destruct T as [_ [[cam N] T2]]. apply N. rewrite T2. apply filter_nil_iff.
      intros o I. apply not_true_is_false. intros X. apply S in X. apply (H (otime o)); [|auto].
      exists cam, o. auto.
Qed.

Lemma cleanup_measurements_thm d t : db_ok d ->
  exists d', cleanup_measurements t d = Ok d' /\ db_ok d' /\ cleaned (fun x => t < x) d d'.
Proof. intros OK. apply clean_thm; auto. intros x. rewrite Rleb_false. reflexivity. Qed.
Lemma cleanup_measurements_exact_thm d t : db_ok d ->
  exists d', cleanup_measurements_exact t d = Ok d' /\ db_ok d' /\ cleaned (fun x => x <> t) d d'.
Proof.
  intros OK. apply clean_thm; auto. intros x. rewrite tfind_false. cbn. intuition congruence.
Qed.

Lemma feature_clean_thm (keep : R -> Prop) drop f :
  (forall t, drop t = false <-> keep t) -> feat_ok f ->
  exists f', clean_feature drop f = Ok f' /\ feat_ok f' /\ same_info f' f /\
    exists sel : obs -> bool, (forall o, sel o = true <-> keep (otime o)) /\
      forall cam, ftrack f' cam = filter sel (ftrack f cam).
Proof.
  intros K F. destruct (clean_feature_spec drop f F) as [f' [E [O [S T]]]].
  exists f'. split; [auto|]. split; [auto|]. split; [auto|].
  exists (fun o => negb (drop (otime o))). split; [|exact T].
  intros o. rewrite negb_true_iff. apply K.
Qed.
Lemma clean_old_thm valid f : feat_ok f ->
  exists f', clean_old_measurements valid f = Ok f' /\ feat_ok f' /\ same_info f' f /\
    exists sel : obs -> bool, (forall o, sel o = true <-> In (otime o) valid) /\
      forall cam, ftrack f' cam = filter sel (ftrack f cam).
Proof. apply (feature_clean_thm (fun t => In t valid)). intros t. rewrite negb_false_iff. apply tfind_in. Qed.
Lemma clean_invalid_thm inv f : feat_ok f ->
  exists f', clean_invalid_measurements inv f = Ok f' /\ feat_ok f' /\ same_info f' f /\
    exists sel : obs -> bool, (forall o, sel o = true <-> ~ In (otime o) inv) /\
      forall cam, ftrack f' cam = filter sel (ftrack f cam).
Proof. apply (feature_clean_thm (fun t => ~ In t inv)). intros t. apply tfind_false. Qed.

Lemma NoDup_app_intro {A} (l m : list A) :
  NoDup l -> NoDup m -> (forall x, In x l -> In x m -> False) -> NoDup (l ++ m).
Proof.
  induction l as [|a l IH]; cbn [app]; intros H1 H2 H; [auto|].
  apply NoDup_cons_iff in H1. destruct H1 as [N H1]. constructor.
  - rewrite in_app_iff. intros [X|X]; [auto|]. apply (H a); [left|]; auto.
  - apply IH; auto. intros x X Y. apply (H x); [right|]; auto.
Qed.

Lemma nodup_map_filter {A B} (g : A -> B) p (l : list A) : NoDup (map g l) -> NoDup (map g (filter p l)).
Proof.
  induction l as [|a l IH]; cbn [map filter]; intros H; [constructor|].
  apply NoDup_cons_iff in H. destruct H as [N H]. destruct (p a); [|auto].
  cbn [map]. constructor; [|auto]. intros I. apply N. apply in_map_iff in I.
  destruct I as [x [E I]]. rewrite <- E. apply in_map. apply filter_In in I. tauto.
Qed.

Lemma append_thm d other :
  db_ok d -> db_ok other ->
  exists d', append_new_measurements d other = Ok d' /\ db_ok d' /\
    (forall id cam, track d' id cam = track d id cam ++ unseen (track d id cam) (track other id cam)) /\
    (forall id f, alook d id = Some f -> exists f', alook d' id = Some f' /\ same_info f' f) /\
    (forall id, (exists f', alook d' id = Some f') <->
                (exists f, alook d id = Some f) \/ (exists f, alook other id = Some f)).
Proof.
  intros O1 O2. destruct (append_spec_aux other d O1 O2) as [d' [E [O [T I]]]].
  exists d'. split; [auto|]. split; [auto|]. split; [|split].
  - intros id cam. rewrite T, fresh_unseen. reflexivity.
  - intros id f X. specialize (I id). rewrite X in I. exact I.
  - intros id. specialize (I id). destruct (alook d id) as [f|].
    + destruct I as [f' [I _]]. split; [eauto|eauto].
    + destruct (alook other id) as [g|].
      * destruct I as [f' [I _]]. split; eauto.
      * rewrite I. split; [intros [? X]; discriminate|intros [[? X]|[? X]]; discriminate].
Qed.

Lemma append_union d other d' :
  db_ok d -> db_ok other -> append_new_measurements d other = Ok d' ->
  forall id cam t,
    In t (map otime (track d' id cam)) <->
    In t (map otime (track d id cam)) \/ In t (map otime (track other id cam)).
Proof.
  intros O1 O2 E id cam t. destruct (append_thm d other O1 O2) as [d1 [E1 [_ [T _]]]].
  rewrite E in E1. injection E1 as <-. rewrite T, map_app, in_app_iff. split.
  - intros [H|H]; [auto|right]. apply in_map_iff in H. destruct H as [o [<- H]].
    apply in_map. unfold unseen in H. apply filter_In in H. tauto.
  - intros [H|H]; [auto|]. destruct (in_dec Req_EM_T t (map otime (track d id cam))) as [I|I]; [auto|right].
    apply in_map_iff in H. destruct H as [o [<- H]]. apply in_map. unfold unseen. apply filter_In.
    split; [auto|]. destruct (in_dec _ _ _); [contradiction|reflexivity].
Qed.

Lemma append_nodup d other d' :
  db_ok d -> db_ok other -> append_new_measurements d other = Ok d' ->
  forall id cam,
    NoDup (map otime (track d id cam)) -> NoDup (map otime (track other id cam)) ->
    NoDup (map otime (track d' id cam)).
Proof.
  intros O1 O2 E id cam N1 N2. destruct (append_thm d other O1 O2) as [d1 [E1 [_ [T _]]]].
  rewrite E in E1. injection E1 as <-. rewrite T, map_app. apply NoDup_app_intro; auto.
  - apply nodup_map_filter. auto.
  - intros x X Y. apply in_map_iff in Y. destruct Y as [o [<- Y]]. unfold unseen in Y.
    apply filter_In in Y. destruct Y as [_ Y]. destruct (in_dec _ _ _); [discriminate|contradiction].
Qed.

(** ** concrete databases *)
Definition u0 : uv := (0, 0).
Definition ex_db : db :=
  fed [] [(7%nat, 0%nat, (1, u0, u0)); (9%nat, 0%nat, (1, u0, u0)); (7%nat, 1%nat, (2, u0, u0));
          (7%nat, 0%nat, (3, (4, 5), u0))].
Lemma fed_reach l : forall d, db_reach d -> db_reach (fed d l).
Proof.
  induction l as [|[[id cam] [[t u] n]] l IH]; intros d H; cbn [fed]; [auto|].
  apply IH. eapply dr_step with (o := DUpdate id t cam u n); [eauto|discriminate|reflexivity].
Qed.
Lemma ex_db_reach : db_reach ex_db.
Proof. apply fed_reach. constructor. Qed.
Lemma ex_db_chron : db_chron ex_db.
Proof. apply chron_thm. cbn. repeat (constructor; try lra). Qed.

(** without chronological tracks the "not newer" query is wrong *)
Lemma unordered_refuted :
  exists d t f, db_reach d /\ In f (fst (features_not_containing_newer t false false d)) /\
    exists t', seen f t' /\ t < t'.
Proof.
  exists (fed [] [(7%nat, 0%nat, (3, u0, u0)); (7%nat, 0%nat, (1, u0, u0))]), 2.
  eexists. split; [apply fed_reach; constructor|]. split.
  - cbn. rewrite (proj2 (Rleb_false 2 1)) by lra. cbn. left. reflexivity.
  - exists 3. split; [|lra]. exists 0%nat, (3, u0, u0). cbn. auto.
Qed.

Lemma append_order_refuted :
  exists d other d', db_reach d /\ db_reach other /\ db_chron d /\ db_chron other /\
    append_new_measurements d other = Ok d' /\ ~ db_chron d'.
Proof.
  exists (fed [] [(7%nat, 0%nat, (2, u0, u0))]), (fed [] [(7%nat, 0%nat, (1, u0, u0))]).
  eexists. split; [apply fed_reach; constructor|]. split; [apply fed_reach; constructor|].
  split; [apply chron_thm; cbn; repeat constructor|].
  split; [apply chron_thm; cbn; repeat constructor|].
  split.
  - cbn. rewrite (proj2 (Reqb_false 2 1)) by lra. cbn. reflexivity.
  - intros C. specialize (C 7%nat _ eq_refl 0%nat). cbn in C. unfold otime in C; cbn in C.
    apply StronglySorted_inv in C. destruct C as [_ F]. inversion F. lra.
Qed.

Lemma append_source_duplicates_refuted :
  exists d other d' id cam, db_reach d /\ db_reach other /\
    append_new_measurements d other = Ok d' /\
    NoDup (map otime (track d id cam)) /\ ~ NoDup (map otime (track d' id cam)).
Proof.
  exists (fed [] [(7%nat, 0%nat, (1, u0, u0))]),
         (fed [] [(7%nat, 0%nat, (2, u0, u0)); (7%nat, 0%nat, (2, u0, u0))]).
  eexists. exists 7%nat, 0%nat.
  split; [apply fed_reach; constructor|]. split; [apply fed_reach; constructor|]. split; [|split].
  - cbn. rewrite (proj2 (Reqb_false 1 2)) by lra. cbn. reflexivity.
  - cbn. constructor; [intros []|constructor].
  - cbn. unfold otime; cbn. intros N. apply NoDup_cons_iff in N. destruct N as [_ N].
    apply NoDup_cons_iff in N. destruct N as [N _]. apply N. left. reflexivity.
Qed.

Lemma get_feature_thm d id remove : db_ok d ->
  let r := get_feature d id remove in
  fst r = alook d id /\
  forall id', alook (snd r) id' = if (remove && Nat.eqb id' id)%bool then None else alook d id'.
Proof.
  intros OK r. unfold r, get_feature. destruct (alook d id) as [f|] eqn:E; cbn [fst snd].
  - split; [auto|]. intros id'. destruct remove; cbn [andb]; [|reflexivity].
    unfold aerase. rewrite (alook_filter_keys (fun k => negb (Nat.eqb k id))).
    destruct (Nat.eqb id' id); reflexivity.
  - split; [auto|]. intros id'. destruct remove; cbn [andb]; [|reflexivity].
    destruct (Nat.eqb_spec id' id) as [->|]; auto.
Qed.

Lemma get_feature_clone_thm d id dst :
  let r := get_feature_clone d id dst in
  match alook d id with Some f => r = (true, f) | None => r = (false, dst) end.
Proof.
  unfold get_feature_clone. destruct (alook d id) as [f|]; [|reflexivity]. destruct f; reflexivity.
Qed.
