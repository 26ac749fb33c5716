From Coq Require Import Reals List Arith Bool Ascii Lia Lra.
From Verif Require Import RBool Outcome GeoModel InitModel EvalModel FileModel FileSpec FileProofs.
Import ListNotations.
Open Scope R_scope.

(** ** load_gt_file *)
Lemma gt_fields_ok num fs : forall i v, (i + length fs <= 17)%nat -> exists r, gt_fields num i v fs = Ok r /\
  forall k, ((k < i)%nat -> r k = v k) /\ (forall j f, nth_error fs j = Some f -> k = (i + j)%nat -> r k = num f) /\ ((i + length fs <= k)%nat -> r k = v k).
Proof.
  induction fs as [|f fs IH]; intros i v L; cbn [gt_fields length] in *.
  - exists v. split; auto. intros k. split; auto. split; auto. intros [|j] f; discriminate.
  - destruct (Nat.ltb_spec 16 i) as [?|_]; [lia|]. destruct (IH (S i) (put v i (num f)) ltac:(lia)) as (r & E & H). exists r. split; auto.
    intros k. destruct (H k) as (A & B & C). split; [|split].
    + intros Lk. rewrite A by lia. unfold put. destruct (Nat.eqb_spec k i); [lia|auto].
    + intros [|j] f' Ef ->; cbn [nth_error] in Ef; [injection Ef as <-|apply (B j); auto; lia].
      rewrite A by lia. unfold put. destruct (Nat.eqb_spec (i + 0) i); [auto|lia].
    + intros Lk. rewrite C by lia. unfold put. destruct (Nat.eqb_spec k i); [lia|auto].
Qed.
Lemma gt_fields_exit num fs : forall i v, (17 < i + length fs)%nat -> (i <= 17)%nat -> gt_fields num i v fs = Exit.
Proof.
  induction fs as [|f fs IH]; intros i v L Li; cbn [gt_fields length] in *; [lia|].
  destruct (Nat.ltb_spec 16 i); [reflexivity|]. apply IH; lia.
Qed.
Lemma asc_cons {A} (e : R * A) m : ascending (e :: m) <-> (forall x, In x m -> fst e < fst x) /\ ascending m.
Proof.
  split.
  - intros H. split.
    + intros x I. apply in_split in I. destruct I as (l1 & l2 & ->). apply (H [] e l1 x l2). reflexivity.
    + intros l1 a l2 b l3 E. apply (H (e :: l1) a l2 b l3). rewrite E. reflexivity.
  - intros (F & H) l1 a l2 b l3 E. destruct l1 as [|x l1]; cbn [app] in E; injection E.
    + intros E' <-. apply F. rewrite E'. apply in_elt.
    + intros E' _. eapply H; eauto.
Qed.
Lemma asc_nil {A} : ascending (@nil (R * A)).
Proof. intros l1 a l2 b l3 E. destruct l1; discriminate. Qed.
Lemma minsert_in k v m : ascending m -> forall k' v', In (k', v') (minsert k v m) <->
  In (k', v') m \/ k' = k /\ v' = v /\ forall u, ~ In (k, u) m.
Proof.
  induction m as [|(k0 & v0) m IH]; intros S k' v'; cbn [minsert].
  - cbn [In]. split; [intros [[= <- <-]|[]]; right; auto|intros [[]|(-> & -> & _)]; auto].
  - apply asc_cons in S. destruct S as (F & S). specialize (IH S). destruct (Rltb_spec k k0) as [Lt|Ge].
    + cbn [In]. split.
      * intros [[= <- <-]|I]; [right|left; auto]. split; auto. split; auto. intros u [[= -> _]|Iu]; [lra|]. apply F in Iu. cbn [fst] in Iu. lra.
      * intros [I|(-> & -> & _)]; auto.
    + destruct (Reqb_spec k k0) as [->|Ne].
      * split; [auto|]. intros [I|(-> & -> & N)]; auto. exfalso. apply (N v0). left; auto.
      * cbn [In]. rewrite IH. split.
        -- intros [E|[I|(-> & -> & N)]]; auto. right. split; auto. split; auto. intros u [[= E _]|Iu]; [lra|]. apply (N u); auto.
        -- intros [[E|I]|(-> & -> & N)]; auto. right. right. split; auto. split; auto. intros u Iu. apply (N u). right; auto.
Qed.
Lemma minsert_asc k v m : ascending m -> ascending (minsert k v m).
Proof.
  induction m as [|(k0 & v0) m IH]; intros S; cbn [minsert].
  - apply asc_cons. split; [intros x []|apply asc_nil].
  - pose proof S as S'. apply asc_cons in S. destruct S as (F & S). destruct (Rltb_spec k k0) as [Lt|Ge].
    + apply asc_cons. split; auto. intros x [<-|I]; cbn [fst]; auto. apply F in I. cbn [fst] in I. lra.
    + destruct (Reqb_spec k k0) as [->|Ne]; auto. apply asc_cons. split; auto. intros (k1 & v1) I. apply minsert_in in I; auto.
      destruct I as [I|(-> & _)]; [apply (F _ I)|cbn [fst]; lra].
Qed.
Lemma first_of vs (k : R) : (exists u, In u vs /\ u 0%nat / 10 ^ 9 = k) ->
  exists l1 (v : nat -> R) l2, vs = l1 ++ v :: l2 /\ k = v 0%nat / 10 ^ 9 /\ forall u, In u l1 -> u 0%nat / 10 ^ 9 <> k.
Proof.
  induction vs as [|a vs IH]; intros (u & I & E); [destruct I|]. destruct (Req_dec (a 0%nat / 10 ^ 9) k) as [Ea|Na].
  - exists [], a, vs. split; auto.
  - destruct I as [->|I]; [congruence|]. destruct IH as (l1 & v & l2 & -> & Ev & H); [eauto|]. exists (a :: l1), v, l2. split; auto. split; auto.
    intros x [<-|Ix]; auto.
Qed.
Lemma wins_step vs m v : first_wins vs m -> first_wins (vs ++ [v]) (minsert (/ 10 ^ 9 * v 0%nat) v m).
Proof.
  intros (S & H). rewrite (Rmult_comm (/ 10 ^ 9)). change (v 0%nat * / 10 ^ 9) with (v 0%nat / 10 ^ 9). split; [apply minsert_asc; auto|]. intros k u. rewrite minsert_in by auto. split.
  - intros [I|(-> & -> & N)].
    + apply H in I. destruct I as (l1 & l2 & -> & E & F). exists l1, (l2 ++ [v]). rewrite <- app_assoc. auto.
    + exists vs, []. split; auto. split; auto. intros x Ix Ex. destruct (first_of vs (v 0%nat / 10 ^ 9)) as (l1 & w & l2 & Ew & Kw & F); [eauto|].
      apply (N w). apply H. exists l1, l2. auto.
  - intros (l1 & l2 & E & K & F). destruct (exists_last (l := u :: l2)) as (q & z & Eq); [discriminate|].
    assert (E' : vs ++ [v] = (l1 ++ q) ++ [z]) by (rewrite <- app_assoc, <- Eq; exact E). apply app_inj_tail in E'. destruct E' as (-> & ->).
    destruct q as [|y q]; cbn [app] in Eq; injection Eq; intros.
    + subst l2 z. rewrite app_nil_r in *. right. split; auto. split; auto. intros w Iw. apply H in Iw. destruct Iw as (m1 & m2 & -> & Kw & _). apply (F w); [apply in_elt|]. congruence.
    + subst y l2. left. apply H. exists l1, q. auto.
Qed.
Lemma gt_line_fields num l r : (length (getlines "," l) <= 17)%nat -> gt_fields num 0 (fun _ => 0) (getlines "," l) = Ok r -> gt_line num l r.
Proof.
  intros L E. destruct (gt_fields_ok num (getlines "," l) 0 (fun _ => 0) ltac:(lia)) as (r' & E' & H). rewrite E in E'. injection E' as <-.
  exists (getlines "," l). split; [apply getlines_cells|]. split; auto. intros i. destruct (H i) as (_ & B & C). split.
  - intros f N. apply (B i f N). lia.
  - intros N. apply C. apply nth_error_None in N. lia.
Qed.
Lemma gt_loop_thm num ls : (forall l, In l ls -> ~ too_long l) -> forall vs0 m0, first_wins vs0 m0 ->
  exists vs m, gt_loop num ls m0 = Ok m /\ Forall2 (gt_line num) ls vs /\ first_wins (vs0 ++ vs) m.
Proof.
  induction ls as [|l ls IH]; intros N vs0 m0 W; cbn [gt_loop].
  - exists [], m0. rewrite app_nil_r. split; [auto|]. split; [constructor|auto].
  - assert (Ln : (length (getlines "," l) <= 17)%nat).
    { destruct (le_lt_dec (length (getlines "," l)) 17); auto. exfalso. apply (N l); [left; auto|]. exists (getlines "," l). split; auto. apply getlines_cells. }
    destruct (gt_fields_ok num (getlines "," l) 0 (fun _ => 0) ltac:(lia)) as (v & E & _). rewrite E. cbn [obind].
    destruct (IH (fun l' I => N l' (or_intror I)) _ _ (wins_step vs0 m0 v W)) as (vs & m & Em & F & Wm). exists (v :: vs), m. split; auto. split.
    + constructor; auto. apply gt_line_fields; auto.
    + rewrite <- app_assoc in Wm. exact Wm.
Qed.
Lemma gt_loop_exit num ls : (exists l, In l ls /\ too_long l) -> forall m0, gt_loop num ls m0 = Exit.
Proof.
  induction ls as [|l ls IH]; intros (x & I & L) m0; [destruct I|]. cbn [gt_loop]. destruct (le_lt_dec (length (getlines "," l)) 17) as [Le|Gt].
  - destruct (gt_fields_ok num (getlines "," l) 0 (fun _ => 0) ltac:(lia)) as (v & E & _). rewrite E. cbn [obind]. apply IH. destruct I as [->|I]; [|eauto].
    exfalso. destruct L as (fs & C & L). rewrite (cells_fun _ _ _ C _ (getlines_cells "," x)) in L. lia.
  - rewrite gt_fields_exit by lia. reflexivity.
Qed.
Lemma wins_nil : first_wins [] [].
Proof. split; [apply asc_nil|]. intros k v. split; [intros []|]. intros (l1 & l2 & E & _). destruct l1; discriminate. Qed.
Lemma load_gt_thm num s ls : lines s ls ->
  ((exists l, In l (tl ls) /\ too_long l) -> load_gt_file num (Some s) = Exit) /\
  ((forall l, In l (tl ls) -> ~ too_long l) -> exists vs m, load_gt_file num (Some s) = Ok m /\ Forall2 (gt_line num) (tl ls) vs /\ first_wins vs m).
Proof.
  intros L. apply lines_eq in L. subst ls. unfold load_gt_file. split; [intros H; apply gt_loop_exit; auto|].
  intros H. destruct (gt_loop_thm num _ H [] [] wins_nil) as (vs & m & E & F & W). exists vs, m. auto.
Qed.

(** ** get_gt_state *)
Lemma closest_some t m : forall b, ascending m -> (forall e, In e m -> b < fst e) -> exists c, closest t (Some b) m = Some c /\
  (c = b \/ In c (map fst m)) /\ (Rabs (c - t) < Rabs (b - t) \/ Rabs (c - t) = Rabs (b - t) /\ c <= b) /\ nearest m t c.
Proof.
  induction m as [|(k & v) m IH]; intros b S F; cbn [closest].
  - exists b. split; auto. split; auto. split; [right; split; [auto|lra]|]. intros k' v' [].
  - apply asc_cons in S. destruct S as (F' & S). cbn [fst] in F'. destruct (Rltb_spec (Rabs (k - t)) (Rabs (b - t))) as [Lt|Ge].
    + destruct (IH k S F') as (c & E & I & B & N). exists c. split; auto. split; [cbn [map fst In]; right; destruct I; auto|].
      split; [left; destruct B as [B|(B & _)]; lra|]. intros k' v' [[= <- <-]|I']; [exact B|eapply N; eauto].
    + assert (Fb : forall e, In e m -> b < fst e) by (intros e I; apply F; right; auto).
      destruct (IH b S Fb) as (c & E & I & B & N). exists c. split; auto. split; [destruct I; [auto|right; right; auto]|]. split; auto.
      assert (bk : b < k) by (apply (F (k, v)); left; auto).
      intros k' v' [[= <- <-]|I']; [|eapply N; eauto]. destruct B as [B|(B & Lb)]; [left; lra|]. destruct (Req_dec (Rabs (b - t)) (Rabs (k - t))); [right; split; lra|left; lra].
Qed.
Lemma mfind_in k m v : mfind k m = Some v -> In (k, v) m.
Proof.
  induction m as [|(k0 & v0) m IH]; cbn [mfind]; [discriminate|]. destruct (Reqb_spec k0 k) as [->|Ne]; [intros [= ->]; left; auto|right; auto].
Qed.
Lemma mfind_some k m v : In (k, v) m -> exists u, mfind k m = Some u.
Proof.
  induction m as [|(k0 & v0) m IH]; cbn [mfind]; [intros []|]. destruct (Reqb_spec k0 k) as [->|Ne]; [eauto|]. intros [[= E _]|I]; [congruence|auto].
Qed.
Lemma get_gt_thm t m : ascending m ->
  (forall r, get_gt_state t m = Some r -> exists k v, In (k, v) m /\ Rabs (k - t) < 0.1 /\ nearest m t k /\ handed k v r) /\
  (get_gt_state t m = None <-> forall k v, In (k, v) m -> 0.1 <= Rabs (k - t)).
Proof.
  intros S. unfold get_gt_state. destruct m as [|(k0 & v0) m]; [split; [discriminate|split; [intros _ k v []|auto]]|].
  pose proof S as S0. apply asc_cons in S. destruct S as (F & S). cbn [closest fst] in *.
  destruct (closest_some t m k0 S F) as (c & -> & I & B & N).
  assert (Nc : nearest ((k0, v0) :: m) t c) by (intros k' v' [[= <- <-]|I']; [exact B|eapply N; eauto]).
  assert (Ic : exists u, In (c, u) ((k0, v0) :: m)).
  { destruct I as [->|I]; [exists v0; left; auto|]. apply in_map_iff in I. destruct I as ((k1 & u) & <- & I). exists u. right; auto. }
  destruct (Rltb_spec (Rabs (c - t)) 0.10) as [Lt|Ge].
  - destruct Ic as (u & Iu). destruct (mfind_some _ _ _ Iu) as (w & Ew). rewrite Ew. split.
    + intros r [= <-]. exists c, w. split; [apply mfind_in; auto|]. split; [lra|]. split; auto. unfold handed, fixed. repeat split.
      intros i Li. do 8 (destruct i as [|i]; [lia|]). reflexivity.
    + split; [discriminate|]. intros A. apply A in Iu. lra.
  - assert (A : forall k v, In (k, v) ((k0, v0) :: m) -> 0.1 <= Rabs (k - t)).
    { intros k v Ik. apply Nc in Ik. destruct Ik as [Ik|(Ik & _)]; lra. }
    destruct (mfind t ((k0, v0) :: m)) as [w|] eqn:Ew.
    + exfalso. apply mfind_in in Ew. apply A in Ew. rewrite Rminus_eq_0, Rabs_R0 in Ew. lra.
    + split; [discriminate|]. split; auto.
Qed.

(** ** flamegraph *)
Lemma flame_short num ls nm a l : In l ls -> ~ noted l -> words "," l [] -> flame_loop num ls nm a = UB.
Proof.
  intros I N W. apply words_eq in W. revert nm a. induction ls as [|x ls IH]; intros nm a; [destruct I|]. cbn [flame_loop]. destruct I as [->|I].
  - apply comment_not in N. rewrite N. rewrite fill_all_eq, <- W. reflexivity.
  - destruct (comment x); [apply IH; auto|]. destruct (fill_all num [] (getlines "," x)); [reflexivity|apply IH; auto].
Qed.
