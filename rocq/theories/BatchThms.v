From Coq Require Import Reals List ZArith Bool Lia Arith Relations Wf_nat.
From Verif Require Import RBool Outcome GeoModel Lin GivensModel TypesModel StateModel DbModel FeatModel HelpModel UpdModel SelModel BatchModel BatchSpec.
Import ListNotations.

Lemma body_short E jac c c' : (1 <= se_batch (en_opt E))%Z -> loop_step E jac c c' -> (length (lp_ids c') < length (lp_ids c))%nat.
Proof.
  intros B (N & Q). unfold loop_body in Q. apply guard_ok in Q; [|discriminate]. destruct Q as (_ & Q). apply obind_ok in Q.
  destruct Q as ((((st & d) & u) & f) & _ & Q). injection Q as <-. cbn [lp_ids]. rewrite skipn_length.
  unfold loop_done in N. destruct (lp_ids c) as [|x l]; [congruence|]. cbn [length]. lia.
Qed.
Lemma loop_wf E jac : (1 <= se_batch (en_opt E))%Z -> forall c, Acc (fun a b => loop_step E jac b a) c.
Proof.
  intros B c. assert (G : forall n c, (length (lp_ids c) < n)%nat -> Acc (fun a b => loop_step E jac b a) c).
  { induction n as [|n IH]; intros x L; [lia|]. constructor. intros y S. apply IH. apply body_short in S; auto. lia. }
  apply (G (S (length (lp_ids c)))). lia.
Qed.
Lemma cut_step {A} k (ids : list A) bs : (1 <= k)%nat -> ids <> [] -> cut_into k (skipn k ids) bs -> cut_into k ids (firstn k ids :: bs).
Proof.
  intros K N (C & L & F). split; [cbn [concat]; rewrite C; apply firstn_skipn|]. split.
  - intros b [<-|I]; auto. rewrite firstn_length. destruct ids; [congruence|]. cbn [length]. lia.
  - intros l1 b c l2 E. destruct l1 as [|x l1]; cbn [app] in E; injection E.
    + intros Eb <-. rewrite firstn_length. apply Nat.min_l. assert (Ic : In c bs) by (rewrite Eb; left; auto). apply L in Ic.
      assert (Ls : (1 <= length (skipn k ids))%nat) by (rewrite <- C, Eb; cbn [concat]; rewrite app_length; lia).
      rewrite skipn_length in Ls. lia.
    + intros Eb _. eapply F; eauto.
Qed.
Lemma cut_nil {A} k : cut_into k (@nil A) [].
Proof. split; [reflexivity|]. split; [intros b []|]. intros l1 b c l2 E. destruct l1; discriminate. Qed.
Lemma cut_unique {A} k : (1 <= k)%nat -> forall (bs bs' : list (list A)) ids, cut_into k ids bs -> cut_into k ids bs' -> bs = bs'.
Proof.
  intros K. induction bs as [|b bs IH]; intros bs' ids (C & L & F) (C' & L' & F').
  - destruct bs' as [|b' bs']; auto. exfalso. cbn [concat] in C. subst ids. specialize (L' b' (or_introl eq_refl)). cbn [concat] in C'.
    apply app_eq_nil in C'. destruct C' as [-> _]. cbn [length] in L'. lia.
  - destruct bs' as [|b' bs'].
    { exfalso. cbn [concat] in C, C'. rewrite <- C' in C. specialize (L b (or_introl eq_refl)). apply app_eq_nil in C. destruct C as [-> _]. cbn [length] in L. lia. }
    cbn [concat] in C, C'. pose proof (L b (or_introl eq_refl)) as Lb. pose proof (L' b' (or_introl eq_refl)) as Lb'.
    assert (Hb : b = firstn k ids /\ concat bs = skipn k ids).
    { destruct bs as [|c bs].
      - cbn [concat] in *. rewrite app_nil_r in C. subst b. rewrite firstn_all2, skipn_all2 by lia. auto.
      - specialize (F [] b c bs eq_refl). subst ids k. rewrite firstn_app, skipn_app, Nat.sub_diag, firstn_all, skipn_all, firstn_O, app_nil_r. auto. }
    assert (Hb' : b' = firstn k ids /\ concat bs' = skipn k ids).
    { destruct bs' as [|c bs'].
      - cbn [concat] in *. rewrite app_nil_r in C'. subst b'. rewrite firstn_all2, skipn_all2 by lia. auto.
      - specialize (F' [] b' c bs' eq_refl). rewrite <- C', <- F'. rewrite firstn_app, skipn_app, Nat.sub_diag, firstn_all, skipn_all, firstn_O, app_nil_r. auto. }
    destruct Hb as [-> Hb], Hb' as [-> Hb']. f_equal. apply (IH bs' (skipn k ids)).
    + split; auto. split; [intros; apply L; right; auto|]. intros l1 x y l2 E. apply (F (firstn k ids :: l1) x y l2). rewrite E. reflexivity.
    + split; auto. split; [intros; apply L'; right; auto|]. intros l1 x y l2 E. apply (F' (firstn k ids :: l1) x y l2). rewrite E. reflexivity.
Qed.
Lemma body_eq E jac c : (0 <= se_batch (en_opt E))%Z ->
  loop_body E jac c = do r <- slam_update (en_chi2 E) (en_so E) (en_single E) jac (lp_st c) (lp_db c) (firstn (Z.to_nat (se_batch (en_opt E))) (lp_ids c));
                      let '(st, d, used, fails) := r in Ok (mkLoop (skipn (Z.to_nat (se_batch (en_opt E))) (lp_ids c)) st d).
Proof.
  intros B. unfold loop_body. assert (G : (0 <=? se_batch (en_opt E))%Z = true) by (apply Z.leb_le; auto). rewrite G. cbn [guard].
  destruct (Z.min_spec (se_batch (en_opt E)) (Z.of_nat (length (lp_ids c)))) as [[L ->]|[L ->]]; [reflexivity|].
  rewrite Nat2Z.id. rewrite (firstn_all2 (n := length (lp_ids c))), (skipn_all2 (n := length (lp_ids c))) by lia.
  rewrite (firstn_all2 (n := Z.to_nat _)), (skipn_all2 (n := Z.to_nat _)) by lia. reflexivity.
Qed.

(** the model's loop, the transition system and the updates in turn agree *)
Lemma batches_run E jac : (1 <= se_batch (en_opt E))%Z -> forall fuel ids st d st' d' uses fails,
  slam_batches E jac fuel ids st d = Ok (st', d', uses, fails) -> loop_runs E jac (mkLoop ids st d) (mkLoop [] st' d').
Proof.
  intros B. induction fuel as [|n IH]; intros ids st d st' d' uses fails Q.
  - destruct ids; [|discriminate]. injection Q as <- <- _ _. constructor.
  - destruct ids as [|i l]; [injection Q as <- <- _ _; constructor|]. cbn [slam_batches] in Q.
    apply obind_ok in Q. destruct Q as ((((st1 & d1) & u) & fl) & Q1 & Q). apply obind_ok in Q. destruct Q as ((((st2 & d2) & u2) & f2) & Q2 & Q).
    injection Q as <- <- _ _. econstructor; [|eapply IH; eauto]. split; [discriminate|]. rewrite body_eq by lia. cbn [lp_ids lp_st lp_db]. rewrite Q1. reflexivity.
Qed.
Lemma run_in_turn E jac : (1 <= se_batch (en_opt E))%Z -> forall c c', loop_runs E jac c c' -> loop_done c' ->
  exists bs, cut_into (Z.to_nat (se_batch (en_opt E))) (lp_ids c) bs /\ in_turn E jac bs (lp_st c) (lp_db c) (lp_st c') (lp_db c').
Proof.
  intros B c c' R D. induction R as [c|c m c' (N & S) R IH].
  - exists []. rewrite D. split; [apply cut_nil|constructor].
  - destruct (IH D) as (bs & Cu & T). rewrite body_eq in S by lia. apply obind_ok in S. destruct S as ((((st & d) & u) & f) & S & Q). injection Q as <-.
    cbn [lp_ids lp_st lp_db] in Cu, T. exists (firstn (Z.to_nat (se_batch (en_opt E))) (lp_ids c) :: bs). split; [apply cut_step; auto; lia|].
    econstructor; eauto.
Qed.
Lemma in_turn_batches E jac : (1 <= se_batch (en_opt E))%Z -> forall bs ids fuel st d st' d', cut_into (Z.to_nat (se_batch (en_opt E))) ids bs -> in_turn E jac bs st d st' d' ->
  (length ids <= fuel)%nat -> exists uses fails, slam_batches E jac fuel ids st d = Ok (st', d', uses, fails).
Proof.
  intros B bs. induction bs as [|b bs IH]; intros ids fuel st d st' d' Cu T L.
  - destruct Cu as (C & _). cbn [concat] in C. subst ids. inversion T; subst. exists [], []. destruct fuel; reflexivity.
  - inversion T as [|? ? ? ? st1 d1 used fails ? ? U T']; subst. destruct ids as [|i l].
    { destruct Cu as (C & Lb & _). specialize (Lb b (or_introl eq_refl)). cbn [concat] in C. apply app_eq_nil in C. destruct C as [-> _]. cbn [length] in Lb. lia. }
    destruct fuel as [|n]; [cbn [length] in L; lia|].
    assert (Cs : exists bs0, cut_into (Z.to_nat (se_batch (en_opt E))) (skipn (Z.to_nat (se_batch (en_opt E))) (i :: l)) bs0).
    { generalize (skipn (Z.to_nat (se_batch (en_opt E))) (i :: l)). intros l0. remember (length l0) as m eqn:Em. revert l0 Em.
      induction m as [m IHm] using lt_wf_ind. intros [|x l0] ->; [exists []; apply cut_nil|].
      destruct (IHm _ (ltac:(rewrite skipn_length; cbn [length]; lia) : (length (skipn (Z.to_nat (se_batch (en_opt E))) (x :: l0)) < length (x :: l0))%nat) _ eq_refl) as (b0 & C0).
      exists (firstn (Z.to_nat (se_batch (en_opt E))) (x :: l0) :: b0). apply cut_step; auto; [lia|discriminate]. }
    destruct Cs as (bs0 & C0). pose proof (cut_step _ _ _ (ltac:(lia) : (1 <= Z.to_nat (se_batch (en_opt E)))%nat) (ltac:(discriminate) : i :: l <> []) C0) as C1.
    assert (Eq := cut_unique _ (ltac:(lia) : (1 <= Z.to_nat (se_batch (en_opt E)))%nat) _ _ _ Cu C1). injection Eq as -> ->.
    destruct (IH (skipn (Z.to_nat (se_batch (en_opt E))) (i :: l)) n st1 d1 st' d' C0 T') as (us & fl & Q).
    { rewrite skipn_length. cbn [length] in *. lia. }
    cbn [slam_batches]. rewrite U. cbn [obind]. rewrite Q. cbn [obind]. eauto.
Qed.
Lemma batches_iff E jac fuel ids st d st' d' : (1 <= se_batch (en_opt E))%Z -> (length ids <= fuel)%nat ->
  ((exists uses fails, slam_batches E jac fuel ids st d = Ok (st', d', uses, fails)) <->
   exists bs, cut_into (Z.to_nat (se_batch (en_opt E))) ids bs /\ in_turn E jac bs st d st' d').
Proof.
  intros B L. split.
  - intros (us & fl & Q). apply batches_run in Q; auto. apply run_in_turn in Q; auto. reflexivity.
  - intros (bs & C & T). eapply in_turn_batches; eauto.
Qed.
(** a batch size of zero: the loop stays where it is *)
Lemma zero_stuck E jac c : se_batch (en_opt E) = 0%Z -> ~ loop_done c -> loop_step E jac c c /\ forall c', loop_runs E jac c c' -> c' = c.
Proof.
  intros B N. assert (Q : loop_body E jac c = Ok c).
  { rewrite body_eq by lia. rewrite B. change (Z.to_nat 0) with 0%nat. cbn [firstn skipn slam_update obind]. destruct c; reflexivity. }
  split; [split; auto|]. intros c' R. induction R as [c|c m c' (N' & S) R IH]; auto. rewrite Q in S. injection S as <-. auto.
Qed.
Lemma negative_ub E jac c : (se_batch (en_opt E) < 0)%Z -> loop_body E jac c = UB.
Proof. intros B. unfold loop_body. assert (G : (0 <=? se_batch (en_opt E))%Z = false) by (apply Z.leb_gt; auto). rewrite G. reflexivity. Qed.
