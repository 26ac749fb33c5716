(** Association and segment selection. *)
From Coq Require Import Reals List Arith Bool Lia Lra Sorted Permutation.
From Verif Require Import RBool Outcome GeoModel GeoSpec InitModel InitSpec EvalModel EvalSpec.
Import ListNotations.
Open Scope R_scope.

Lemma gt_skip_spec t maxd : forall l k, exists d l', l = d ++ l' /\ gt_skip t maxd (indexed k l) = indexed (k + length d) l' /\
  (forall g, In g d -> g < t /\ maxd < Rabs (g - t)) /\
  (forall g l2, l' = g :: l2 -> t <= g \/ Rabs (g - t) <= maxd).
Proof.
  induction l as [|x l IH]; intros k.
  - exists [], []. simpl. repeat split; try easy.
  - cbn [indexed gt_skip]. destruct (Rltb x t && Rltb maxd (Rabs (x - t)))%bool eqn:E.
    + apply andb_true_iff in E. destruct E as [E1 E2]. apply Rltb_true in E1. apply Rltb_true in E2.
      destruct (IH (S k)) as (d & l' & -> & E & A & B). exists (x :: d), l'. split; [reflexivity|].
      split; [rewrite E; f_equal; simpl; lia|]. split; [|exact B]. intros g [<-|H]; auto.
    + exists [], (x :: l). split; [reflexivity|]. split; [simpl; rewrite Nat.add_0_r; reflexivity|]. split; [easy|].
      intros g l2 H. injection H as <- <-. apply andb_false_iff in E. destruct E as [E|E]; apply Rltb_false in E; lra.
Qed.

Lemma gt_best_spec t maxd : forall l k bd bi, bd <= maxd ->
  let r := gt_best t maxd bd bi (indexed k l) in
  (r = (bi, indexed k l) /\ forall g l2, l = g :: l2 -> bd <= Rabs (g - t)) \/
  exists l1 g l2, l = l1 ++ g :: l2 /\ r = (Some (k + length l1)%nat, indexed (k + length l1 + 1) l2) /\
    Rabs (g - t) < bd /\ (forall x, In x l1 -> Rabs (g - t) < Rabs (x - t)) /\
    (forall h l3, l2 = h :: l3 -> Rabs (g - t) <= Rabs (h - t)).
Proof.
  induction l as [|x l IH]; intros k bd bi Hb; cbn [indexed gt_best]; cbv zeta.
  - left. split; [reflexivity|]. intros; discriminate.
  - destruct (Rleb_spec (Rabs (x - t)) maxd) as [H|H].
    + destruct (Rleb_spec bd (Rabs (x - t))) as [H2|H2].
      * left. split; [reflexivity|]. intros g l2 E. injection E as <- <-. exact H2.
      * right. destruct (IH (S k) (Rabs (x - t)) (Some k) H) as [[E A]|(l1 & g & l2 & -> & E & A & B & C)].
        -- exists [], x, l. simpl. split; [reflexivity|]. split; [rewrite E, Nat.add_0_r, Nat.add_1_r; reflexivity|].
           split; [lra|]. split; [easy|exact A].
        -- exists (x :: l1), g, l2. split; [reflexivity|]. split; [rewrite E; simpl; f_equal; f_equal; lia|].
           split; [lra|]. split; [|exact C]. intros y [<-|Hy]; [lra|auto].
    + left. split; [reflexivity|]. intros g l2 E. injection E as <- <-. lra.
Qed.

Lemma nth_error_mid {A} (l1 : list A) x l2 : nth_error (l1 ++ x :: l2) (length l1) = Some x.
Proof. rewrite nth_error_app2, Nat.sub_diag by lia. reflexivity. Qed.

Lemma assoc_basic off maxd (eall gall : list R) : forall est epre l gpre, eall = epre ++ est -> gall = gpre ++ l ->
  let ps := assoc_loop off maxd (length epre) est (indexed (length gpre) l) in
  Forall (fun p => (length epre <= fst p)%nat /\ (length gpre <= snd p)%nat /\ near off maxd eall gall p) ps /\ StronglySorted lt2 ps.
Proof.
  induction est as [|e est IH]; intros epre l gpre Ee Eg; cbv zeta.
  - simpl. split; constructor.
  - cbn [assoc_loop]. destruct (gt_skip_spec (e + off) maxd l (length gpre)) as (d & l' & El & -> & _ & _).
    assert (Eg' : gall = (gpre ++ d) ++ l') by (rewrite Eg, El, app_assoc; reflexivity).
    rewrite <- app_length. set (gp := gpre ++ d) in *.
    assert (Lg : (length gpre <= length gp)%nat) by (unfold gp; rewrite app_length; lia). clearbody gp.
    assert (Ee' : eall = (epre ++ [e]) ++ est) by (rewrite Ee, <- app_assoc; reflexivity).
    assert (Le : S (length epre) = length (epre ++ [e])) by (rewrite app_length; simpl; lia).
    destruct (gt_best_spec (e + off) maxd l' (length gp) maxd None (Rle_refl _)) as [[-> _]|(l1 & g & l2 & -> & -> & D & _ & _)].
    + destruct (IH (epre ++ [e]) l' gp Ee' Eg') as [A B]. rewrite <- Le in A, B. split; [|exact B].
      eapply Forall_impl; [|exact A]. intros p (P1 & P2 & P3). split; [lia|]. split; [lia|exact P3].
    + assert (Eg2 : gall = (gp ++ l1 ++ [g]) ++ l2) by (rewrite Eg', <- !app_assoc; reflexivity).
      assert (Lk : (length gp + length l1 + 1)%nat = length (gp ++ l1 ++ [g])) by (rewrite !app_length; simpl; lia).
      destruct (IH (epre ++ [e]) l2 (gp ++ l1 ++ [g]) Ee' Eg2) as [A B]. rewrite <- Le, <- Lk in A, B.
      assert (N : near off maxd eall gall (length epre, (length gp + length l1)%nat)).
      { exists e, g. split; [rewrite Ee; apply nth_error_mid|]. split; [|exact D].
        rewrite Eg', app_assoc. simpl. rewrite <- app_length. apply nth_error_mid. }
      split.
      * constructor; [split; [simpl; lia|]; split; [simpl; lia|exact N]|].
        eapply Forall_impl; [|exact A]. intros p (P1 & P2 & P3). split; [lia|]. split; [lia|exact P3].
      * constructor; [exact B|]. eapply Forall_impl; [|exact A]. intros p (P1 & P2 & P3). split; simpl; lia.
Qed.

Lemma sorted_app_lt (l1 : list R) x l2 y : StronglySorted Rlt (l1 ++ x :: l2) -> (In y l1 -> y < x) /\ (In y l2 -> x < y).
Proof.
  induction l1 as [|a l1 IH]; intros H; inversion H; subst.
  - split; [easy|]. rewrite Forall_forall in H3. auto.
  - destruct (IH H2) as [A B]. split; [|exact B]. intros [<-|I]; auto. rewrite Forall_forall in H3. apply H3, in_elt.
Qed.
Lemma sorted_app_r (l1 l2 : list R) : StronglySorted Rlt (l1 ++ l2) -> StronglySorted Rlt l2.
Proof. induction l1; simpl; auto. intros H; inversion H; auto. Qed.

Lemma nth_error_split_in {A} (pre l : list A) k x : (length pre <= k)%nat -> nth_error (pre ++ l) k = Some x -> nth_error l (k - length pre) = Some x.
Proof. intros H E. rewrite nth_error_app2 in E; auto. Qed.

Lemma assoc_greedy off maxd (gall : list R) : StronglySorted Rlt gall -> forall est i l old free gpre,
  StronglySorted Rle est -> gall = gpre ++ old ++ l -> length gpre = free ->
  (forall e g, In e est -> In g gall -> Rabs (g - (e + off)) <> maxd) ->
  (forall e g, In e est -> In g old -> g < e + off /\ maxd < Rabs (g - (e + off))) ->
  greedy_match off maxd gall free i est (assoc_loop off maxd i est (indexed (length (gpre ++ old)) l)).
Proof.
  intros SG. induction est as [|e est IH]; intros i l old free gpre SE Eg Lf NB HO; [constructor|].
  cbn [assoc_loop]. set (t := e + off) in *.
  destruct (gt_skip_spec t maxd l (length (gpre ++ old))) as (d & l' & El & -> & HD & HL).
  rewrite <- app_length.
  assert (SE' : StronglySorted Rle est /\ Forall (Rle e) est) by (inversion SE; auto). destruct SE' as [SE1 SE2]. rewrite Forall_forall in SE2.
  assert (Eg' : gall = gpre ++ (old ++ d) ++ l') by (rewrite Eg, El, !app_assoc; reflexivity).
  assert (OD : forall e' g, e' = e \/ In e' est -> In g (old ++ d) -> g < e' + off /\ maxd < Rabs (g - (e' + off))).
  { intros e' g He' I.
    assert (X : g < t /\ maxd < Rabs (g - t)). { apply in_app_iff in I. destruct I as [I|I]; [apply HO; [left; auto|auto]|auto]. }
    assert (e <= e') by (destruct He' as [->|He']; [lra|auto]). unfold t in X.
    destruct X as [X1 X2]. split; [lra|]. rewrite Rabs_left in X2 by lra. rewrite Rabs_left by lra. lra. }
  rewrite <- app_assoc. set (od := old ++ d) in *. clearbody od.
  assert (NBe : forall e0 g, In e0 est -> In g gall -> Rabs (g - (e0 + off)) <> maxd) by (intros; apply NB; [right|]; auto).
  assert (SL : StronglySorted Rlt l'). { apply sorted_app_r with (gpre ++ od). rewrite <- app_assoc, <- Eg'. exact SG. }
  destruct (gt_best_spec t maxd l' (length (gpre ++ od)) maxd None (Rle_refl _)) as [[-> H0]|(l1 & g & l2 & El' & -> & HDi & HL1 & HL2)].
  - apply gm_none.
    + intros k gk Hk E. fold t. rewrite Eg' in E. apply nth_error_split_in in E; [|lia]. apply nth_error_In in E. apply in_app_iff in E. destruct E as [E|E].
      { destruct (OD e gk (or_introl eq_refl) E) as [_ X]. fold t in X. lra. }
      destruct l' as [|h l2]; [destruct E|]. pose proof (H0 h l2 eq_refl) as Hh.
      assert (Hn : Rabs (h - t) <> maxd). { apply (NB e h); [left; auto|]. rewrite Eg', !in_app_iff. right; right; left; auto. }
      assert (Ht : t <= h) by (destruct (HL h l2 eq_refl); lra).
      destruct E as [<-|E]; [lra|]. pose proof (proj2 (sorted_app_lt [] h l2 gk SL) E) as Hlt.
      rewrite Rabs_right in Hh by lra. rewrite Rabs_right by lra. lra.
    + apply IH; auto.
  - assert (Lk : (length (gpre ++ od) + length l1 + 1)%nat = length ((gpre ++ od ++ l1 ++ [g]) ++ [])) by (rewrite !app_length; simpl; lia).
    apply gm_match with g.
    + rewrite app_length. lia.
    + rewrite Eg', El', !app_assoc, <- app_length. apply nth_error_mid.
    + exact HDi.
    + intros k gk Hk E Nk. fold t. rewrite Eg' in E. apply nth_error_split_in in E; [|lia]. rewrite app_length in Nk |- *.
      assert (Ik : nth_error (od ++ l1 ++ g :: l2) (k - length gpre) = Some gk) by (rewrite <- El'; exact E).
      destruct (Nat.lt_ge_cases (k - length gpre) (length od)) as [A|A].
      { rewrite nth_error_app1 in Ik by lia. apply nth_error_In in Ik. destruct (OD e gk (or_introl eq_refl) Ik) as [_ X]. fold t in X. split; [lra|intros; lra]. }
      rewrite nth_error_app2 in Ik by lia.
      destruct (Nat.lt_ge_cases (k - length gpre - length od) (length l1)) as [B|B].
      { rewrite nth_error_app1 in Ik by lia. apply nth_error_In in Ik. apply HL1 in Ik. split; [lra|intros; lra]. }
      rewrite nth_error_app2 in Ik by lia.
      destruct (k - length gpre - length od - length l1)%nat as [|m] eqn:Em; [exfalso; apply Nk; lia|].
      split; [|lia]. cbn [nth_error] in Ik. apply nth_error_In in Ik. destruct l2 as [|h l3]; [destruct Ik|].
      pose proof (HL2 h l3 eq_refl) as Hh. rewrite El' in SL.
      assert (Hgh : g < h) by (apply (proj2 (sorted_app_lt l1 g (h :: l3) h SL)); left; auto).
      assert (Hth : t <= h). { destruct (Rle_dec t h); auto. rewrite !Rabs_left in Hh by lra. lra. }
      assert (Hhk : h <= gk). { destruct Ik as [<-|Ik]; [lra|]. apply sorted_app_r in SL. inversion SL; subst. left. apply (proj2 (sorted_app_lt [] h l3 gk H1) Ik). }
      rewrite (Rabs_right (h - t)) in Hh by lra. rewrite (Rabs_right (gk - t)) by lra. lra.
    + rewrite Lk. apply IH; auto.
      * rewrite Eg', El', <- !app_assoc. reflexivity.
      * rewrite !app_length. simpl. lia.
      * intros e0 g0 _ [].
Qed.

(** segments *)
Lemma seg_scan_spec target : forall l i be bi,
  let r := seg_scan target be bi i l in
  (r = bi /\ forall d, In d l -> be <= Rabs (d - target)) \/
  exists l1 d l2, l = l1 ++ d :: l2 /\ r = Some (i + length l1)%nat /\ Rabs (d - target) < be /\
    (forall x, In x l1 -> Rabs (d - target) < Rabs (x - target)) /\ (forall x, In x l2 -> Rabs (d - target) <= Rabs (x - target)).
Proof.
  induction l as [|x l IH]; intros i be bi; cbn [seg_scan]; cbv zeta.
  - left. split; [reflexivity|intros ? []].
  - destruct (Rltb_spec (Rabs (x - target)) be) as [H|H].
    + right. destruct (IH (S i) (Rabs (x - target)) (Some i)) as [[E A]|(l1 & d & l2 & -> & E & A & B & C)].
      * exists [], x, l. simpl. rewrite Nat.add_0_r. repeat split; auto; try easy.
      * exists (x :: l1), d, l2. split; [reflexivity|]. split; [rewrite E; f_equal; simpl; lia|]. split; [lra|]. split; [|exact C].
        intros y [<-|Hy]; auto.
    + destruct (IH (S i) be bi) as [[E A]|(l1 & d & l2 & -> & E & A & B & C)].
      * left. split; [exact E|]. intros d [<-|Hd]; [lra|auto].
      * right. exists (x :: l1), d, l2. split; [reflexivity|]. split; [rewrite E; f_equal; simpl; lia|]. split; [lra|]. split; [|exact C].
        intros y [<-|Hy]; [lra|auto].
Qed.

Lemma seg_all_spec dist maxd : forall l pre i r, nth_error (seg_all dist maxd (length pre) l) i = Some r ->
  exists d, nth_error l i = Some d /\ nearest_from (pre ++ l) (d + dist) maxd (length pre + i) r.
Proof.
  induction l as [|x l IH]; intros pre i r E; [destruct i; discriminate|]. cbn [seg_all] in E.
  destruct i as [|i].
  - cbn [nth_error] in E. injection E as <-. exists x. split; [reflexivity|]. rewrite Nat.add_0_r.
    destruct (seg_scan_spec (x + dist) (x :: l) (length pre) maxd None) as [[E A]|(l1 & d & l2 & El & E & A & B & C)]; cbv zeta in E;
      cbn [seg_scan] in E; rewrite E; unfold nearest_from.
    + intros k dk Hk Ek. apply nth_error_split_in in Ek; auto. apply nth_error_In in Ek. auto.
    + rewrite El. split; [lia|]. exists d. split; [rewrite app_assoc, <- app_length; apply nth_error_mid|]. split; [exact A|].
      intros k dk Hk Ek. apply nth_error_split_in in Ek; auto.
      destruct (Nat.lt_ge_cases (k - length pre) (length l1)) as [X|X].
      { rewrite nth_error_app1 in Ek by lia. apply nth_error_In in Ek. apply B in Ek. split; [lra|intros; lra]. }
      rewrite nth_error_app2 in Ek by lia. split; [|lia].
      destruct (k - length pre - length l1)%nat as [|m]; [injection Ek as ->; lra|]. cbn [nth_error] in Ek. apply nth_error_In in Ek. auto.
  - cbn [nth_error] in E |- *. replace (S (length pre)) with (length (pre ++ [x])) in E by (rewrite app_length; simpl; lia).
    destruct (IH (pre ++ [x]) i r E) as (d & Ed & N). exists d. split; [exact Ed|].
    rewrite <- app_assoc in N. replace (length pre + S i)%nat with (length (pre ++ [x]) + i)%nat by (rewrite app_length; simpl; lia). exact N.
Qed.
Lemma seg_all_length dist maxd : forall l i, length (seg_all dist maxd i l) = length l.
Proof. induction l; intros; simpl; auto. Qed.
