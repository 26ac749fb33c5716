(** Looking up neighbouring poses in the B-spline's maps (C40). *)
From Coq Require Import Reals List Bool Lia Lra Sorted.
From Verif Require Import RBool Outcome GeoModel BsplModel BsplSpec.
Import ListNotations.
Open Scope R_scope.

Lemma by_time_app l1 l2 : by_time (l1 ++ l2) <->
  by_time l1 /\ by_time l2 /\ (forall a b, In a l1 -> In b l2 -> fst a < fst b).
Proof.
  unfold by_time. induction l1 as [|x l1 IH]; simpl.
  - split; [intros H; split; [constructor|split; [exact H|intros ? ? []]]|intros (_ & H & _); exact H].
  - split.
    + intros H. inversion H as [|? ? H1 H2]; subst. apply IH in H1 as (A & B & C).
      rewrite Forall_app in H2. destruct H2 as (F1 & F2).
      split; [constructor; auto|split; [auto|]].
      intros a b [<-|Ha] Hb; [rewrite Forall_forall in F2; auto|auto].
    + intros (H1 & H2 & H3). inversion H1 as [|? ? A B]; subst. constructor.
      * apply IH. split; [auto|split; [auto|intros; apply H3; auto]].
      * rewrite Forall_app. split; [auto|]. rewrite Forall_forall. intros b Hb. apply H3; auto.
Qed.

(** every sorted map is split by a time *)
Lemma split_at t l : by_time l -> exists A B, l = A ++ B /\ (forall e, In e A -> fst e <= t) /\ (forall e, In e B -> t < fst e).
Proof.
  induction l as [|x l IH]; intros H.
  - exists [], []. repeat split; intros ? [].
  - inversion H as [|? ? H1 H2]; subst. destruct (IH H1) as (A & B & E & HA & HB).
    destruct (Rle_or_lt (fst x) t) as [L|L].
    + exists (x :: A), B. rewrite E. repeat split; auto. intros e [<-|He]; auto.
    + exists [], (x :: l). repeat split; [intros ? []|]. intros e [<-|He]; auto.
      rewrite Forall_forall in H2. specialize (H2 _ He). lra.
Qed.

Lemma lower_bound_app t A B : (forall e, In e A -> fst e < t) -> (forall e, In e B -> t <= fst e) ->
  lower_bound t (A ++ B) = length A.
Proof.
  intros HA HB. induction A as [|[k p] A IH]; simpl.
  - destruct B as [|[k p] B]; simpl; auto.
    destruct (Rltb_spec k t) as [L|L]; auto. specialize (HB (k, p) (or_introl eq_refl)). simpl in HB. lra.
  - specialize (HA (k, p) (or_introl eq_refl)) as Hk. simpl in Hk.
    destruct (Rltb_spec k t) as [L|L]; [|lra]. f_equal. apply IH. intros; apply HA; right; auto.
Qed.
Lemma upper_bound_app t A B : (forall e, In e A -> fst e <= t) -> (forall e, In e B -> t < fst e) ->
  upper_bound t (A ++ B) = length A.
Proof.
  intros HA HB. induction A as [|[k p] A IH]; simpl.
  - destruct B as [|[k p] B]; simpl; auto.
    destruct (Rltb_spec t k) as [L|L]; auto. specialize (HB (k, p) (or_introl eq_refl)). simpl in HB. lra.
  - specialize (HA (k, p) (or_introl eq_refl)) as Hk. simpl in Hk.
    destruct (Rltb_spec t k) as [L|L]; [lra|]. f_equal. apply IH. intros; apply HA; right; auto.
Qed.
Lemma map_find_app k p A B : (forall e, In e A -> fst e <> k) -> map_find k (A ++ (k, p) :: B) = length A.
Proof.
  intros HA. induction A as [|[j q] A IH]; simpl.
  - destruct (Reqb_spec k k); auto. contradiction.
  - specialize (HA (j, q) (or_introl eq_refl)) as Hk. simpl in Hk.
    destruct (Reqb_spec j k) as [L|L]; [contradiction|]. f_equal. apply IH. intros; apply HA; right; auto.
Qed.
Lemma deref_app A x B : deref (A ++ x :: B) (length A) = Ok x.
Proof. unfold deref. rewrite nth_error_app2, PeanoNat.Nat.sub_diag; auto. Qed.

Lemma rev_case {X} (l : list X) : l = [] \/ exists l' x, l = l' ++ [x].
Proof. destruct l as [|y l]; [left; auto|right]. destruct (exists_last (l:=y :: l)) as (l' & x & E); [discriminate|eauto]. Qed.

Lemma len_app1 {X} (l : list X) x : length (l ++ [x]) = S (length l).
Proof. rewrite app_length; simpl; lia. Qed.

(** what find_bounding_poses does, given the split of the map *)
Lemma find_split t A B : by_time (A ++ B) -> (forall e, In e A -> fst e <= t) -> (forall e, In e B -> t < fst e) ->
  find_bounding_poses t (A ++ B) =
    Ok (match rev A, B with a :: _, b :: _ => Some (a, b) | _, _ => None end).
Proof.
  intros Hs HA HB. unfold find_bounding_poses.
  rewrite (upper_bound_app t A B HA HB).
  destruct (rev_case A) as [->|(A' & a & ->)].
  - rewrite (lower_bound_app t [] B); [|intros ? []|intros e He; specialize (HB e He); lra].
    cbn [length rev app]. destruct B as [|[k p] B]; [reflexivity|]. cbn [length Nat.eqb deref nth_error obind].
    specialize (HB (k, p) (or_introl eq_refl)). simpl in HB.
    unfold deref; cbn [nth_error obind fst]. destruct (Reqb_spec k t); [lra|]. reflexivity.
  - rewrite rev_app_distr. cbn [rev app].
    assert (Ha : fst a <= t) by (apply HA; apply in_or_app; right; left; auto).
    pose proof Hs as Hs'. apply by_time_app in Hs' as (Hs1 & Hs2 & Hs3). apply by_time_app in Hs1 as (Hs4 & _ & Hs5).
    assert (Hnew : (if Nat.eqb (length (A' ++ [a])) (length ((A' ++ [a]) ++ B)) then None else Some (length (A' ++ [a])))
             = match B with [] => None | _ => Some (length (A' ++ [a])) end).
    { rewrite (app_length (A' ++ [a]) B). destruct B; [cbn [length]; rewrite PeanoNat.Nat.add_0_r, PeanoNat.Nat.eqb_refl; auto|].
      destruct (PeanoNat.Nat.eqb_spec (length (A' ++ [a])) (length (A' ++ [a]) + length (p :: B))) as [E|E]; [simpl in E; lia|auto]. }
    rewrite Hnew. clear Hnew.
    assert (Hda : deref ((A' ++ [a]) ++ B) (length A') = Ok a) by (rewrite <- app_assoc; apply deref_app).
    destruct (Req_dec (fst a) t) as [E|E].
    + assert (LB : lower_bound t ((A' ++ [a]) ++ B) = length A').
      { rewrite <- app_assoc. apply lower_bound_app.
        - intros e He. rewrite <- E. apply Hs5; simpl; auto.
        - intros e He. apply in_app_or in He as [[<-|[]]|He]; [lra|]. specialize (HB e He); lra. }
      rewrite LB.
      destruct (PeanoNat.Nat.eqb_spec (length A') (length ((A' ++ [a]) ++ B))) as [L|_].
      { rewrite !app_length in L. simpl in L. lia. }
      rewrite Hda. cbn [obind]. destruct (Reqb_spec (fst a) t); [|contradiction]. cbn [obind].
      destruct B as [|b B]; [reflexivity|]. rewrite Hda. cbn [obind]. rewrite deref_app. cbn [obind].
      destruct (Rltb_spec (fst a) (fst b)) as [L|L]; [reflexivity|].
      exfalso. assert (fst a < fst b) by (apply Hs3; [apply in_or_app; right|]; left; auto). lra.
    + assert (LB : lower_bound t ((A' ++ [a]) ++ B) = length (A' ++ [a])).
      { apply lower_bound_app.
        - intros e He. apply in_app_or in He as [He|[<-|[]]].
          + specialize (Hs5 e a He (or_introl eq_refl)). lra.
          + lra.
        - intros e He. specialize (HB e He); lra. }
      rewrite LB.
      destruct (PeanoNat.Nat.eqb_spec (length (A' ++ [a])) (length ((A' ++ [a]) ++ B))) as [L|L].
      { destruct B as [|b B]; [reflexivity|]. rewrite (app_length (A' ++ [a])) in L. simpl in L. lia. }
      destruct B as [|b B]; [rewrite app_nil_r in L; contradiction|].
      rewrite deref_app. cbn [obind].
      specialize (HB b (or_introl eq_refl)) as Hb.
      destruct (Reqb_spec (fst b) t); [lra|].
      rewrite len_app1. cbn [Nat.eqb pred obind].
      rewrite Hda. cbn [obind]. rewrite ?deref_app. cbn [obind].
      destruct (Rltb_spec (fst a) (fst b)) as [L'|L']; [reflexivity|]. exfalso.
      assert (fst a < fst b) by (apply Hs3; [apply in_or_app; right|]; left; auto). lra.
Qed.

Lemma control_split t A B : by_time (A ++ B) -> (forall e, In e A -> fst e <= t) -> (forall e, In e B -> t < fst e) ->
  find_bounding_control_points t (A ++ B) =
    Ok (match rev A, B with b :: a :: _, c :: d :: _ => Some (a, b, c, d) | _, _ => None end).
Proof.
  intros Hs HA HB. unfold find_bounding_control_points. rewrite find_split by auto. cbn [obind].
  destruct (rev_case A) as [->|(A1 & b & ->)]; [reflexivity|]. rewrite rev_app_distr. cbn [rev app].
  destruct B as [|c B]; [destruct (rev A1); reflexivity|].
  pose proof Hs as Hs'. apply by_time_app in Hs' as (Hs1 & Hs2 & Hs3). pose proof Hs1 as Hs1'.
  apply by_time_app in Hs1' as (Hs4 & _ & Hs5).
  assert (F1 : map_find (fst b) ((A1 ++ [b]) ++ c :: B) = length A1).
  { rewrite <- app_assoc. cbn [app]. destruct b as [k p]. apply map_find_app.
    intros e He. specialize (Hs5 e (k, p) He (or_introl eq_refl)). simpl in *. lra. }
  assert (F2 : map_find (fst c) ((A1 ++ [b]) ++ c :: B) = length (A1 ++ [b])).
  { destruct c as [k p]. apply map_find_app.
    intros e He. specialize (Hs3 e (k, p) He (or_introl eq_refl)). simpl in *. lra. }
  rewrite F1, F2.
  destruct (rev_case A1) as [->|(A2 & a & ->)]; [reflexivity|]. rewrite rev_app_distr. cbn [rev app].
  rewrite (len_app1 A2 a). change (Nat.eqb (S (length A2)) 0) with false. cbv iota. change (pred (S (length A2))) with (length A2).
  destruct B as [|d B].
  { destruct (PeanoNat.Nat.eqb_spec (S (length ((A2 ++ [a]) ++ [b]))) (length (((A2 ++ [a]) ++ [b]) ++ [c]))) as [E|E]; [reflexivity|].
    rewrite (app_length _ [c]) in E. simpl in E. lia. }
  destruct (PeanoNat.Nat.eqb_spec (S (length ((A2 ++ [a]) ++ [b]))) (length (((A2 ++ [a]) ++ [b]) ++ c :: d :: B))) as [E|E].
  { rewrite (app_length _ (c :: d :: B)) in E. simpl in E. lia. }
  assert (D1 : deref (((A2 ++ [a]) ++ [b]) ++ c :: d :: B) (length A2) = Ok a).
  { rewrite <- !app_assoc. cbn [app]. apply deref_app. }
  assert (D2 : deref (((A2 ++ [a]) ++ [b]) ++ c :: d :: B) (S (length ((A2 ++ [a]) ++ [b]))) = Ok d).
  { rewrite <- len_app1 with (x:=c). replace (((A2 ++ [a]) ++ [b]) ++ c :: d :: B) with ((((A2 ++ [a]) ++ [b]) ++ [c]) ++ d :: B).
    - apply deref_app.
    - rewrite <- app_assoc. reflexivity. }
  rewrite D1, D2. cbn [obind].
  assert (fst a < fst b) by (apply Hs5; [apply in_or_app; right|]; left; auto).
  assert (fst b < fst c) by (apply Hs3; [apply in_or_app; right|]; left; auto).
  assert (fst c < fst d).
  { inversion Hs2 as [|? ? _ Hf]; subst. inversion Hf; subst. auto. }
  destruct (Rltb_spec (fst a) (fst b)); [|lra].
  destruct (Rltb_spec (fst b) (fst c)); [|lra].
  destruct (Rltb_spec (fst c) (fst d)); [reflexivity|lra].
Qed.

(** uniqueness of the split *)
Lemma split_unique t A B A' B' : A ++ B = A' ++ B' ->
  (forall e : R * se3, In e A -> fst e <= t) -> (forall e, In e B -> t < fst e) ->
  (forall e, In e A' -> fst e <= t) -> (forall e, In e B' -> t < fst e) -> A = A' /\ B = B'.
Proof.
  revert A'. induction A as [|x A IH]; intros A' E HA HB HA' HB'.
  - destruct A' as [|y A']; [auto|]. simpl in E. subst B. specialize (HB y (or_introl eq_refl)).
    specialize (HA' y (or_introl eq_refl)). lra.
  - destruct A' as [|y A'].
    + simpl in E. subst B'. specialize (HB' x (or_introl eq_refl)). specialize (HA x (or_introl eq_refl)). lra.
    + injection E as -> E. destruct (IH A' E) as (-> & ->); auto; intros; [apply HA|apply HA']; right; auto.
Qed.

Lemma mid_split t l1 l2 (a b : R * se3) : by_time (l1 ++ a :: b :: l2) -> fst a <= t < fst b ->
  (forall e, In e (l1 ++ [a]) -> fst e <= t) /\ (forall e, In e (b :: l2) -> t < fst e).
Proof.
  intros Hs Ht. apply by_time_app in Hs as (H1 & H2 & H3). inversion H2 as [|? ? H4 H5]; subst.
  inversion H4 as [|? ? H6 H7]; subst. split.
  - intros e He. apply in_app_or in He as [He|[<-|[]]]; [|lra]. specialize (H3 e a He (or_introl eq_refl)). lra.
  - intros e [<-|He]; [lra|]. rewrite Forall_forall in H7. specialize (H7 e He). lra.
Qed.

Lemma between_thm t l : by_time l -> exists r, find_bounding_poses t l = Ok r /\
  forall a b, r = Some (a, b) <-> between t l a b.
Proof.
  intros Hs. destruct (split_at t l Hs) as (A & B & -> & HA & HB).
  rewrite find_split by auto. eexists; split; [reflexivity|]. intros a b. split.
  - destruct (rev_case A) as [->|(A' & x & ->)]; [discriminate|]. rewrite rev_app_distr; cbn [rev app].
    destruct B as [|y B]; [discriminate|]. intros [= <- <-]. exists A', B. rewrite <- app_assoc. split; [reflexivity|].
    split; [apply HA; apply in_or_app; right; left; auto|apply HB; left; auto].
  - intros (l1 & l2 & E & Ht). rewrite E in Hs. pose proof (mid_split t l1 l2 a b Hs Ht) as (H1 & H2).
    assert (E' : A ++ B = (l1 ++ [a]) ++ (b :: l2)) by (rewrite <- app_assoc; exact E).
    destruct (split_unique t A B _ _ E' HA HB H1 H2) as (-> & ->). rewrite rev_app_distr. reflexivity.
Qed.

Lemma around_thm t l : by_time l -> exists r, find_bounding_control_points t l = Ok r /\
  forall a b c d, r = Some (a, b, c, d) <-> around t l a b c d.
Proof.
  intros Hs. destruct (split_at t l Hs) as (A & B & -> & HA & HB).
  rewrite control_split by auto. eexists; split; [reflexivity|]. intros a b c d. split.
  - destruct (rev_case A) as [->|(A1 & x & ->)]; [discriminate|]. rewrite rev_app_distr; cbn [rev app].
    destruct (rev_case A1) as [->|(A2 & y & ->)]; [discriminate|]. rewrite rev_app_distr; cbn [rev app].
    destruct B as [|z B]; [discriminate|]. destruct B as [|z' B]; [discriminate|].
    intros [= <- <- <- <-]. exists A2, B. rewrite <- !app_assoc. split; [reflexivity|].
    split; [apply HA; apply in_or_app; right; left; auto|apply HB; left; auto].
  - intros (l1 & l2 & E & Ht). rewrite E in Hs.
    assert (E1 : l1 ++ a :: b :: c :: d :: l2 = (l1 ++ [a]) ++ b :: c :: d :: l2) by (rewrite <- app_assoc; auto).
    rewrite E1 in Hs, E. pose proof (mid_split t (l1 ++ [a]) (d :: l2) b c Hs Ht) as (H1 & H2).
    assert (E' : A ++ B = ((l1 ++ [a]) ++ [b]) ++ (c :: d :: l2)) by (rewrite E, <- (app_assoc _ [b]); reflexivity).
    destruct (split_unique t A B _ _ E' HA HB H1 H2) as (-> & ->). rewrite !rev_app_distr. reflexivity.
Qed.

(** the returned times are ordered *)
Lemma around_order t l a b c d : by_time l -> around t l a b c d ->
  fst a < fst b /\ fst b <= t /\ t < fst c /\ fst c < fst d.
Proof.
  intros Hs (l1 & l2 & -> & Ht). apply by_time_app in Hs as (_ & H & _).
  inversion H as [|? ? H1 H2]; subst. inversion H1 as [|? ? H3 H4]; subst. inversion H3 as [|? ? H5 H6]; subst.
  inversion H2; subst. inversion H6; subst. repeat split; auto; lra.
Qed.

(** enough points around the query time *)
Lemma around_count t l : by_time l ->
  ((exists a b c d, around t l a b c d) <->
   (2 <= length (filter (fun e => Rleb (fst e) t) l))%nat /\ (2 <= length (filter (fun e => Rltb t (fst e)) l))%nat).
Proof.
  intros Hs. destruct (split_at t l Hs) as (A & B & -> & HA & HB).
  assert (FA : filter (fun e : R * se3 => Rleb (fst e) t) (A ++ B) = A).
  { rewrite filter_app. replace (filter _ B) with (@nil (R * se3)).
    - rewrite app_nil_r. clear -HA. induction A as [|x A IH]; simpl; auto.
      destruct (Rleb_spec (fst x) t) as [L|L]; [f_equal; apply IH; intros; apply HA; right; auto|].
      specialize (HA x (or_introl eq_refl)); lra.
    - clear -HB. induction B as [|x B IH]; simpl; auto.
      destruct (Rleb_spec (fst x) t) as [L|L]; [specialize (HB x (or_introl eq_refl)); lra|apply IH; intros; apply HB; right; auto]. }
  assert (FB : filter (fun e : R * se3 => Rltb t (fst e)) (A ++ B) = B).
  { rewrite filter_app. replace (filter _ A) with (@nil (R * se3)).
    - simpl. clear -HB. induction B as [|x B IH]; simpl; auto.
      destruct (Rltb_spec t (fst x)) as [L|L]; [f_equal; apply IH; intros; apply HB; right; auto|].
      specialize (HB x (or_introl eq_refl)); lra.
    - clear -HA. induction A as [|x A IH]; simpl; auto.
      destruct (Rltb_spec t (fst x)) as [L|L]; [specialize (HA x (or_introl eq_refl)); lra|apply IH; intros; apply HA; right; auto]. }
  rewrite FA, FB. split.
  - intros (a & b & c & d & l1 & l2 & E & Ht). rewrite E in Hs.
    assert (E1 : l1 ++ a :: b :: c :: d :: l2 = (l1 ++ [a]) ++ b :: c :: d :: l2) by (rewrite <- app_assoc; auto).
    rewrite E1 in Hs, E. pose proof (mid_split t (l1 ++ [a]) (d :: l2) b c Hs Ht) as (H1 & H2).
    assert (E' : A ++ B = ((l1 ++ [a]) ++ [b]) ++ (c :: d :: l2)) by (rewrite E, <- (app_assoc _ [b]); reflexivity).
    destruct (split_unique t A B _ _ E' HA HB H1 H2) as (-> & ->). rewrite !len_app1. simpl. lia.
  - intros (LA & LB). destruct (rev_case A) as [->|(A1 & b & ->)]; [simpl in LA; lia|].
    rewrite len_app1 in LA. destruct (rev_case A1) as [->|(A2 & a & ->)]; [simpl in LA; lia|].
    destruct B as [|c [|d B]]; [simpl in LB; lia|simpl in LB; lia|].
    exists a, b, c, d, A2, B. rewrite <- !app_assoc. split; [reflexivity|].
    split; [apply HA; apply in_or_app; right; left; auto|apply HB; left; auto].
Qed.
