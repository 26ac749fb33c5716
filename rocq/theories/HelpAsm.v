(** Assembly of the measurement Jacobians (C36): layout of the columns, block writes. *)
From Coq Require Import Reals Lra Lia Psatz List ZArith Bool.
From Coquelicot Require Import Coquelicot.
From Verif Require Import RBool Outcome Lin GeoModel GeoSpec GeoProofs JacSo3 Calc3 LandModel LandSpec LandProofs CamModel CamSpec CamProofs HelpModel HelpSpec HelpGeo HelpRep.
Import ListNotations.
Open Scope R_scope.

Lemma keqb_eq a b : keqb a b = true <-> a = b.
Proof.
  destruct a, b; cbn; split; intros H; try discriminate; try congruence.
  - apply Reqb_true in H. congruence. - injection H as ->. apply Reqb_true. reflexivity.
  - apply Nat.eqb_eq in H. congruence. - injection H as ->. apply Nat.eqb_refl.
  - apply Nat.eqb_eq in H. congruence. - injection H as ->. apply Nat.eqb_refl.
Qed.
Lemma sizes_cons k a : sizes (k :: a) = (ksize k + sizes a)%nat. Proof. reflexivity. Qed.
Lemma sizes_nil : sizes [] = 0%nat. Proof. reflexivity. Qed.
Lemma sizes_app a b : sizes (a ++ b) = (sizes a + sizes b)%nat.
Proof. induction a as [|k a IH]; [reflexivity|]. cbn [app]. rewrite !sizes_cons, IH. lia. Qed.
Lemma ksize_pos k : (0 < ksize k)%nat. Proof. destruct k; cbn; lia. Qed.

Definition placed (order : list key) (k : key) (o : nat) : Prop := exists pre post, order = pre ++ k :: post /\ o = sizes pre.
Definition lay_ok (l : lay) : Prop := NoDup (ly_order l) /\ ly_total l = sizes (ly_order l) /\
  (forall k o, ly_find (ly_map l) k = Some o -> placed (ly_order l) k o) /\ (forall k, ly_find (ly_map l) k = None -> ~ In k (ly_order l)).
Lemma ly_find_app m k o k' : ly_find (m ++ [(k, o)]) k' = match ly_find m k' with Some x => Some x | None => if keqb k k' then Some o else None end.
Proof.
  unfold ly_find. induction m as [|[a b] m IH]; cbn [app find fst snd]; [destruct (keqb k k'); reflexivity|].
  destruct (keqb a k'); [reflexivity|exact IH].
Qed.
Lemma placed_app order k o r : placed order k o -> placed (order ++ r) k o.
Proof. intros (pre & post & -> & ->). exists pre, (post ++ r). split; [rewrite <- app_assoc; reflexivity|reflexivity]. Qed.
Lemma NoDup_snoc {A} (l : list A) x : NoDup l -> ~ In x l -> NoDup (l ++ [x]).
Proof. intros H N. apply NoDup_rev in H. rewrite <- (rev_involutive (l ++ [x])). apply NoDup_rev. rewrite rev_app_distr. cbn. constructor; [rewrite <- in_rev; exact N|exact H]. Qed.
Lemma ly_push_ok k l : lay_ok l -> ly_find (ly_map l) k = None -> lay_ok (ly_push k l).
Proof.
  intros (H1 & H2 & H3 & H4) N. unfold ly_push. rewrite N. unfold lay_ok. cbn [ly_map ly_order ly_total].
  split; [apply NoDup_snoc; auto|]. split; [rewrite sizes_app, sizes_cons, sizes_nil; lia|]. split.
  - intros k' o. rewrite ly_find_app. destruct (ly_find (ly_map l) k') eqn:E.
    + intros F. injection F as <-. apply placed_app. auto.
    + destruct (keqb k k') eqn:K; [|discriminate]. apply keqb_eq in K. subst k'. intros F. injection F as <-. exists (ly_order l), []. auto.
  - intros k'. rewrite ly_find_app. destruct (ly_find (ly_map l) k') eqn:E; [discriminate|]. destruct (keqb k k') eqn:K; [discriminate|]. intros _ I.
    apply in_app_or in I. destruct I as [I|[<-|[]]]; [eapply H4; eauto|]. assert (keqb k k = true) by (apply keqb_eq; reflexivity). congruence.
Qed.
Lemma ly_push_find k l k' : ly_find (ly_map l) k = None -> ly_find (ly_map (ly_push k l)) k' =
  match ly_find (ly_map l) k' with Some x => Some x | None => if keqb k k' then Some (ly_total l) else None end.
Proof. intros N. unfold ly_push. rewrite N. cbn [ly_map]. apply ly_find_app. Qed.
Lemma ly_add_ok k l : lay_ok l -> lay_ok (ly_add k l).
Proof. intros H. unfold ly_add. destruct (ly_find (ly_map l) k) eqn:E; [exact H|]. apply ly_push_ok; auto. Qed.
Lemma ly_add_find k l k' : ly_find (ly_map (ly_add k l)) k' = None -> ly_find (ly_map l) k' = None /\ k <> k'.
Proof.
  unfold ly_add. destruct (ly_find (ly_map l) k) eqn:E.
  - intros H. split; [exact H|]. intros ->. congruence.
  - rewrite ly_push_find by exact E. destruct (ly_find (ly_map l) k'); [discriminate|]. destruct (keqb k k') eqn:K; [discriminate|]. intros _. split; [reflexivity|].
    intros ->. assert (keqb k' k' = true) by (apply keqb_eq; reflexivity). congruence.
Qed.
Lemma ly_add_none k l k' : ly_find (ly_map l) k' = None -> k <> k' -> ly_find (ly_map (ly_add k l)) k' = None.
Proof.
  intros H N. unfold ly_add. destruct (ly_find (ly_map l) k) eqn:E; [exact H|]. rewrite ly_push_find, H by exact E.
  destruct (keqb k k') eqn:K; [apply keqb_eq in K; congruence|reflexivity].
Qed.
Lemma ly_push_none k l k' : ly_find (ly_map l) k = None -> ly_find (ly_map l) k' = None -> k <> k' -> ly_find (ly_map (ly_push k l)) k' = None.
Proof. intros E H N. rewrite ly_push_find, H by exact E. destruct (keqb k k') eqn:K; [apply keqb_eq in K; congruence|reflexivity]. Qed.

Lemma lay_clones_ok e ts : forall l l', lay_ok l -> lay_clones e ts l = Ok l' -> lay_ok l' /\
  (forall k, (forall t, k <> KClone t) -> ly_find (ly_map l) k = None -> ly_find (ly_map l') k = None).
Proof.
  induction ts as [|[t uv] ts IH]; cbn [lay_clones]; intros l l' H E; [injection E as <-; auto|].
  destruct (at_ (he_clone e t)); cbn [obind] in E; try discriminate. apply IH in E; [|apply ly_add_ok; exact H]. destruct E as [E1 E2]. split; [exact E1|].
  intros k N F. apply E2; [exact N|]. apply ly_add_none; [exact F|]. intros C. apply (N t). auto.
Qed.
Lemma lay_cams_ok e ms : forall l l', lay_ok l -> NoDup (map fst ms) -> (forall c, In c (map fst ms) -> ly_find (ly_map l) (KCalib c) = None /\ ly_find (ly_map l) (KIntr c) = None) ->
  lay_cams e ms l = Ok l' -> lay_ok l'.
Proof.
  induction ms as [|[c ts] ms IH]; cbn [lay_cams]; intros l l' H ND F E; [injection E as <-; auto|].
  destruct (at_ (he_calib e c)); cbn [obind] in E; try discriminate. destruct (at_ (he_intr e c)); cbn [obind] in E; try discriminate.
  cbn in ND. inversion ND as [|? ? NI ND']; subst. destruct (F c) as [F1 F2]; [left; reflexivity|].
  set (l1 := if he_cal e then ly_push (KCalib c) l else l) in E. set (l2 := if he_int e then ly_push (KIntr c) l1 else l1) in E.
  assert (K1 : lay_ok l1) by (unfold l1; destruct (he_cal e); [apply ly_push_ok; auto|exact H]).
  assert (N1 : forall k, k <> KCalib c -> ly_find (ly_map l) k = None -> ly_find (ly_map l1) k = None) by (intros k N Fk; unfold l1; destruct (he_cal e); [apply ly_push_none; auto|exact Fk]).
  assert (G : ly_find (ly_map l1) (KIntr c) = None) by (apply N1; [discriminate|exact F2]).
  assert (K2 : lay_ok l2) by (unfold l2; destruct (he_int e); [apply ly_push_ok; auto|exact K1]).
  assert (N2 : forall k, k <> KIntr c -> ly_find (ly_map l1) k = None -> ly_find (ly_map l2) k = None) by (intros k N Fk; unfold l2; destruct (he_int e); [apply ly_push_none; auto|exact Fk]).
  clearbody l1 l2. destruct (lay_clones e ts l2) as [l3| |] eqn:E3; cbn [obind] in E; try discriminate.
  destruct (lay_clones_ok e ts l2 l3 K2 E3) as [K3 N3].
  apply (IH l3 l' K3 ND'); [|exact E]. intros c' Hc'. assert (c' <> c) by (intros ->; auto). destruct (F c') as [G1 G2]; [right; exact Hc'|].
  split; apply N3; try discriminate; apply N2; try discriminate; try (intros X; injection X; auto; fail); apply N1; try discriminate; try (intros X; injection X; auto; fail); auto.
Qed.
Lemma lay_all_ok e f l1 l : NoDup (map fst (hf_meas f)) -> lay_cams e (hf_meas f) (mkLay [] [] 0) = Ok l1 -> lay_anchor e f l1 = Ok l -> lay_ok l.
Proof.
  intros ND E1 E2.
  assert (K : lay_ok l1).
  { eapply lay_cams_ok; [| exact ND | | exact E1].
    - unfold lay_ok; cbn. split; [constructor|]. split; [reflexivity|]. split; [discriminate|auto].
    - intros; split; reflexivity. }
  unfold lay_anchor in E2. destruct (is_relative (hf_rep f)); [|congruence]. destruct (hf_acam f =? -1)%Z; [discriminate|].
  destruct (at_ (he_clone e (hf_atime f))); cbn [obind] in E2; try discriminate. destruct (he_cal e).
  - destruct (cam_at (he_calib e) (hf_acam f)); cbn [obind] in E2; try discriminate. injection E2 as <-. apply ly_add_ok, ly_add_ok, K.
  - injection E2 as <-. apply ly_add_ok, K.
Qed.

(** *** block writes and row products *)
Lemma placed_seg order k o v j : placed order k o -> (j < ksize k)%nat -> stackv order v (o + j)%nat = v k j.
Proof.
  intros (pre & post & -> & ->) Hj. induction pre as [|a pre IH]; cbn [app stackv].
  - rewrite sizes_nil. cbn [Nat.add]. destruct (Nat.ltb_spec j (ksize k)); [reflexivity|lia].
  - rewrite sizes_cons. destruct (Nat.ltb_spec (ksize a + sizes pre + j) (ksize a)); [pose proof (ksize_pos a); lia|].
    replace (ksize a + sizes pre + j - ksize a)%nat with (sizes pre + j)%nat by lia. exact IH.
Qed.
Lemma placed_bound order k o : placed order k o -> (o + ksize k <= sizes order)%nat.
Proof. intros (pre & post & -> & ->). rewrite sizes_app, sizes_cons. lia. Qed.
Lemma placed_disj order k o k' o' : placed order k o -> placed order k' o' -> k <> k' -> (o + ksize k <= o' \/ o' + ksize k' <= o)%nat.
Proof.
  intros (pre & post & E & ->) (pre' & post' & E' & ->) N. subst order. revert pre' E'. induction pre as [|a pre IH]; intros pre' E'.
  - destruct pre' as [|a' pre']; cbn in E'; [congruence|]. injection E' as <- ->. left. rewrite sizes_cons, sizes_nil. lia.
  - destruct pre' as [|a' pre']; cbn in E'; injection E' as <- E'; [right; rewrite sizes_cons, sizes_nil; lia|]. apply IH in E'. rewrite !sizes_cons. lia.
Qed.

Definition zblock (H : mat) (r o n : nat) : Prop := forall i j, (r <= i < r + 2)%nat -> (o <= j < o + n)%nat -> H i j = 0.
Lemma in_block r i o j n : ((r <=? i) && (i <? r + 2) && (o <=? j) && (j <? o + n))%nat%bool = true <-> (r <= i < r + 2)%nat /\ (o <= j < o + n)%nat.
Proof. rewrite !andb_true_iff, !Nat.leb_le, !Nat.ltb_lt. lia. Qed.
Lemma addto_in H r o n B x N i : (o + n <= N)%nat -> (i < 2)%nat ->
  mvec N (addto H r o 2 n B) x (r + i)%nat = mvec N H x (r + i)%nat + mvec n B (fun j => x (o + j)%nat) i.
Proof.
  intros Hn Hi. unfold mvec.
  transitivity (sumn N (fun l => H (r + i)%nat l * x l + if ((o <=? l) && (l <? o + n))%nat%bool then B i (l - o)%nat * x l else 0)).
  - apply sumn_ext. intros l _. unfold addto. destruct (((o <=? l) && (l <? o + n))%nat%bool) eqn:E.
    + rewrite andb_true_iff, Nat.leb_le, Nat.ltb_lt in E. replace ((r <=? r + i) && (r + i <? r + 2) && (o <=? l) && (l <? o + n))%nat%bool with true by (symmetry; apply in_block; lia).
      replace (r + i - r)%nat with i by lia. ring.
    + replace ((r <=? r + i) && (r + i <? r + 2) && (o <=? l) && (l <? o + n))%nat%bool with false; [ring|]. symmetry. rewrite <- andb_assoc, E. apply andb_false_r.
  - rewrite sumn_plus. f_equal. rewrite (sumn_window N o n (fun l => B i (l - o)%nat * x l)) by lia. apply sumn_ext. intros l _. replace (o + l - o)%nat with l by lia. reflexivity.
Qed.
Lemma put_addto H r o n B : zblock H r o n -> forall i j, put H r o 2 n B i j = addto H r o 2 n B i j.
Proof.
  intros Z i j. unfold put, addto. destruct (((r <=? i) && (i <? r + 2) && (o <=? j) && (j <? o + n))%nat%bool) eqn:E; [|reflexivity].
  apply in_block in E. rewrite Z by lia. ring.
Qed.
Lemma put_in H r o n B x N i : zblock H r o n -> (o + n <= N)%nat -> (i < 2)%nat ->
  mvec N (put H r o 2 n B) x (r + i)%nat = mvec N H x (r + i)%nat + mvec n B (fun j => x (o + j)%nat) i.
Proof. intros Z Hn Hi. rewrite <- addto_in by auto. apply mvec_ext_l. intros. apply put_addto. exact Z. Qed.
Lemma addto_out H r o n B i j : (i < r \/ r + 2 <= i)%nat -> addto H r o 2 n B i j = H i j.
Proof. intros Hi. unfold addto. destruct (((r <=? i) && (i <? r + 2) && (o <=? j) && (j <? o + n))%nat%bool) eqn:E; [apply in_block in E; lia|reflexivity]. Qed.
Lemma put_out H r o n B i j : (i < r \/ r + 2 <= i)%nat -> put H r o 2 n B i j = H i j.
Proof. intros Hi. unfold put. destruct (((r <=? i) && (i <? r + 2) && (o <=? j) && (j <? o + n))%nat%bool) eqn:E; [apply in_block in E; lia|reflexivity]. Qed.
Lemma addto_z H r o n B o' n' : (o + n <= o' \/ o' + n' <= o)%nat -> zblock H r o' n' -> zblock (addto H r o 2 n B) r o' n'.
Proof. intros D Z i j Hi Hj. unfold addto. destruct (((r <=? i) && (i <? r + 2) && (o <=? j) && (j <? o + n))%nat%bool) eqn:E; [apply in_block in E; lia|apply Z; auto]. Qed.
Lemma put_z H r o n B o' n' : (o + n <= o' \/ o' + n' <= o)%nat -> zblock H r o' n' -> zblock (put H r o 2 n B) r o' n'.
Proof. intros D Z i j Hi Hj. unfold put. destruct (((r <=? i) && (i <? r + 2) && (o <=? j) && (j <? o + n))%nat%bool) eqn:E; [apply in_block in E; lia|apply Z; auto]. Qed.

Lemma mvec_plus n A x y i : mvec n A (fun j => x j + y j) i = mvec n A x i + mvec n A y i.
Proof. unfold mvec. rewrite <- sumn_plus. apply sumn_ext. intros. ring. Qed.
Lemma mvec_zero n A x i : (forall j, (j < n)%nat -> x j = 0) -> mvec n A x i = 0.
Proof. intros H. unfold mvec. apply sumn_zero. intros j Hj. rewrite H by exact Hj. ring. Qed.
Lemma mvec_zrow n A x i : (forall j, (j < n)%nat -> A i j = 0) -> mvec n A x i = 0.
Proof. intros H. unfold mvec. apply sumn_zero. intros j Hj. rewrite H by exact Hj. ring. Qed.

Lemma add_extra_rows l c dz v : lay_ok l -> forall ex H H', add_extra l c dz ex H = Ok H' ->
  (forall i, (i < 2)%nat -> mvec (ly_total l) H' (stackv (ly_order l) v) (2 * c + i)%nat = mvec (ly_total l) H (stackv (ly_order l) v) (2 * c + i)%nat + mvec 3 dz (extra_sum ex v) i) /\
  (forall i j, (i < 2 * c \/ 2 * c + 2 <= i)%nat -> H' i j = H i j) /\
  (forall k o, ~ In k (map fst ex) -> placed (ly_order l) k o -> zblock H (2 * c) o (ksize k) -> zblock H' (2 * c) o (ksize k)).
Proof.
  intros (_ & L2 & L3 & _). induction ex as [|[k B] ex IH]; intros H H' E; cbn [add_extra] in E.
  - injection E as <-. split; [|split]; auto. intros i Hi. rewrite (mvec_zero 3 dz (extra_sum [] v)) by reflexivity. ring.
  - unfold ly_at in E. destruct (ly_find (ly_map l) k) as [o|] eqn:F; cbn [at_ obind] in E; [|discriminate]. apply L3 in F.
    pose proof (placed_bound _ _ _ F) as Bd. apply IH in E. destruct E as (E1 & E2 & E3). split; [|split].
    + intros i Hi. rewrite E1 by exact Hi. rewrite addto_in by (rewrite ?L2; lia). rewrite Rplus_assoc. f_equal.
      cbn [extra_sum]. rewrite mvec_plus. f_equal. rewrite mvec_mmul. apply mvec_ext_r. intros j _. apply mvec_ext_r. intros q Hq. apply placed_seg; auto.
    + intros i j Hi. rewrite E2 by exact Hi. apply addto_out. exact Hi.
    + intros k' o' N P Z. cbn in N. apply E3; auto. apply addto_z; [|exact Z]. apply (placed_disj (ly_order l)); auto.
Qed.
