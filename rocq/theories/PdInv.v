(** Exactness of the positive-definite inverse used for Eigen's LLT solve, and of [geninv]. *)
From Coq Require Import Reals List Arith Lia Lra.
From Verif Require Import RBool Outcome Lin StateModel.
Open Scope R_scope.

Ltac nb := repeat match goal with
  | |- context[(?a <? ?b)%nat] => destruct (Nat.ltb_spec a b); try lia
  | |- context[(?a <=? ?b)%nat] => destruct (Nat.leb_spec a b); try lia
  | |- context[(?a =? ?b)%nat] => destruct (Nat.eqb_spec a b); try lia
  end.

Lemma sumn_eq n f g : (forall i, (i < n)%nat -> f i = g i) -> sumn n f = sumn n g.
Proof. apply sumn_ext. Qed.

Lemma pd_shrink k A : pd (S k) A -> pd k A.
Proof.
  intros H x (i & Hi & Hx).
  set (x' := fun i => if (i <? k)%nat then x i else 0).
  assert (E : quad (S k) A x' = quad k A x).
  { assert (Z : x' k = 0) by (unfold x'; rewrite Nat.ltb_irrefl; reflexivity).
    assert (Y : forall a, (a < k)%nat -> x' a = x a) by (intros a Ha; unfold x'; nb; reflexivity).
    unfold quad. cbn [sumn]. rewrite Z.
    rewrite (sumn_zero k (fun j => 0 * A k j * x' j)); [|intros; lra].
    rewrite !Rmult_0_l, !Rplus_0_r.
    apply sumn_eq; intros a Ha. rewrite Rmult_0_r, Rplus_0_r.
    apply sumn_eq; intros b Hb. rewrite !Y by auto. reflexivity. }
  rewrite <- E. apply H. exists i. split; [lia|]. unfold x'. nb. exact Hx.
Qed.

Lemma sym_shrink k A : sym (S k) A -> sym k A.
Proof. intros H i j Hi Hj; apply H; lia. Qed.

Lemma pdinv_S k A i j : pdinv (S k) A i j =
  let B := pdinv k A in
  let b : vec := fun i => A i k in
  let y := mvec k B b in
  let s := A k k - dot k b y in
  if (i <? k)%nat then
    if (j <? k)%nat then B i j + y i * y j / s else - (y i / s)
  else if (j <? k)%nat then - (y j / s) else / s.
Proof. reflexivity. Qed.

Lemma sumn_div n f c : sumn n (fun i => f i / c) = sumn n f / c.
Proof. unfold Rdiv. apply sumn_scal_r. Qed.

Lemma pdinv_correct n A : sym n A -> pd n A ->
  sym n (pdinv n A) /\ meq n n (mmul n A (pdinv n A)) mid.
Proof.
  induction n as [|k IH]; intros HS HP.
  - split; intros i j Hi; lia.
  - destruct (IH (sym_shrink _ _ HS) (pd_shrink _ _ HP)) as [SB AB].
    set (B := pdinv k A) in *.
    set (b := fun i => A i k). set (y := mvec k B b). set (s := A k k - dot k b y).
    assert (Ay : forall i, (i < k)%nat -> sumn k (fun l => A i l * y l) = b i).
    { intros i Hi. change (mvec k A (mvec k B b) i = b i). rewrite <- mvec_mmul.
      unfold mvec. rewrite (sumn_delta k i); auto.
      - rewrite AB; auto. unfold mid. rewrite Nat.eqb_refl. lra.
      - intros l Hl Hne. rewrite AB; auto. unfold mid. nb. lra. }
    assert (Hs : 0 < s).
    { set (z := fun i => if (i <? k)%nat then - y i else 1).
      assert (E : quad (S k) A z = s).
      { unfold quad. cbn [sumn].
        rewrite (sumn_ext k _ (fun i => y i * b i - y i * b i)).
        2:{ intros i Hi. unfold z at 1 3. nb. unfold z. rewrite Nat.ltb_irrefl.
            rewrite (sumn_ext k _ (fun l => y i * (A i l * y l))).
            2:{ intros l Hl. nb. lra. }
            rewrite sumn_scal, Ay; auto. unfold b. lra. }
        rewrite (sumn_zero k); [|intros; lra].
        unfold z. rewrite Nat.ltb_irrefl.
        rewrite (sumn_ext k _ (fun l => - (b l * y l))).
        2:{ intros l Hl. nb. unfold b. rewrite (HS k l); try lia. unfold mtr. lra. }
        rewrite sumn_opp. unfold s, dot. lra. }
      rewrite <- E. apply HP. exists k. split; [lia|]. unfold z. rewrite Nat.ltb_irrefl. lra. }
    assert (s <> 0) by lra.
    split.
    + intros i j Hi Hj. unfold mtr. rewrite !pdinv_S. cbv zeta. fold B. fold b. fold y. fold s.
      nb; try reflexivity. rewrite (SB i j) by lia. unfold mtr. lra.
    + intros i j Hi Hj. unfold mmul. cbn [sumn].
      rewrite (sumn_ext k _ (fun l => A i l * (if (j <? k)%nat then B l j + y l * y j / s else - (y l / s)))).
      2:{ intros l Hl. rewrite pdinv_S. cbv zeta. fold B. fold b. fold y. fold s. nb; reflexivity. }
      rewrite pdinv_S. cbv zeta. fold B. fold b. fold y. fold s. rewrite Nat.ltb_irrefl.
      destruct (Nat.ltb_spec j k) as [Hjk|Hjk].
      * rewrite (sumn_ext k _ (fun l => A i l * B l j + (A i l * y l) * (y j / s))).
        2:{ intros l Hl. field. auto. }
        rewrite sumn_plus, sumn_scal_r.
        destruct (Nat.ltb_spec i k) as [Hik|Hik].
        -- rewrite Ay by auto. change (mmul k A B i j + b i * (y j / s) + A i k * - (y j / s) = mid i j).
           rewrite AB by auto. unfold b. lra.
        -- assert (i = k) by lia. subst i.
           rewrite (sumn_ext k (fun l => A k l * B l j) (fun l => B j l * b l)).
           2:{ intros l Hl. unfold b. rewrite (HS k l), (SB l j) by lia. unfold mtr. lra. }
           change (y j + sumn k (fun l => A k l * y l) * (y j / s) + A k k * - (y j / s) = mid k j).
           rewrite (sumn_ext k _ (fun l => b l * y l)).
           2:{ intros l Hl. unfold b. rewrite (HS k l) by lia. reflexivity. }
           change (sumn k (fun l => b l * y l)) with (dot k b y).
           unfold mid. nb. replace (A k k) with (s + dot k b y) by (unfold s; lra). field. auto.
      * assert (j = k) by lia. subst j.
        rewrite (sumn_ext k _ (fun l => (A i l * y l) * - / s)).
        2:{ intros l Hl. field. auto. }
        rewrite sumn_scal_r.
        destruct (Nat.ltb_spec i k) as [Hik|Hik].
        -- rewrite Ay by auto. unfold b, mid. nb. field. auto.
        -- assert (i = k) by lia. subst i.
           rewrite (sumn_ext k _ (fun l => b l * y l)).
           2:{ intros l Hl. unfold b. rewrite (HS k l) by lia. reflexivity. }
           change (sumn k (fun l => b l * y l)) with (dot k b y).
           unfold mid. rewrite Nat.eqb_refl.
           replace (A k k) with (s + dot k b y) by (unfold s; lra). field. auto.
Qed.

Lemma pdinv_sym n A : sym n A -> pd n A -> sym n (pdinv n A).
Proof. intros; apply pdinv_correct; auto. Qed.
Lemma pdinv_r n A : sym n A -> pd n A -> meq n n (mmul n A (pdinv n A)) mid.
Proof. intros; apply pdinv_correct; auto. Qed.
Lemma pdinv_l n A : sym n A -> pd n A -> meq n n (mmul n (pdinv n A) A) mid.
Proof.
  intros HS HP i j Hi Hj.
  rewrite (mmul_ext n _ (mtr (pdinv n A)) _ (mtr A)).
  - rewrite <- mmul_tr. rewrite pdinv_r; auto. unfold mid. rewrite Nat.eqb_sym. reflexivity.
  - intros l Hl. apply (pdinv_sym n A); auto.
  - intros l Hl. apply HS; auto.
Qed.

(** [pdinv] only looks at the n x n block *)
Lemma pdinv_ext n A A' : meq n n A A' -> meq n n (pdinv n A) (pdinv n A').
Proof.
  induction n as [|k IH]; intros H i j Hi Hj; [lia|].
  assert (H' : meq k k A A') by (intros a b Ha Hb; apply H; lia).
  rewrite !pdinv_S. cbv zeta.
  assert (Ey : forall a, (a < k)%nat -> mvec k (pdinv k A) (fun i => A i k) a
                                     = mvec k (pdinv k A') (fun i => A' i k) a).
  { intros a Ha. unfold mvec. apply sumn_ext; intros l Hl.
    rewrite (IH H' a l), (H l k) by lia. reflexivity. }
  assert (Es : A k k - dot k (fun i => A i k) (mvec k (pdinv k A) (fun i => A i k))
             = A' k k - dot k (fun i => A' i k) (mvec k (pdinv k A') (fun i => A' i k))).
  { rewrite H by lia. f_equal. unfold dot. apply sumn_ext; intros l Hl.
    rewrite Ey, (H l k) by lia. reflexivity. }
  rewrite <- Es. nb; rewrite <- ?Ey by lia; try reflexivity.
  rewrite (IH H' i j) by lia. reflexivity.
Qed.

(** uniqueness of inverses *)
Lemma left_inv_unique n A B C : meq n n (mmul n B A) mid -> meq n n (mmul n A C) mid -> meq n n B C.
Proof.
  intros HB HC i j Hi Hj.
  rewrite <- (mmul_id_r n B i j) by auto.
  rewrite (mmul_ext n B B mid (mmul n A C)).
  2:{ auto. } 2:{ intros l Hl. symmetry. apply HC; auto. }
  rewrite <- mmul_assoc.
  rewrite (mmul_ext n (mmul n B A) mid C C).
  2:{ intros l Hl; apply HB; auto. } 2:{ auto. }
  apply mmul_id_l; auto.
Qed.

(** ** General inverse *)
Definition invertible (n : nat) (A : mat) : Prop :=
  exists B, meq n n (mmul n B A) mid /\ meq n n (mmul n A B) mid.

Lemma dot_sq_pos n x : vnz n x -> 0 < dot n x x.
Proof.
  intros (i & Hi & Hx). unfold dot.
  assert (0 < x i * x i) by (destruct (Rtotal_order (x i) 0) as [?|[?|?]]; nra).
  clear Hx. induction n as [|k IH]; [lia|]. simpl.
  assert (0 <= sumn k (fun i => x i * x i)) by (apply sumn_nonneg; intros; nra).
  destruct (Nat.eq_dec i k); [subst; lra|].
  assert (0 < sumn k (fun i => x i * x i)) by (apply IH; lia). nra.
Qed.

Lemma quad_gram n m A x : quad n (mmul m (mtr A) A) x = dot m (mvec n A x) (mvec n A x).
Proof.
  unfold quad, mmul, dot, mvec, mtr.
  transitivity (sumn n (fun i => sumn n (fun j => sumn m (fun l => x i * (A l i * A l j) * x j)))).
  { apply sumn_ext; intros i _. apply sumn_ext; intros j _.
    rewrite <- sumn_scal, <- sumn_scal_r. reflexivity. }
  transitivity (sumn m (fun l => sumn n (fun i => sumn n (fun j => x i * (A l i * A l j) * x j)))).
  { rewrite <- (sumn_swap n m (fun i l => sumn n (fun j => x i * (A l i * A l j) * x j))).
    apply sumn_ext; intros i _. rewrite <- sumn_swap. reflexivity. }
  apply sumn_ext; intros l _.
  rewrite <- sumn_scal_r. apply sumn_ext; intros i _.
  rewrite <- sumn_scal. apply sumn_ext; intros j _. lra.
Qed.

Lemma gram_sym n m A : sym n (mmul m (mtr A) A).
Proof.
  intros i j _ _. unfold mtr at 2, mmul. apply sumn_ext; intros l _. unfold mtr. lra.
Qed.

Lemma vnz_dec n x : vnz n x \/ veq n x (fun _ => 0).
Proof.
  induction n as [|k [IH|IH]].
  - right; intros i Hi; lia.
  - left. destruct IH as (i & Hi & Hx). exists i; split; auto.
  - destruct (Req_dec (x k) 0) as [E|E].
    + right. intros i Hi. destruct (Nat.eq_dec i k); [subst; auto|apply IH; lia].
    + left. exists k; auto.
Qed.

Lemma gram_pd n A : invertible n A -> pd n (mmul n (mtr A) A).
Proof.
  intros (B & HBA & _) x Hx. rewrite quad_gram. apply dot_sq_pos.
  destruct (vnz_dec n (mvec n A x)) as [H|H]; [exact H|exfalso].
  destruct Hx as (i & Hi & Hx). apply Hx.
  transitivity (mvec n mid x i).
  { unfold mvec, mid. rewrite (sumn_delta n i); auto.
    - rewrite Nat.eqb_refl; lra.
    - intros j Hj Hne. nb. lra. }
  transitivity (mvec n (mmul n B A) x i).
  { unfold mvec. apply sumn_ext; intros l Hl. rewrite HBA; auto. }
  rewrite mvec_mmul. unfold mvec at 1. apply sumn_zero; intros l Hl. rewrite H by auto. lra.
Qed.

Lemma geninv_l n A : invertible n A -> meq n n (mmul n (geninv n A) A) mid.
Proof.
  intros HA i j Hi Hj. unfold geninv. rewrite mmul_assoc.
  apply pdinv_l; auto using gram_sym, gram_pd.
Qed.

Lemma geninv_r n A : invertible n A -> meq n n (mmul n A (geninv n A)) mid.
Proof.
  intros HA. destruct HA as (B & HBA & HAB).
  assert (E : meq n n (geninv n A) B).
  { apply (left_inv_unique n A); auto. apply geninv_l. exists B; auto. }
  intros i j Hi Hj. rewrite (mmul_ext n A A (geninv n A) B); auto.
Qed.
