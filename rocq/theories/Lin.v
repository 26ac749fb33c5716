(** Finite sums and functional matrices over the reals.

    An [Eigen::MatrixXd] of size r x c is modelled by a function
    [nat -> nat -> R] of which only the entries [i < r], [j < c] are meaningful;
    the sizes are carried separately.  Vectors are functions [nat -> R].
    This file contains no model of repository code, only mathematics. *)
From Coq Require Import Reals Lra Lia Arith List Bool.
Import ListNotations.
Open Scope R_scope.

Definition vec := nat -> R.
Definition mat := nat -> nat -> R.

Fixpoint sumn (n : nat) (f : nat -> R) : R :=
  match n with
  | O => 0
  | S k => sumn k f + f k
  end.

Lemma sumn_ext n f g : (forall i, (i < n)%nat -> f i = g i) -> sumn n f = sumn n g.
Proof.
  induction n as [|n IH]; simpl; intros H; [reflexivity|].
  rewrite IH, H; auto with arith.
Qed.

Lemma sumn_plus n f g : sumn n (fun i => f i + g i) = sumn n f + sumn n g.
Proof. induction n as [|n IH]; simpl; [lra|rewrite IH; lra]. Qed.

Lemma sumn_minus n f g : sumn n (fun i => f i - g i) = sumn n f - sumn n g.
Proof. induction n as [|n IH]; simpl; [lra|rewrite IH; lra]. Qed.

Lemma sumn_opp n f : sumn n (fun i => - f i) = - sumn n f.
Proof. induction n as [|n IH]; simpl; [lra|rewrite IH; lra]. Qed.

Lemma sumn_scal n c f : sumn n (fun i => c * f i) = c * sumn n f.
Proof. induction n as [|n IH]; simpl; [lra|rewrite IH; lra]. Qed.

Lemma sumn_scal_r n c f : sumn n (fun i => f i * c) = sumn n f * c.
Proof. induction n as [|n IH]; simpl; [lra|rewrite IH; lra]. Qed.

Lemma sumn_zero n f : (forall i, (i < n)%nat -> f i = 0) -> sumn n f = 0.
Proof.
  induction n as [|n IH]; simpl; intros H; [reflexivity|].
  rewrite IH, H; auto with arith. lra.
Qed.

Lemma sumn_swap n m (f : nat -> nat -> R) :
  sumn n (fun i => sumn m (fun j => f i j)) = sumn m (fun j => sumn n (fun i => f i j)).
Proof.
  induction n as [|n IH]; simpl.
  - symmetry; apply sumn_zero; reflexivity.
  - rewrite IH, <- sumn_plus. reflexivity.
Qed.

Lemma sumn_add n m f : sumn (n + m) f = sumn n f + sumn m (fun i => f (n + i)%nat).
Proof.
  induction m as [|m IH]; simpl.
  - rewrite Nat.add_0_r; lra.
  - rewrite Nat.add_succ_r; simpl. rewrite IH; lra.
Qed.

Lemma sumn_delta n k f :
  (k < n)%nat -> (forall i, (i < n)%nat -> i <> k -> f i = 0) -> sumn n f = f k.
Proof.
  induction n as [|n IH]; intros Hk H; [lia|]. simpl.
  destruct (Nat.eq_dec k n) as [->|Hne].
  - rewrite sumn_zero; [lra|]. intros i Hi; apply H; lia.
  - rewrite IH; [|lia|intros i Hi Hik; apply H; lia].
    rewrite (H n); [lra|lia|auto].
Qed.

Lemma sumn_le n f g : (forall i, (i < n)%nat -> f i <= g i) -> sumn n f <= sumn n g.
Proof.
  induction n as [|n IH]; simpl; intros H; [lra|].
  assert (f n <= g n) by (apply H; lia).
  assert (sumn n f <= sumn n g) by (apply IH; intros; apply H; lia). lra.
Qed.

Lemma sumn_nonneg n f : (forall i, (i < n)%nat -> 0 <= f i) -> 0 <= sumn n f.
Proof.
  intros H. replace 0 with (sumn n (fun _ => 0)) by (apply sumn_zero; reflexivity).
  apply sumn_le; exact H.
Qed.

(** Sum restricted to a window [a, a+k) of [0, n). *)
Lemma sumn_window n a k f :
  (a + k <= n)%nat ->
  sumn n (fun i => if ((a <=? i) && (i <? a + k))%nat%bool then f i else 0)
  = sumn k (fun i => f (a + i)%nat).
Proof.
  intros H.
  replace n with (a + (k + (n - a - k)))%nat by lia.
  rewrite sumn_add, sumn_add.
  rewrite (sumn_zero a); [|intros i Hi].
  2:{ destruct (Nat.leb_spec a i); [lia|reflexivity]. }
  rewrite (sumn_zero (n - a - k)); [|intros i Hi].
  2:{ destruct (Nat.ltb_spec (a + (k + i)) (a + k)); [lia|].
      destruct (Nat.leb_spec a (a + (k + i))); reflexivity. }
  rewrite Rplus_0_l, Rplus_0_r.
  apply sumn_ext; intros i Hi.
  destruct (Nat.leb_spec a (a + i)); [|lia].
  destruct (Nat.ltb_spec (a + i) (a + k)); [|lia]. reflexivity.
Qed.

(** ** Matrices *)
Definition mid : mat := fun i j => if Nat.eqb i j then 1 else 0.
Definition mzero : mat := fun _ _ => 0.
Definition madd (A B : mat) : mat := fun i j => A i j + B i j.
Definition msub (A B : mat) : mat := fun i j => A i j - B i j.
Definition mscal (c : R) (A : mat) : mat := fun i j => c * A i j.
Definition mtr (A : mat) : mat := fun i j => A j i.
Definition mmul (k : nat) (A B : mat) : mat := fun i j => sumn k (fun l => A i l * B l j).
Definition mvec (k : nat) (A : mat) (x : vec) : vec := fun i => sumn k (fun l => A i l * x l).
Definition dot (n : nat) (x y : vec) : R := sumn n (fun i => x i * y i).

(** pointwise equality on an r x c range *)
Definition meq (r c : nat) (A B : mat) : Prop :=
  forall i j, (i < r)%nat -> (j < c)%nat -> A i j = B i j.
Definition veq (n : nat) (x y : vec) : Prop := forall i, (i < n)%nat -> x i = y i.

Definition sym (n : nat) (A : mat) : Prop := meq n n A (mtr A).
Definition quad (n : nat) (A : mat) (x : vec) : R :=
  sumn n (fun i => sumn n (fun j => x i * A i j * x j)).
Definition psd (n : nat) (A : mat) : Prop := forall x : vec, 0 <= quad n A x.
Definition vnz (n : nat) (x : vec) : Prop := exists i, (i < n)%nat /\ x i <> 0.
Definition pd (n : nat) (A : mat) : Prop := forall x : vec, vnz n x -> 0 < quad n A x.

Lemma meq_refl r c A : meq r c A A. Proof. intros i j _ _; reflexivity. Qed.
Lemma meq_sym r c A B : meq r c A B -> meq r c B A.
Proof. intros H i j Hi Hj; symmetry; auto. Qed.
Lemma meq_trans r c A B C : meq r c A B -> meq r c B C -> meq r c A C.
Proof. intros H1 H2 i j Hi Hj; rewrite H1; auto. Qed.

Lemma mmul_assoc k l A B C i j :
  mmul l (mmul k A B) C i j = mmul k A (mmul l B C) i j.
Proof.
  unfold mmul.
  transitivity (sumn l (fun a => sumn k (fun b => A i b * B b a * C a j))).
  - apply sumn_ext; intros a _. rewrite <- sumn_scal_r. reflexivity.
  - rewrite sumn_swap. apply sumn_ext; intros b _.
    rewrite <- sumn_scal. apply sumn_ext; intros a _. lra.
Qed.

Lemma mmul_ext k A A' B B' i j :
  (forall l, (l < k)%nat -> A i l = A' i l) -> (forall l, (l < k)%nat -> B l j = B' l j) ->
  mmul k A B i j = mmul k A' B' i j.
Proof. intros HA HB. apply sumn_ext; intros l Hl. rewrite HA, HB; auto. Qed.

Lemma mmul_id_l k B i j : (i < k)%nat -> mmul k mid B i j = B i j.
Proof.
  intros Hi. unfold mmul, mid. rewrite (sumn_delta k i); auto.
  - rewrite Nat.eqb_refl; lra.
  - intros l _ Hl. destruct (Nat.eqb_spec i l); [congruence|lra].
Qed.

Lemma mmul_id_r k A i j : (j < k)%nat -> mmul k A mid i j = A i j.
Proof.
  intros Hj. unfold mmul, mid. rewrite (sumn_delta k j); auto.
  - rewrite Nat.eqb_refl; lra.
  - intros l _ Hl. destruct (Nat.eqb_spec l j); [congruence|lra].
Qed.

Lemma mmul_add_l k A B C i j : mmul k (madd A B) C i j = mmul k A C i j + mmul k B C i j.
Proof. unfold mmul, madd. rewrite <- sumn_plus. apply sumn_ext; intros; lra. Qed.
Lemma mmul_add_r k A B C i j : mmul k A (madd B C) i j = mmul k A B i j + mmul k A C i j.
Proof. unfold mmul, madd. rewrite <- sumn_plus. apply sumn_ext; intros; lra. Qed.
Lemma mmul_sub_l k A B C i j : mmul k (msub A B) C i j = mmul k A C i j - mmul k B C i j.
Proof. unfold mmul, msub. rewrite <- sumn_minus. apply sumn_ext; intros; lra. Qed.
Lemma mmul_sub_r k A B C i j : mmul k A (msub B C) i j = mmul k A B i j - mmul k A C i j.
Proof. unfold mmul, msub. rewrite <- sumn_minus. apply sumn_ext; intros; lra. Qed.

Lemma mmul_tr k A B i j : mmul k A B j i = mmul k (mtr B) (mtr A) i j.
Proof. unfold mmul, mtr. apply sumn_ext; intros; lra. Qed.

Lemma mvec_mmul k l A B x i : mvec l (mmul k A B) x i = mvec k A (mvec l B x) i.
Proof.
  unfold mvec, mmul.
  transitivity (sumn l (fun a => sumn k (fun b => A i b * B b a * x a))).
  - apply sumn_ext; intros a _. rewrite <- sumn_scal_r. reflexivity.
  - rewrite sumn_swap. apply sumn_ext; intros b _.
    rewrite <- sumn_scal. apply sumn_ext; intros a _. lra.
Qed.

Lemma quad_dot n A x : quad n A x = dot n x (mvec n A x).
Proof.
  unfold quad, dot, mvec. apply sumn_ext; intros i _.
  rewrite <- sumn_scal. apply sumn_ext; intros j _. lra.
Qed.

Lemma quad_ext n A B x : meq n n A B -> quad n A x = quad n B x.
Proof.
  intros H. apply sumn_ext; intros i Hi. apply sumn_ext; intros j Hj. rewrite H; auto.
Qed.

Lemma quad_ext_v n A x y : veq n x y -> quad n A x = quad n A y.
Proof.
  intros H. apply sumn_ext; intros i Hi. apply sumn_ext; intros j Hj. rewrite !H; auto.
Qed.

Lemma quad_add n A B x : quad n (madd A B) x = quad n A x + quad n B x.
Proof.
  unfold quad, madd. rewrite <- sumn_plus. apply sumn_ext; intros i _.
  rewrite <- sumn_plus. apply sumn_ext; intros; lra.
Qed.

(** x^T (A P A^T) x = (A^T x)^T P (A^T x); A is n x m, P is m x m *)
Lemma quad_congr n m A P x :
  quad n (mmul m (mmul m A P) (mtr A)) x = quad m P (mvec n (mtr A) x).
Proof.
  rewrite !quad_dot. unfold dot.
  assert (E : forall i, mvec n (mmul m (mmul m A P) (mtr A)) x i
              = mvec m A (mvec m P (mvec n (mtr A) x)) i).
  { intros i. rewrite mvec_mmul. rewrite mvec_mmul. reflexivity. }
  transitivity (sumn n (fun i => x i * mvec m A (mvec m P (mvec n (mtr A) x)) i)).
  { apply sumn_ext; intros i _; rewrite E; reflexivity. }
  set (y := mvec m P (mvec n (mtr A) x)).
  unfold mvec at 1.
  transitivity (sumn n (fun i => sumn m (fun l => x i * A i l * y l))).
  { apply sumn_ext; intros i _. rewrite <- sumn_scal. apply sumn_ext; intros; lra. }
  rewrite sumn_swap. apply sumn_ext; intros l _.
  unfold mvec, mtr. rewrite <- sumn_scal_r. apply sumn_ext; intros; lra.
Qed.

Lemma psd_congr n m A P : psd m P -> psd n (mmul m (mmul m A P) (mtr A)).
Proof. intros H x. rewrite quad_congr. apply H. Qed.

Lemma psd_ext n A B : meq n n A B -> psd n A -> psd n B.
Proof. intros H HA x. rewrite <- (quad_ext n A B x H). apply HA. Qed.

Lemma psd_add n A B : psd n A -> psd n B -> psd n (madd A B).
Proof. intros HA HB x. rewrite quad_add. specialize (HA x); specialize (HB x); lra. Qed.

Lemma pd_psd n A : pd n A -> psd n A.
Proof.
  intros H x.
  assert (Hd : (exists i, (i < n)%nat /\ x i <> 0) \/ (forall i, (i < n)%nat -> x i = 0)).
  { clear H. induction n as [|n IH].
    - right; intros i Hi; lia.
    - destruct (Req_EM_T (x n) 0) as [E|E].
      + destruct IH as [[i [Hi Hx]]|IH].
        * left; exists i; split; [lia|auto].
        * right; intros i Hi. destruct (Nat.eq_dec i n); [subst; auto|apply IH; lia].
      + left; exists n; split; [lia|auto]. }
  destruct Hd as [Hnz|Hz].
  - left; apply H; exact Hnz.
  - right. symmetry. apply sumn_zero; intros i Hi. apply sumn_zero; intros j Hj.
    rewrite (Hz i Hi). lra.
Qed.

Lemma pd_add_psd n A B : psd n A -> pd n B -> pd n (madd A B).
Proof. intros HA HB x Hx. rewrite quad_add. specialize (HA x); specialize (HB x Hx); lra. Qed.

Lemma quad_unit n A k : (k < n)%nat -> quad n A (fun i => if Nat.eqb i k then 1 else 0) = A k k.
Proof.
  intros Hk. unfold quad. rewrite (sumn_delta n k); auto.
  - rewrite (sumn_delta n k); auto.
    + rewrite Nat.eqb_refl; lra.
    + intros j _ Hj. destruct (Nat.eqb_spec j k); [congruence|lra].
  - intros i _ Hi. apply sumn_zero; intros j _. destruct (Nat.eqb_spec i k); [congruence|lra].
Qed.

Lemma psd_diag n A k : psd n A -> (k < n)%nat -> 0 <= A k k.
Proof. intros H Hk. rewrite <- (quad_unit n A k Hk). apply H. Qed.

Lemma sym_ext n A B : meq n n A B -> sym n A -> sym n B.
Proof.
  intros H HA i j Hi Hj. unfold mtr. rewrite <- H, <- H; auto. apply HA; auto.
Qed.

Lemma sym_congr n m A P : sym m P -> sym n (mmul m (mmul m A P) (mtr A)).
Proof.
  intros HP i j Hi Hj. unfold mtr at 2. rewrite mmul_assoc.
  rewrite (mmul_tr m (mmul m A P) (mtr A)).
  unfold mmul at 1 3. apply sumn_ext; intros l Hl.
  unfold mtr at 2 3. f_equal. rewrite mmul_tr.
  unfold mmul. apply sumn_ext; intros a Ha. unfold mtr. rewrite (HP l a); auto.
Qed.

(** upper-triangular part mirrored: Eigen's selfadjointView<Upper> *)
Definition upper_sym (A : mat) : mat := fun i j => if (i <=? j)%nat then A i j else A j i.

Lemma upper_sym_sym n A : sym n (upper_sym A).
Proof.
  intros i j _ _. unfold upper_sym, mtr.
  destruct (Nat.leb_spec i j), (Nat.leb_spec j i); auto; try lia.
  replace i with j by lia; reflexivity.
Qed.

Lemma upper_sym_id n A : sym n A -> meq n n (upper_sym A) A.
Proof.
  intros H i j Hi Hj. unfold upper_sym. destruct (Nat.leb_spec i j); auto.
  symmetry; apply (H i j); auto.
Qed.
