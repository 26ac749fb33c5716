(** Linear algebra of the StateHelper covariance manipulations. *)
From Coq Require Import Reals List Arith Lia Lra Bool.
From Verif Require Import RBool Outcome Lin GivensModel TypesModel StateModel StateSpec PdInv.
Import ListNotations.
Open Scope R_scope.

Ltac nbs := repeat match goal with
  | |- context[(?a <? ?b)%nat] => destruct (Nat.ltb_spec a b); cbn [andb]; try lia
  | |- context[(?a <=? ?b)%nat] => destruct (Nat.leb_spec a b); cbn [andb]; try lia
  | |- context[(?a =? ?b)%nat] => destruct (Nat.eqb_spec a b); cbn [andb]; try lia
  end.

(** ** Elementary blocks *)
Lemma set_block_in M r0 c0 nr nc B i j :
  (r0 <= i < r0 + nr)%nat -> (c0 <= j < c0 + nc)%nat ->
  set_block M r0 c0 nr nc B i j = B (i - r0)%nat (j - c0)%nat.
Proof. intros; unfold set_block. nbs. reflexivity. Qed.
Lemma set_block_out M r0 c0 nr nc B i j :
  (i < r0 \/ r0 + nr <= i \/ j < c0 \/ c0 + nc <= j)%nat ->
  set_block M r0 c0 nr nc B i j = M i j.
Proof. intros; unfold set_block. nbs; reflexivity. Qed.

Definition skip (mid msz k : nat) : nat := if (k <? mid)%nat then k else (k + msz)%nat.

Lemma marg_cov_eq n C mid msz i j :
  sym n C -> (mid + msz <= n)%nat -> (i < n - msz)%nat -> (j < n - msz)%nat ->
  marg_cov C mid msz (n - mid - msz) i j = C (skip mid msz i) (skip mid msz j).
Proof.
  intros HS Hn Hi Hj. unfold marg_cov, skip.
  destruct (Nat.ltb_spec i mid), (Nat.ltb_spec j mid).
  - rewrite !set_block_out, set_block_in by lia. f_equal; lia.
  - rewrite !set_block_out, set_block_in by lia. f_equal; lia.
  - rewrite set_block_out, set_block_in by lia.
    rewrite set_block_in by lia. rewrite HS by lia. unfold mtr. f_equal; lia.
  - rewrite set_block_in by lia. f_equal; lia.
Qed.

Definition csrc (n loc k : nat) : nat := if (k <? n)%nat then k else (loc + (k - n))%nat.

Lemma clone_cov_eq n C loc sz i j :
  (loc + sz <= n)%nat -> (i < n + sz)%nat -> (j < n + sz)%nat ->
  clone_cov C n loc sz i j = C (csrc n loc i) (csrc n loc j).
Proof.
  intros Hn Hi Hj. unfold clone_cov, csrc.
  destruct (Nat.ltb_spec i n), (Nat.ltb_spec j n).
  - rewrite !set_block_out, set_block_in by lia. f_equal; lia.
  - rewrite set_block_out, set_block_in by lia.
    rewrite set_block_out, set_block_in by lia. f_equal; lia.
  - rewrite set_block_in by lia. rewrite !set_block_out, set_block_in by lia. f_equal; lia.
  - rewrite !set_block_out, set_block_in by lia. rewrite set_block_in by lia. f_equal; lia.
Qed.

(** picking rows and columns by a function is a congruence *)
Lemma congr_entry n A P i j :
  congr n A P i j = sumn n (fun b => sumn n (fun a => A i a * P a b) * A j b).
Proof. reflexivity. Qed.

Lemma pick_l n (f : nat -> nat) (g : nat -> R) i : (f i < n)%nat ->
  sumn n (fun a => (if Nat.eqb (f i) a then 1 else 0) * g a) = g (f i).
Proof.
  intros H. rewrite (sumn_delta n (f i)); auto.
  - rewrite Nat.eqb_refl. lra.
  - intros a Ha Hne. nbs. lra.
Qed.

Lemma congr_pick n (f : nat -> nat) P i j : (f i < n)%nat -> (f j < n)%nat ->
  congr n (fun a b => if Nat.eqb (f a) b then 1 else 0) P i j = P (f i) (f j).
Proof.
  intros Hi Hj. rewrite congr_entry.
  rewrite (sumn_ext n _ (fun b => (if Nat.eqb (f j) b then 1 else 0) * P (f i) b)).
  2:{ intros b Hb. rewrite (pick_l n f (fun a => P a b)); auto. lra. }
  apply (pick_l n f (fun b => P (f i) b)); auto.
Qed.

Lemma quad_pick n m (f : nat -> nat) P C :
  (forall i, (i < m)%nat -> (f i < n)%nat) ->
  (forall i j, (i < m)%nat -> (j < m)%nat -> C i j = P (f i) (f j)) ->
  spsd n P -> spsd m C.
Proof.
  intros Hf HC [HS HP]. split.
  - intros i j Hi Hj. unfold mtr. rewrite !HC by auto. apply HS; auto.
  - apply (psd_ext m (congr n (fun a b => if Nat.eqb (f a) b then 1 else 0) P)).
    + intros i j Hi Hj. rewrite congr_pick by auto. symmetry; auto.
    + apply psd_congr. exact HP.
Qed.

(** ** Order lists *)
Definition pairs (l : list (nat * nat)) : list vref := map (fun p => (Some (fst p), snd p)) l.

Lemma resolve_ok n order l : resolve n order = Ok l ->
  order = pairs l /\ in_cov n order.
Proof.
  revert l. induction order as [|[[i|] sz] order IH]; simpl; intros l H.
  - injection H as <-. split; [reflexivity|constructor].
  - unfold guard in H. destruct (Nat.leb_spec (i + sz) n); [|discriminate].
    apply obind_ok in H. destruct H as (r & Hr & E). injection E as <-.
    destruct (IH r Hr) as [-> Hin]. split; [reflexivity|].
    constructor; [exists i; auto|exact Hin].
  - discriminate.
Qed.

Lemma resolve_total n order : in_cov n order -> exists l, resolve n order = Ok l.
Proof.
  induction 1 as [|[k sz] order (i & Hk & Hi) _ (l & IH)]; simpl in *.
  - eexists; reflexivity.
  - subst k. unfold guard. destruct (Nat.leb_spec (i + sz) n); [|lia].
    rewrite IH. eexists; reflexivity.
Qed.

Lemma osize_indices l : osize l = length (indices (pairs l)).
Proof.
  induction l as [|[i sz] l IH]; simpl; [reflexivity|].
  rewrite app_length, seq_length, IH. reflexivity.
Qed.

Lemma in_cov_indices n order : in_cov n order -> forall a, In a (indices order) -> (a < n)%nat.
Proof.
  induction 1 as [|[k sz] order (i & Hk & Hi) _ IH]; simpl in *; [tauto|].
  subst k. intros a Ha. apply in_app_or in Ha. destruct Ha as [Ha|Ha]; auto.
  apply in_seq in Ha. lia.
Qed.

Lemma nth_indices_lt n order a : in_cov n order -> (a < length (indices order))%nat ->
  (nth a (indices order) 0 < n)%nat.
Proof. intros H Ha. eapply in_cov_indices; eauto. apply nth_In; auto. Qed.

(** ** P H^T accumulated over an order *)
Lemma cov_HT_eq C H l off acc i r :
  cov_HT C H l off acc i r =
  acc i r + sumn (osize l) (fun a => C i (nth a (indices (pairs l)) 0%nat) * H r (off + a)%nat).
Proof.
  revert off acc. induction l as [|[id sz] l IH]; intros off acc; simpl.
  - lra.
  - rewrite IH. unfold madd. rewrite sumn_add, Rplus_assoc. f_equal. f_equal.
    + apply sumn_ext; intros k Hk. rewrite app_nth1 by (rewrite seq_length; lia).
      rewrite seq_nth by lia. reflexivity.
    + apply sumn_ext; intros k Hk. rewrite app_nth2 by (rewrite seq_length; lia).
      rewrite seq_length. replace (sz + k - sz)%nat with k by lia.
      replace (off + sz + k)%nat with (off + (sz + k))%nat by lia. reflexivity.
Qed.

Lemma phi_cov_eq Phi CP l off acc r c :
  phi_cov Phi CP l off acc r c =
  acc r c + sumn (osize l) (fun a => Phi r (off + a)%nat * CP (nth a (indices (pairs l)) 0%nat) c).
Proof.
  revert off acc. induction l as [|[id sz] l IH]; intros off acc; simpl.
  - lra.
  - rewrite IH. unfold madd. rewrite sumn_add, Rplus_assoc. f_equal. f_equal.
    + apply sumn_ext; intros k Hk. rewrite app_nth1 by (rewrite seq_length; lia).
      rewrite seq_nth by lia. reflexivity.
    + apply sumn_ext; intros k Hk. rewrite app_nth2 by (rewrite seq_length; lia).
      rewrite seq_length. replace (sz + k - sz)%nat with k by lia.
      replace (off + sz + k)%nat with (off + (sz + k))%nat by lia. reflexivity.
Qed.

(** widening: sums over the full state are sums over the selected indices *)
Lemma widen_sum n idx H r (g : nat -> R) :
  (forall a, (a < length idx)%nat -> (nth a idx 0 < n)%nat) ->
  sumn n (fun j => widen idx H r j * g j) =
  sumn (length idx) (fun a => H r a * g (nth a idx 0%nat)).
Proof.
  intros Hidx. unfold widen, mmul, selm.
  transitivity (sumn n (fun j => sumn (length idx)
     (fun a => H r a * ((if Nat.eqb (nth a idx 0%nat) j then 1 else 0) * g j)))).
  { apply sumn_ext; intros j _. rewrite <- sumn_scal_r. apply sumn_ext; intros; lra. }
  rewrite sumn_swap. apply sumn_ext; intros a Ha.
  rewrite sumn_scal. f_equal. apply (pick_l n (fun a => nth a idx 0%nat) g); auto.
Qed.

(** [cov_HT] is P * Hfull^T *)
Lemma cov_HT_full n C H l i r : in_cov n (pairs l) ->
  cov_HT C H l 0 mzero i r = mmul n C (mtr (widen (indices (pairs l)) H)) i r.
Proof.
  intros Hin. rewrite cov_HT_eq. unfold mzero. rewrite Rplus_0_l. unfold mmul, mtr.
  rewrite (sumn_ext n _ (fun j => widen (indices (pairs l)) H r j * C i j)) by (intros; lra).
  rewrite (widen_sum n (indices (pairs l)) H r (fun j => C i j)).
  - rewrite osize_indices. apply sumn_ext; intros a Ha. simpl. lra.
  - intros a Ha. apply nth_indices_lt; auto.
Qed.

(** [phi_cov] is Phifull * X *)
Lemma phi_cov_full n Phi CP l acc r c : in_cov n (pairs l) ->
  phi_cov Phi CP l 0 acc r c = acc r c + mmul n (widen (indices (pairs l)) Phi) CP r c.
Proof.
  intros Hin. rewrite phi_cov_eq. f_equal. unfold mmul.
  rewrite (widen_sum n (indices (pairs l)) Phi r (fun j => CP j c)).
  - rewrite osize_indices. reflexivity.
  - intros a Ha. apply nth_indices_lt; auto.
Qed.

(** ** Marginal covariance *)
Lemma marg_inner_eq C i_id i_sz i_index l k_index acc i j :
  marg_inner C i_id i_sz i_index l k_index acc i j =
  if ((i_index <=? i) && (i <? i_index + i_sz) && (k_index <=? j) && (j <? k_index + osize l))%nat%bool
  then C (i_id + (i - i_index))%nat (nth (j - k_index) (indices (pairs l)) 0%nat)
  else acc i j.
Proof.
  revert k_index acc. induction l as [|[k_id k_sz] l IH]; intros k_index acc; simpl.
  - nbs; reflexivity.
  - rewrite IH. destruct (Nat.leb_spec i_index i); cbn [andb].
    2:{ apply set_block_out; lia. }
    destruct (Nat.ltb_spec i (i_index + i_sz)); cbn [andb].
    2:{ apply set_block_out; lia. }
    destruct (Nat.leb_spec (k_index + k_sz) j); cbn [andb].
    + replace (j <? k_index + k_sz + osize l)%nat with (j <? k_index + (k_sz + osize l))%nat
        by (f_equal; lia).
      destruct (Nat.ltb_spec j (k_index + (k_sz + osize l))); nbs.
      * rewrite app_nth2 by (rewrite seq_length; lia). rewrite seq_length. f_equal. f_equal. lia.
      * apply set_block_out; lia.
    + destruct (Nat.leb_spec k_index j); cbn [andb].
      * nbs. rewrite app_nth1 by (rewrite seq_length; lia). rewrite seq_nth by lia.
        rewrite set_block_in by lia. reflexivity.
      * apply set_block_out; lia.
Qed.

Lemma marg_outer_eq C all l i_index acc i j :
  marg_outer C all l i_index acc i j =
  if ((i_index <=? i) && (i <? i_index + osize l) && (j <? osize all))%nat%bool
  then C (nth (i - i_index) (indices (pairs l)) 0%nat) (nth j (indices (pairs all)) 0%nat)
  else acc i j.
Proof.
  revert i_index acc. induction l as [|[i_id i_sz] l IH]; intros i_index acc; simpl.
  - nbs; reflexivity.
  - rewrite IH. rewrite marg_inner_eq. rewrite Nat.add_0_l, Nat.sub_0_r.
    replace (i_index + i_sz + osize l)%nat with (i_index + (i_sz + osize l))%nat by lia.
    destruct (Nat.ltb_spec j (osize all)); rewrite ?andb_false_r, ?andb_true_r.
    + destruct (Nat.leb_spec (i_index + i_sz) i); cbn [andb]; nbs; try reflexivity.
      * rewrite app_nth2 by (rewrite seq_length; lia). rewrite seq_length. f_equal. f_equal. lia.
      * rewrite app_nth1 by (rewrite seq_length; lia). rewrite seq_nth by lia. reflexivity.
    + reflexivity.
Qed.

Lemma marginal_block_eq C l i j : (i < osize l)%nat -> (j < osize l)%nat ->
  marginal_block C l i j =
  C (nth i (indices (pairs l)) 0%nat) (nth j (indices (pairs l)) 0%nat).
Proof.
  intros Hi Hj. unfold marginal_block. rewrite marg_outer_eq. nbs.
  rewrite Nat.sub_0_r. reflexivity.
Qed.

(** H P_small H^T = Hfull P Hfull^T *)
Lemma small_innov n H C l r c : in_cov n (pairs l) ->
  mmul (osize l) (mmul (osize l) H (marginal_block C l)) (mtr H) r c =
  congr n (widen (indices (pairs l)) H) C r c.
Proof.
  intros Hin. set (idx := indices (pairs l)).
  assert (Hl : osize l = length idx) by apply osize_indices.
  assert (Hlt : forall a, (a < length idx)%nat -> (nth a idx 0 < n)%nat)
    by (intros; apply nth_indices_lt; auto).
  unfold congr, mmul, mtr.
  rewrite (sumn_ext n _ (fun b => widen idx H c b *
             (sumn (osize l) (fun a => H r a * C (nth a idx 0%nat) b)))).
  2:{ intros b Hb. rewrite (widen_sum n idx H r (fun a => C a b)) by auto. rewrite <- Hl. lra. }
  rewrite (widen_sum n idx H c
             (fun b => sumn (osize l) (fun a => H r a * C (nth a idx 0%nat) b))) by auto.
  rewrite <- Hl. apply sumn_ext; intros b Hb. rewrite Rmult_comm. f_equal.
  apply sumn_ext; intros a Ha. f_equal. apply marginal_block_eq; auto.
Qed.
