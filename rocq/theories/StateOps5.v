(** set_initial_covariance. *)
From Coq Require Import Reals List Arith Lia Lra Bool ZArith.
From Verif Require Import RBool Outcome Lin GeoModel GeoSpec GivensModel TypesModel StateModel StateSpec PdInv StateLin
  StateEkf TypesProofs GeoProofs StateOps StateOps2 StateOps3 StateOps4.
Import ListNotations.
Open Scope R_scope.

Lemma NoDup_app_parts {A} (l1 l2 : list A) : NoDup (l1 ++ l2) -> NoDup l1 /\ NoDup l2 /\ forall x, In x l1 -> ~ In x l2.
Proof.
  induction l1 as [|a l1 IH]; simpl; intros H.
  - split; [constructor|]. split; auto.
  - inversion H as [|? ? N H']; subst. destruct (IH H') as (A1 & A2 & A3). split; [|split; auto].
    + constructor; auto. intros Hin. apply N, in_or_app. auto.
    + intros x [->|Hx]; auto. intros Hin. apply N, in_or_app. auto.
Qed.

Lemma init_inner_out P i_id i_sz i_index l k_index acc r c :
  ~ (i_id <= r < i_id + i_sz)%nat \/ ~ In c (indices (pairs l)) ->
  init_inner P i_id i_sz i_index l k_index acc r c = acc r c.
Proof.
  revert k_index acc. induction l as [|[k_id k_sz] l IH]; intros k_index acc H; simpl; auto.
  rewrite IH.
  - apply set_block_out. destruct H as [H|H]; [lia|]. simpl in H.
    assert (~ (k_id <= c < k_id + k_sz)%nat) by (intros Hc; apply H, in_or_app; left; apply in_seq; lia). lia.
  - destruct H as [H|H]; [auto|]. right. intros Hc. apply H. simpl. apply in_or_app. auto.
Qed.

Lemma init_inner_in P i_id i_sz i_index l k_index acc r b :
  NoDup (indices (pairs l)) -> (i_id <= r < i_id + i_sz)%nat -> (b < length (indices (pairs l)))%nat ->
  init_inner P i_id i_sz i_index l k_index acc r (nth b (indices (pairs l)) 0%nat) = P (i_index + (r - i_id))%nat (k_index + b)%nat.
Proof.
  revert k_index acc b. induction l as [|[k_id k_sz] l IH]; intros k_index acc b ND Hr Hb; simpl in *; [lia|].
  rewrite app_length, seq_length in Hb. apply NoDup_app_parts in ND. destruct ND as (_ & N2 & N3).
  destruct (Nat.lt_ge_cases b k_sz) as [L|L].
  - rewrite app_nth1 by (rewrite seq_length; lia). rewrite seq_nth by lia.
    rewrite init_inner_out.
    + rewrite set_block_in by lia. f_equal. lia.
    + right. apply N3, in_seq. lia.
  - rewrite app_nth2 by (rewrite seq_length; lia). rewrite seq_length. rewrite IH; auto; [|lia]. f_equal. lia.
Qed.

Lemma init_outer_out P all l i_index acc r c :
  ~ In r (indices (pairs l)) \/ ~ In c (indices (pairs all)) ->
  init_outer P all l i_index acc r c = acc r c.
Proof.
  revert i_index acc. induction l as [|[i_id i_sz] l IH]; intros i_index acc H; simpl; auto.
  rewrite IH.
  - apply init_inner_out. destruct H as [H|H]; auto. left. intros Hr. apply H. simpl. apply in_or_app. left. apply in_seq. lia.
  - destruct H as [H|H]; auto. left. intros Hr. apply H. simpl. apply in_or_app. auto.
Qed.

Lemma init_outer_in P all l i_index acc a b :
  NoDup (indices (pairs l)) -> NoDup (indices (pairs all)) ->
  (a < length (indices (pairs l)))%nat -> (b < length (indices (pairs all)))%nat ->
  init_outer P all l i_index acc (nth a (indices (pairs l)) 0%nat) (nth b (indices (pairs all)) 0%nat) = P (i_index + a)%nat b.
Proof.
  revert i_index acc a. induction l as [|[i_id i_sz] l IH]; intros i_index acc a ND NA Ha Hb; simpl in *; [lia|].
  rewrite app_length, seq_length in Ha. apply NoDup_app_parts in ND. destruct ND as (_ & N2 & N3).
  destruct (Nat.lt_ge_cases a i_sz) as [L|L].
  - rewrite app_nth1 by (rewrite seq_length; lia). rewrite seq_nth by lia.
    rewrite init_outer_out.
    + rewrite init_inner_in; auto; [|lia]. f_equal. lia.
    + left. apply N3, in_seq. lia.
  - rewrite app_nth2 by (rewrite seq_length; lia). rewrite seq_length. rewrite IH; auto; [|lia]. f_equal. lia.
Qed.

(** C restricted to the indices outside [idx] *)
Definition keepm (idx : list nat) : mat := fun i j =>
  if existsb (Nat.eqb i) idx then 0 else mid i j.

Lemma existsb_in i idx : existsb (Nat.eqb i) idx = true <-> In i idx.
Proof.
  rewrite existsb_exists. split.
  - intros (x & Hx & E). apply Nat.eqb_eq in E. subst; auto.
  - intros H. exists i. split; auto. apply Nat.eqb_refl.
Qed.

Lemma congr_keepm n idx C i j : (i < n)%nat -> (j < n)%nat ->
  congr n (keepm idx) C i j = if (existsb (Nat.eqb i) idx || existsb (Nat.eqb j) idx)%bool then 0 else C i j.
Proof.
  intros Hi Hj. unfold congr, mmul, mtr, keepm.
  destruct (existsb (Nat.eqb j) idx) eqn:Ej; rewrite ?orb_true_r, ?orb_false_r.
  - rewrite sumn_zero; auto. intros; ring.
  - destruct (existsb (Nat.eqb i) idx) eqn:Ei.
    + rewrite sumn_zero; auto. intros k Hk. rewrite sumn_zero; [ring|]. intros; ring.
    + rewrite (sumn_delta n j); auto.
      * rewrite (sumn_delta n i); auto.
        -- unfold mid. rewrite !Nat.eqb_refl. ring.
        -- intros k Hk Hki. unfold mid. rewrite (proj2 (Nat.eqb_neq i k)); auto. ring.
      * intros k Hk Hkj. unfold mid at 2. rewrite (proj2 (Nat.eqb_neq j k)); auto. ring.
Qed.

Lemma congr_selT n idx P i j : NoDup idx ->
  congr n (mtr (selm idx)) P i j =
  sumn n (fun b => sumn n (fun a => (if (nth a idx 0 =? i)%nat then 1 else 0) * P a b) * (if (nth b idx 0 =? j)%nat then 1 else 0)).
Proof. intros _. reflexivity. Qed.

Lemma congr_selT_in idx P a b : NoDup idx -> (a < length idx)%nat -> (b < length idx)%nat ->
  congr (length idx) (mtr (selm idx)) P (nth a idx 0%nat) (nth b idx 0%nat) = P a b.
Proof.
  intros ND Ha Hb. rewrite congr_selT by auto.
  assert (N : forall x y, (x < length idx)%nat -> (y < length idx)%nat -> x <> y -> (nth x idx 0 =? nth y idx 0)%nat = false).
  { intros x y Hx Hy Hxy. apply Nat.eqb_neq. intros E. apply Hxy. eapply NoDup_nth; eauto. }
  rewrite (sumn_delta _ b); auto.
  - rewrite (sumn_delta _ a); auto.
    + rewrite !Nat.eqb_refl. ring.
    + intros k Hk Hka. rewrite N by auto. ring.
  - intros k Hk Hkb. rewrite (N k b) by auto. ring.
Qed.

Lemma congr_selT_out idx P i j : NoDup idx -> ~ In i idx \/ ~ In j idx ->
  congr (length idx) (mtr (selm idx)) P i j = 0.
Proof.
  intros ND H. rewrite congr_selT by auto. apply sumn_zero. intros b Hb. destruct H as [H|H].
  - rewrite sumn_zero; [ring|]. intros a Ha. assert (E : (nth a idx 0 =? i)%nat = false).
    { apply Nat.eqb_neq. intros <-. apply H, nth_In; auto. } rewrite E. ring.
  - assert (E : (nth b idx 0 =? j)%nat = false).
    { apply Nat.eqb_neq. intros <-. apply H, nth_In; auto. } rewrite E. ring.
Qed.

(** correlations of the variables being set with the rest are zero *)
Definition decorrelated (n : nat) (C : mat) (idx : list nat) : Prop :=
  forall i j, In i idx -> (j < n)%nat -> ~ In j idx -> C i j = 0.

Lemma set_initial_full st P order :
  in_cov (s_dim st) order -> NoDup (indices order) -> (length (indices order) <= dr P)%nat -> (length (indices order) <= dc P)%nat ->
  sym (length (indices order)) (dm P) -> sym (s_dim st) (s_cov st) ->
  exists C, set_initial_covariance st P order = Ok (set_vars_cov st (s_vars st) (s_dim st) C) /\
    (forall a b, (a < length (indices order))%nat -> (b < length (indices order))%nat ->
        C (nth a (indices order) 0%nat) (nth b (indices order) 0%nat) = dm P a b) /\
    (forall i j, (i < s_dim st)%nat -> (j < s_dim st)%nat -> ~ In i (indices order) \/ ~ In j (indices order) ->
        C i j = s_cov st i j) /\
    sym (s_dim st) C.
Proof.
  intros Hin ND Hr Hc SP SC. unfold set_initial_covariance.
  destruct (resolve_total _ _ Hin) as (l & El). rewrite El. cbn [obind].
  destruct (resolve_ok _ _ _ El) as [Eo _]. rewrite Eo in *.
  rewrite osize_indices. rewrite (proj2 (Nat.leb_le _ _) Hr), (proj2 (Nat.leb_le _ _) Hc). cbn [andb guard].
  set (idx := indices (pairs l)) in *. set (C := init_outer (dm P) l l 0 (s_cov st)).
  assert (S : sym (s_dim st) C).
  { intros i j Hi Hj. unfold mtr, C.
    destruct (in_dec Nat.eq_dec i idx) as [Ii|Ii], (in_dec Nat.eq_dec j idx) as [Ij|Ij].
    - apply (In_nth _ _ 0%nat) in Ii. destruct Ii as (a & Ha & <-).
      apply (In_nth _ _ 0%nat) in Ij. destruct Ij as (b & Hb & <-).
      unfold idx. rewrite !init_outer_in by auto. apply SP; auto.
    - rewrite !init_outer_out by auto. apply SC; auto.
    - rewrite !init_outer_out by auto. apply SC; auto.
    - rewrite !init_outer_out by auto. apply SC; auto. }
  assert (U : meq (s_dim st) (s_dim st) (upper_sym C) C) by (apply upper_sym_id; auto).
  exists (upper_sym C). split; [reflexivity|].
  assert (Lt : forall a, (a < length idx)%nat -> (nth a idx 0 < s_dim st)%nat) by (intros; apply nth_indices_lt; auto).
  split; [|split].
  - intros a b Ha Hb. rewrite U by auto. unfold C, idx. rewrite init_outer_in; auto.
  - intros i j Hi Hj H. rewrite U by auto. unfold C. apply init_outer_out. auto.
  - eapply sym_ext; [apply meq_sym, U|auto].
Qed.

Lemma spsd_set_initial st P order st' :
  in_cov (s_dim st) order -> NoDup (indices order) -> (length (indices order) <= dr P)%nat -> (length (indices order) <= dc P)%nat ->
  spsd (length (indices order)) (dm P) -> spsd (s_dim st) (s_cov st) ->
  decorrelated (s_dim st) (s_cov st) (indices order) ->
  set_initial_covariance st P order = Ok st' -> spsd (s_dim st') (s_cov st').
Proof.
  intros Hin ND Hr Hc SP SC D E.
  destruct (set_initial_full st P order Hin ND Hr Hc (proj1 SP) (proj1 SC)) as (C & E' & A & B & _).
  rewrite E in E'. injection E' as ->. simpl. set (idx := indices order) in *. set (n := s_dim st) in *.
  apply (spsd_ext n (madd (congr n (keepm idx) (s_cov st)) (congr (length idx) (mtr (selm idx)) (dm P)))).
  - intros i j Hi Hj. unfold madd. rewrite congr_keepm by auto.
    destruct (in_dec Nat.eq_dec i idx) as [Ii|Ii].
    + rewrite (proj2 (existsb_in i idx) Ii). cbn [orb].
      destruct (in_dec Nat.eq_dec j idx) as [Ij|Ij].
      * apply (In_nth _ _ 0%nat) in Ii. destruct Ii as (a & Ha & <-).
        apply (In_nth _ _ 0%nat) in Ij. destruct Ij as (b & Hb & <-).
        rewrite congr_selT_in, A by auto. ring.
      * rewrite congr_selT_out by auto. rewrite B by auto. rewrite D by auto. ring.
    + destruct (existsb (Nat.eqb i) idx) eqn:Ei; [apply existsb_in in Ei; tauto|]. cbn [orb].
      rewrite congr_selT_out by auto. rewrite B by auto.
      destruct (existsb (Nat.eqb j) idx) eqn:Ej; [|ring].
      apply existsb_in in Ej. rewrite (proj1 SC i j Hi Hj). unfold mtr. rewrite D by auto. ring.
  - apply spsd_add; apply spsd_congr; auto.
Qed.
