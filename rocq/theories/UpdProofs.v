(** Stacking of feature systems: the mapping built by the loops puts every feature row in place. *)
From Coq Require Import Reals List Arith Lia Lra ZArith Bool Permutation.
From Verif Require Import RBool Outcome Lin GeoModel TypesModel GivensModel StateModel StateSpec StateLin ReachModel
  DbModel DbSpec DbProofs UpdModel UpdSpec.
Import ListNotations.
Open Scope R_scope.

Definition psz (e : pref) : nat := snd (snd e).
Definition tot (o : list pref) : nat := fold_right (fun e a => (psz e + a)%nat) 0%nat o.
Fixpoint off_of (o : list pref) (p : nat) : option nat :=
  match o with
  | [] => None
  | e :: o' => if Nat.eqb p (fst e) then Some 0%nat else option_map (Nat.add (psz e)) (off_of o' p)
  end.
Definition offd (o : list pref) (p : nat) : nat := match off_of o p with Some c => c | None => 0%nat end.

Lemma tot_app a b : tot (a ++ b) = (tot a + tot b)%nat.
Proof. induction a; simpl; auto. rewrite IHa. lia. Qed.
Lemma off_of_none o p : off_of o p = None <-> ~ In p (map fst o).
Proof.
  induction o as [|e o IH]; simpl; [intuition|].
  destruct (Nat.eqb_spec p (fst e)) as [->|N].
  - split; [discriminate|]. intros C. exfalso. apply C. auto.
  - destruct (off_of o p); simpl.
    + split; [discriminate|]. intros C. exfalso. apply C. right. destruct (in_dec Nat.eq_dec p (map fst o)); auto.
      apply IH in n0. discriminate.
    + split; auto. intros _ [E|E]; [congruence|]. apply IH in E; auto.
Qed.
Lemma off_of_in o p : In p (map fst o) -> off_of o p = Some (offd o p).
Proof.
  intros I. unfold offd. destruct (off_of o p) eqn:E; auto. apply off_of_none in E. contradiction.
Qed.
Lemma off_of_app o x p : off_of (o ++ [x]) p =
  match off_of o p with Some c => Some c | None => if Nat.eqb p (fst x) then Some (tot o) else None end.
Proof.
  induction o as [|e o IH]; simpl.
  - destruct (Nat.eqb p (fst x)); reflexivity.
  - destruct (Nat.eqb p (fst e)); [reflexivity|]. rewrite IH.
    destruct (off_of o p); simpl; [reflexivity|]. destruct (Nat.eqb p (fst x)); reflexivity.
Qed.
Lemma off_bound o e : NoDup (map fst o) -> In e o -> (offd o (fst e) + psz e <= tot o)%nat.
Proof.
  induction o as [|x o IH]; simpl; [tauto|]. intros N I. inversion N; subst. unfold offd. simpl.
  destruct I as [->|I].
  - rewrite Nat.eqb_refl. lia.
  - destruct (Nat.eqb_spec (fst e) (fst x)) as [E|E].
    + exfalso. apply H1. rewrite <- E. apply in_map. auto.
    + rewrite (off_of_in o (fst e)) by (apply in_map; auto). simpl. specialize (IH H2 I). unfold psz in *. lia.
Qed.
Lemma off_disjoint o e e' : NoDup (map fst o) -> In e o -> In e' o -> fst e <> fst e' ->
  (offd o (fst e) + psz e <= offd o (fst e') \/ offd o (fst e') + psz e' <= offd o (fst e))%nat.
Proof.
  induction o as [|x o IH]; simpl; [tauto|]. intros N I I' D. inversion N; subst. unfold offd. simpl.
  destruct I as [->|I]; destruct I' as [->|I'].
  - congruence.
  - rewrite Nat.eqb_refl. destruct (Nat.eqb_spec (fst e') (fst e)); [congruence|].
    rewrite (off_of_in o (fst e')) by (apply in_map; auto). simpl. left. lia.
  - rewrite Nat.eqb_refl. destruct (Nat.eqb_spec (fst e) (fst e')); [congruence|].
    rewrite (off_of_in o (fst e)) by (apply in_map; auto). simpl. right. lia.
  - destruct (Nat.eqb_spec (fst e) (fst x)) as [E|E].
    { exfalso. apply H1. rewrite <- E. apply in_map. auto. }
    destruct (Nat.eqb_spec (fst e') (fst x)) as [E'|E'].
    { exfalso. apply H1. rewrite <- E'. apply in_map. auto. }
    rewrite (off_of_in o (fst e)), (off_of_in o (fst e')) by (apply in_map; auto). simpl.
    destruct (IH H2 I I' D); [left|right]; lia.
Qed.

Lemma NoDup_snoc {A} (l : list A) x : NoDup l -> ~ In x l -> NoDup (l ++ [x]).
Proof.
  intros N I. apply NoDup_rev in N. rewrite <- (rev_involutive (l ++ [x])). apply NoDup_rev. rewrite rev_app_distr. simpl.
  constructor; auto. rewrite <- in_rev. auto.
Qed.

(** ** Widening as a sum over the variables *)
Definition blk (H : mat) (i j c : nat) (vr : vref) : R :=
  match fst vr with
  | Some id => sumn (snd vr) (fun b => H i (c + b)%nat * (if Nat.eqb (id + b) j then 1 else 0))
  | None => 0
  end.
Fixpoint wsum (H : mat) (i j : nat) (o : list pref) (off : nat) : R :=
  match o with
  | [] => 0
  | e :: o' => blk H i j off (snd e) + wsum H i j o' (off + psz e)
  end.
Definition sumL {A} (f : A -> R) (l : list A) : R := fold_right (fun x a => f x + a) 0 l.

Lemma sumL_ext {A} (f g : A -> R) l : (forall x, In x l -> f x = g x) -> sumL f l = sumL g l.
Proof. induction l; simpl; intros E; auto. rewrite E, IHl; auto. Qed.
Lemma sumL_perm {A} (f : A -> R) l l' : Permutation l l' -> sumL f l = sumL f l'.
Proof. induction 1; simpl; lra. Qed.
Lemma sumL_filter {A} (f : A -> R) (p : A -> bool) l :
  sumL (fun x => if p x then f x else 0) l = sumL f (filter p l).
Proof. induction l; simpl; auto. destruct (p a); simpl; lra. Qed.

Definition has_id (e : pref) : Prop := exists id, fst (snd e) = Some id.

Lemma indices_len o : Forall has_id o -> length (indices (map snd o)) = tot o.
Proof.
  induction 1 as [|[p [i sz]] o [id Ei] _ IH]; simpl; auto. simpl in Ei. subst. simpl.
  rewrite app_length, seq_length. fold (indices (map snd o)). rewrite IH. unfold psz. simpl. lia.
Qed.
Lemma wsum_eq H i j o : Forall has_id o -> forall off,
  sumn (length (indices (map snd o))) (fun a => H i (off + a)%nat * selm (indices (map snd o)) a j) = wsum H i j o off.
Proof.
  induction 1 as [|[p [k sz]] o [id Ei] _ IH]; intros off; simpl; auto.
  simpl in Ei. subst k. simpl. unfold blk. simpl. rewrite app_length, seq_length. rewrite sumn_add. f_equal.
  - apply sumn_ext. intros b Hb. f_equal. unfold selm. rewrite app_nth1 by (rewrite seq_length; auto).
    rewrite seq_nth by auto. reflexivity.
  - unfold psz. simpl. rewrite <- IH. unfold indices at 1. apply sumn_ext. intros b Hb.
    rewrite Nat.add_assoc. f_equal. unfold selm. rewrite app_nth2 by (rewrite seq_length; lia).
    rewrite seq_length. replace (sz + b - sz)%nat with b by lia. reflexivity.
Qed.
Lemma widen_wsum H i j o : Forall has_id o -> widen (indices (map snd o)) H i j = wsum H i j o 0.
Proof. intros F. rewrite <- wsum_eq by auto. unfold widen, mmul. apply sumn_ext. intros; reflexivity. Qed.
Lemma wsum_sumL H i j o : NoDup (map fst o) -> forall off,
  wsum H i j o off = sumL (fun e => blk H i j (off + offd o (fst e))%nat (snd e)) o.
Proof.
  induction o as [|e o IH]; simpl; intros N off; auto. inversion N; subst. f_equal.
  - unfold offd. simpl. rewrite Nat.eqb_refl. rewrite Nat.add_0_r. reflexivity.
  - rewrite IH by auto. apply sumL_ext. intros x Ix.
    assert (In (fst x) (map fst o)) by (apply in_map; auto).
    unfold offd. simpl. destruct (Nat.eqb_spec (fst x) (fst e)) as [E|E].
    + exfalso. apply H2. rewrite <- E. auto.
    + rewrite (off_of_in o) by auto. simpl. f_equal. lia.
Qed.

(** ** Rows *)
Definition rowok (H : mat) (r : nat) (order o : list pref) (Hk : mat) (i : nat) : Prop :=
  (forall e, In e order -> forall b, (b < psz e)%nat ->
     H r (offd order (fst e) + b)%nat = match off_of o (fst e) with Some h => Hk i (h + b)%nat | None => 0 end) /\
  (forall c, (tot order <= c)%nat -> H r c = 0).

Lemma perm_filter (order o : list pref) : NoDup (map fst order) -> NoDup (map fst o) -> incl o order ->
  Permutation (filter (fun e => match off_of o (fst e) with Some _ => true | None => false end) order) o.
Proof.
  intros N No I. apply NoDup_Permutation.
  - apply NoDup_filter. eapply NoDup_map_inv; eauto.
  - eapply NoDup_map_inv; eauto.
  - intros x. rewrite filter_In. split.
    + intros [Ix E]. destruct (off_of o (fst x)) eqn:Eo; [|discriminate].
      assert (In (fst x) (map fst o)).
      { destruct (in_dec Nat.eq_dec (fst x) (map fst o)); auto. apply off_of_none in n0. congruence. }
      apply in_map_iff in H. destruct H as (y & Ey & Iy).
      assert (y = x); [|subst; auto].
      assert (Iy' := I _ Iy). clear -N Ix Iy' Ey. induction order as [|z l IH]; simpl in *; [tauto|].
      inversion N; subst. destruct Ix as [->|Ix]; destruct Iy' as [->|Iy']; auto.
      * exfalso. apply H1. rewrite <- Ey. apply in_map; auto.
      * exfalso. apply H1. rewrite Ey. apply in_map; auto.
    + intros Ix. split; [apply I; auto|]. rewrite (off_of_in o); [reflexivity|]. apply in_map; auto.
Qed.

Lemma rowok_widen H r order o Hk i j : NoDup (map fst order) -> NoDup (map fst o) -> incl o order ->
  Forall has_id order -> rowok H r order o Hk i ->
  widen (indices (map snd order)) H r j = widen (indices (map snd o)) Hk i j.
Proof.
  intros N No I Hi [R1 _].
  assert (Ho : Forall has_id o).
  { apply Forall_forall. intros x Ix. rewrite Forall_forall in Hi. apply Hi, I, Ix. }
  rewrite !widen_wsum by auto. rewrite !wsum_sumL by auto. simpl.
  rewrite <- (sumL_perm _ _ _ (perm_filter order o N No I)). rewrite <- sumL_filter.
  apply sumL_ext. intros e Ie. specialize (R1 e Ie). unfold offd at 2.
  unfold blk. destruct (fst (snd e)) as [id|]; [|destruct (off_of o (fst e)); reflexivity].
  destruct (off_of o (fst e)) as [h|].
  - apply sumn_ext. intros b Hb. rewrite R1 by exact Hb. reflexivity.
  - apply sumn_zero. intros b Hb. rewrite R1 by exact Hb. ring.
Qed.

(** ** The stacking loops *)
Definition stk (s : stack) : Prop :=
  NoDup (map fst (sk_order s)) /\ (forall p, alook (sk_map s) p = off_of (sk_order s) p) /\
  sk_jac s = tot (sk_order s).
Fixpoint rowsok (H : mat) (order : list pref) (r0 : nat) (l : list sys) : Prop :=
  match l with
  | [] => True
  | y :: l' => (forall i, (i < dn (y_res y))%nat -> rowok H (r0 + i)%nat order (y_order y) (dm (y_H y)) i) /\
               incl (y_order y) order /\ rowsok H order (r0 + dn (y_res y)) l'
  end.
Lemma rowsok_mono H order H' order' m : (forall r o Hk i, (r < m)%nat -> incl o order -> rowok H r order o Hk i -> rowok H' r order' o Hk i) ->
  incl order order' ->
  forall l r0, (r0 + rows_of l <= m)%nat -> rowsok H order r0 l -> rowsok H' order' r0 l.
Proof.
  intros M I. induction l as [|y l IH]; simpl; intros r0 Hm; auto. intros (A & B & C). split; [|split].
  - intros i Hi. apply M; auto. lia.
  - intros x Hx. auto.
  - apply IH; auto. lia.
Qed.
Lemma rowsok_app H order l : forall r0 y, rowsok H order r0 l ->
  (forall i, (i < dn (y_res y))%nat -> rowok H (r0 + rows_of l + i)%nat order (y_order y) (dm (y_H y)) i) ->
  incl (y_order y) order -> rowsok H order r0 (l ++ [y]).
Proof.
  induction l as [|x l IH]; simpl; intros r0 y A B C.
  - split; [|split]; auto. intros i Hi. specialize (B i Hi). rewrite Nat.add_0_r in B. exact B.
  - destruct A as (A1 & A2 & A3). split; [|split]; auto. apply IH; auto. intros i Hi. specialize (B i Hi).
    rewrite <- Nat.add_assoc. rewrite Nat.add_assoc in B. rewrite <- !Nat.add_assoc in *. exact B.
Qed.
Lemma rows_of_app l y : rows_of (l ++ [y]) = (rows_of l + dn (y_res y))%nat.
Proof. induction l; simpl; lia. Qed.

(** growing the order keeps the rows right *)
Lemma rowok_grow H r order v o Hk i : NoDup (map fst (order ++ [v])) -> incl o order ->
  rowok H r order o Hk i -> rowok H r (order ++ [v]) o Hk i.
Proof.
  intros N I [A B]. rewrite map_app in N. simpl in N. apply NoDup_remove in N. rewrite app_nil_r in N. destruct N as [N Nv].
  split.
  - intros e Ie b Hb. unfold offd. rewrite off_of_app. apply in_app_or in Ie. destruct Ie as [Ie|[<-|[]]].
    + rewrite (off_of_in order) by (apply in_map; auto). apply A; auto.
    + assert (E : off_of order (fst v) = None) by (apply off_of_none; auto). rewrite E. rewrite Nat.eqb_refl.
      assert (E' : off_of o (fst v) = None).
      { apply off_of_none. intros C. apply Nv. apply in_map_iff in C. destruct C as (z & <- & Iz). apply in_map. auto. }
      rewrite E'. apply B. lia.
  - intros c Hc. apply B. rewrite tot_app in Hc. simpl in Hc. lia.
Qed.

Section Stack.
Variables (maxm maxh : nat) (good : pref -> Prop).
Hypothesis good_loc : forall a b, good a -> good b -> fst a = fst b -> a = b.
Hypothesis cap : forall o, NoDup (map fst o) -> Forall good o -> (tot o <= maxh)%nat.

Lemma ensure_ok s v : stk s -> Forall good (sk_order s) -> good v ->
  let s1 := ensure_var s v in
  stk s1 /\ Forall good (sk_order s1) /\ In v (sk_order s1) /\ incl (sk_order s) (sk_order s1) /\
  sk_H s1 = sk_H s /\ sk_res s1 = sk_res s /\ sk_R s1 = sk_R s /\ sk_meas s1 = sk_meas s /\
  incl (sk_order s1) (v :: sk_order s) /\
  (forall r o Hk i, incl o (sk_order s) -> rowok (sk_H s) r (sk_order s) o Hk i -> rowok (sk_H s) r (sk_order s1) o Hk i).
Proof.
  intros (N & M & J) G Gv. unfold ensure_var. rewrite M. destruct (off_of (sk_order s) (fst v)) as [c|] eqn:E; simpl.
  - assert (I : In v (sk_order s)).
    { assert (In (fst v) (map fst (sk_order s))).
      { destruct (in_dec Nat.eq_dec (fst v) (map fst (sk_order s))) as [I|I]; auto. apply off_of_none in I. congruence. }
      apply in_map_iff in H. destruct H as (z & Ez & Iz). rewrite Forall_forall in G.
      rewrite <- (good_loc z v (G _ Iz) Gv Ez). exact Iz. }
    split; [split; auto|]. split; [auto|]. split; [auto|]. split; [apply incl_refl|].
    repeat (split; [reflexivity|]). split; [apply incl_tl, incl_refl|]. auto.
  - apply off_of_none in E.
    assert (N' : NoDup (map fst (sk_order s ++ [v]))).
    { rewrite map_app. simpl. apply NoDup_snoc; auto. }
    split.
    { split; [exact N'|]. simpl. split.
      - intros p. rewrite alook_aset. rewrite off_of_app. destruct (Nat.eqb_spec p (fst v)) as [->|Np].
        + destruct (off_of (sk_order s) (fst v)) eqn:E2; [|rewrite J; reflexivity].
          exfalso. apply off_of_none in E. congruence.
        + rewrite M. destruct (off_of (sk_order s) p); reflexivity.
      - rewrite tot_app. simpl. rewrite J. unfold psz. lia. }
    split; [apply Forall_app; auto|]. split; [apply in_or_app; simpl; auto|].
    split; [intros z Hz; apply in_or_app; auto|]. repeat (split; [reflexivity|]).
    split.
    { intros z Hz. apply in_app_or in Hz. simpl in *. tauto. }
    intros. apply rowok_grow; auto.
Qed.

Lemma stack_vars_ok (Hx : dmat) (o : list pref) : NoDup (map fst o) -> Forall good o -> dc Hx = tot o ->
  forall suf pre s, o = pre ++ suf -> stk s -> Forall good (sk_order s) -> incl pre (sk_order s) ->
  (sk_meas s + dr Hx <= maxm)%nat ->
  (forall i, (i < dr Hx)%nat -> rowok (sk_H s) (sk_meas s + i)%nat (sk_order s) pre (dm Hx) i) ->
  (forall r c, (sk_meas s + dr Hx <= r)%nat -> sk_H s r c = 0) ->
  exists s', stack_vars maxm maxh Hx suf (tot pre) s = Ok s' /\
    stk s' /\ Forall good (sk_order s') /\ incl o (sk_order s') /\ incl (sk_order s) (sk_order s') /\
    incl (sk_order s') (sk_order s ++ suf) /\
    sk_meas s' = sk_meas s /\ sk_res s' = sk_res s /\ sk_R s' = sk_R s /\
    (forall i, (i < dr Hx)%nat -> rowok (sk_H s') (sk_meas s + i)%nat (sk_order s') o (dm Hx) i) /\
    (forall r c, (sk_meas s + dr Hx <= r)%nat -> sk_H s' r c = 0) /\
    (forall r o' Hk i, (r < sk_meas s)%nat -> incl o' (sk_order s) -> rowok (sk_H s) r (sk_order s) o' Hk i ->
       rowok (sk_H s') r (sk_order s') o' Hk i).
Proof.
  intros No Go Dc. induction suf as [|v suf IH]; intros pre s Eo St Gs Ip Hm Rw Rz.
  - simpl. rewrite app_nil_r in Eo. subst o. exists s. rewrite app_nil_r.
    repeat match goal with |- _ /\ _ => split end; auto using incl_refl.
  - assert (Gv : good v) by (rewrite Forall_forall in Go; apply Go; rewrite Eo; apply in_or_app; simpl; auto).
    assert (Nv : ~ In (fst v) (map fst pre)).
    { rewrite Eo, map_app in No. simpl in No. apply NoDup_remove_2 in No. intros C. apply No. apply in_or_app; auto. }
    destruct (ensure_ok s v St Gs Gv) as (St1 & Gs1 & Iv & Inc & EH & Er & ER & Em & Inc2 & Gr).
    simpl. set (s1 := ensure_var s v) in *. destruct St1 as (N1 & M1 & J1). rewrite M1.
    rewrite (off_of_in (sk_order s1)) by (apply in_map; auto).
    set (c := offd (sk_order s1) (fst v)).
    assert (Cb : (c + psz v <= tot (sk_order s1))%nat) by (apply off_bound; auto).
    assert (Ct : (tot (sk_order s1) <= maxh)%nat) by (apply cap; auto).
    assert (Cp : (tot pre + psz v <= dc Hx)%nat).
    { rewrite Dc, Eo, tot_app. simpl. lia. }
    assert (Eg : ((sk_meas s1 + dr Hx <=? maxm) && (c + snd (snd v) <=? maxh) && (tot pre + snd (snd v) <=? dc Hx))%nat%bool = true).
    { unfold psz in *. rewrite Em. rewrite !andb_true_iff, !Nat.leb_le. lia. }
    rewrite Eg. cbn [guard]. rewrite EH, Em.
    set (s2 := mkStack (sk_map s1) (sk_order s1)
       (set_block (sk_H s) (sk_meas s) c (dr Hx) (snd (snd v)) (fun i j => dm Hx i (tot pre + j)%nat))
       (sk_res s1) (sk_R s1) (sk_jac s1) (sk_meas s)).
    assert (Et : (tot pre + snd (snd v))%nat = tot (pre ++ [v])) by (rewrite tot_app; simpl; unfold psz; lia).
    rewrite Et.
    destruct (IH (pre ++ [v]) s2) as (s' & E' & A1 & A2 & A3 & A4 & A5 & A6 & A7 & A8 & A9 & A10 & A11).
    + rewrite Eo, <- app_assoc. reflexivity.
    + split; [|split]; auto.
    + auto.
    + intros z Hz. apply in_app_or in Hz. simpl. destruct Hz as [Hz|[<-|[]]]; auto.
    + simpl. auto.
    + simpl. intros i Hi. specialize (Rw i Hi). apply Gr in Rw; auto. destruct Rw as [B1 B2]. split.
      * intros e Ie b Hb. rewrite off_of_app. destruct (Nat.eq_dec (fst e) (fst v)) as [Ev|Ev].
        -- assert (e = v) by (apply good_loc; auto; rewrite Forall_forall in Gs1; auto). subst e.
           assert (En : off_of pre (fst v) = None) by (apply off_of_none; auto). rewrite En, Nat.eqb_refl.
           fold c. rewrite set_block_in by (unfold psz in *; lia). f_equal; lia.
        -- rewrite set_block_out.
           ++ rewrite B1 by auto. destruct (off_of pre (fst e)); auto.
              destruct (Nat.eqb_spec (fst e) (fst v)); [congruence|reflexivity].
           ++ assert (Dj := off_disjoint (sk_order s1) e v N1 Ie Iv Ev). fold c in Dj. unfold psz in *. lia.
      * intros k Hk. rewrite set_block_out by (unfold psz in *; lia). apply B2; auto.
    + simpl. intros r k Hr. rewrite set_block_out by lia. apply Rz; auto.
    + exists s'. simpl in *. split; [exact E'|]. split; [exact A1|]. split; [exact A2|]. split; [exact A3|].
      split; [eapply incl_tran; eauto|].
      split.
      { intros z Hz. apply A5 in Hz. apply in_app_or in Hz. destruct Hz as [Hz|Hz].
        - apply Inc2 in Hz. simpl in Hz. destruct Hz as [<-|Hz]; apply in_or_app; simpl; auto.
        - apply in_or_app; simpl; auto. }
      split; [auto|]. split; [congruence|]. split; [congruence|]. split; [auto|]. split; [auto|].
      intros r o' Hk i Hr Io Hrow. apply A11; auto.
      { eapply incl_tran; eauto. }
      apply Gr in Hrow; auto. destruct Hrow as [B1 B2]. split.
      * intros e Ie b Hb. rewrite set_block_out by lia. auto.
      * intros k Hk2. rewrite set_block_out by lia. auto.
Qed.

(** every system is well formed *)
Definition sys_good (y : sys) : Prop :=
  NoDup (map fst (y_order y)) /\ Forall good (y_order y) /\ dc (y_H y) = tot (y_order y) /\ dr (y_H y) = dn (y_res y).

(** what the stack holds after the systems [l] *)
Definition holds (s : stack) (l : list sys) : Prop :=
  stk s /\ Forall good (sk_order s) /\ sk_meas s = rows_of l /\
  rowsok (sk_H s) (sk_order s) 0 l /\ (forall r c, (sk_meas s <= r)%nat -> sk_H s r c = 0) /\
  (forall e, In e (sk_order s) -> exists y, In y l /\ In e (y_order y)).
Fixpoint resok (res : vec) (N : mat) (r0 : nat) (l : list sys) : Prop :=
  match l with
  | [] => True
  | y :: l' => (forall i, (i < dn (y_res y))%nat -> res (r0 + i)%nat = dv (y_res y) i /\ N (r0 + i)%nat (r0 + i)%nat = y_sig y) /\
               resok res N (r0 + dn (y_res y)) l'
  end.
Definition holds_res (s : stack) (l : list sys) : Prop :=
  resok (sk_res s) (sk_R s) 0 l /\ diagonal (sk_R s) /\ (forall r, (rows_of l <= r)%nat -> sk_R s r r = 1).

Lemma resok_ext l : forall r0 x N x' N', (forall i, (i < r0 + rows_of l)%nat -> x i = x' i /\ N i i = N' i i) ->
  resok x N r0 l -> resok x' N' r0 l.
Proof.
  induction l as [|y l IH]; simpl; auto. intros r0 x N x' N' E [A B]. split.
  - intros i Hi. destruct (E (r0 + i)%nat) as [<- <-]; [lia|]. auto.
  - apply (IH _ x N); auto. intros i Hi. apply E. lia.
Qed.
Lemma resok_app x N l : forall r0 y, resok x N r0 l ->
  (forall i, (i < dn (y_res y))%nat -> x (r0 + rows_of l + i)%nat = dv (y_res y) i /\ N (r0 + rows_of l + i)%nat (r0 + rows_of l + i)%nat = y_sig y) ->
  resok x N r0 (l ++ [y]).
Proof.
  induction l as [|z l IH]; simpl; intros r0 y A B.
  - split; auto. intros i Hi. specialize (B i Hi). rewrite Nat.add_0_r in B. exact B.
  - destruct A as [A1 A2]. split; auto. apply IH; auto. intros i Hi. specialize (B i Hi).
    replace (r0 + dn (y_res z) + rows_of l + i)%nat with (r0 + (dn (y_res z) + rows_of l) + i)%nat by lia. exact B.
Qed.

Lemma stack_feature_ok y l s : sys_good y -> holds s l -> holds_res s l -> (sk_meas s + dn (y_res y) <= maxm)%nat ->
  exists s', stack_feature maxm maxh (y_sig y) (y_H y) (y_res y) (y_order y) s = Ok s' /\
    holds s' (l ++ [y]) /\ holds_res s' (l ++ [y]).
Proof.
  intros (No & Go & Dc & Dr) (St & Gs & Em & Rw & Rz & Pv) (Q1 & Q2 & Q3) Hm.
  assert (Z : forall i, (i < dr (y_H y))%nat -> rowok (sk_H s) (sk_meas s + i)%nat (sk_order s) [] (dm (y_H y)) i).
  { intros i Hi. split; intros; simpl; apply Rz; lia. }
  destruct (stack_vars_ok (y_H y) (y_order y) No Go Dc (y_order y) [] s eq_refl St Gs)
    as (s' & E & A1 & A2 & A3 & A4 & A5 & A6 & A7 & A8 & A9 & A10 & A11); auto.
  { intros z []. } { rewrite Dr. auto. } { intros r c Hr. apply Rz. lia. }
  unfold stack_feature. simpl in E. rewrite E. simpl. rewrite A6.
  destruct (Nat.leb_spec (sk_meas s + dn (y_res y)) maxm); [|lia]. cbn [guard].
  eexists. split; [reflexivity|]. split.
  - split; [|split; [|split; [|split; [|split]]]]; simpl; auto.
    + rewrite rows_of_app. lia.
    + apply rowsok_app; simpl; auto.
      * eapply rowsok_mono with (m := sk_meas s) (order := sk_order s); eauto. lia.
      * intros i Hi. rewrite <- Em. apply A9. lia.
    + intros r c Hr. apply A10. lia.
    + intros e Ie. apply A5 in Ie. apply in_app_or in Ie. destruct Ie as [Ie|Ie].
      * destruct (Pv e Ie) as (z & Iz & Iez). exists z. split; auto. apply in_or_app; auto.
      * exists y. split; auto. apply in_or_app; simpl; auto.
  - split; [|split]; simpl; rewrite ?A7, ?A8.
    + apply resok_app; simpl.
      * eapply resok_ext; [|exact Q1]. intros i Hi. simpl in Hi. unfold set_seg, set_block.
        destruct (Nat.leb_spec (sk_meas s) i); [lia|]. simpl. auto.
      * intros i Hi. unfold set_seg, set_block. rewrite <- Em.
        destruct (Nat.leb_spec (sk_meas s) (sk_meas s + i)); [|lia].
        destruct (Nat.ltb_spec (sk_meas s + i) (sk_meas s + dn (y_res y))); [|lia]. simpl.
        replace (sk_meas s + i - sk_meas s)%nat with i by lia. split; auto. rewrite Q3 by lia. ring.
    + intros a b Hab. unfold set_block.
      destruct ((_ && _ && _ && _)%nat%bool) eqn:Eb.
      * rewrite !andb_true_iff, !Nat.leb_le, !Nat.ltb_lt in Eb. rewrite Q2 by lia. ring.
      * apply Q2; auto.
    + intros r Hr. rewrite rows_of_app in Hr. rewrite set_block_out by lia. apply Q3. lia.
Qed.

Definition stack_all (l : list sys) (s : stack) : outcome stack :=
  ofold (fun s y => stack_feature maxm maxh (y_sig y) (y_H y) (y_res y) (y_order y) s) l s.
Lemma stack_all_ok l : forall done s, Forall sys_good l -> holds s done -> holds_res s done ->
  (sk_meas s + rows_of l <= maxm)%nat ->
  exists s', stack_all l s = Ok s' /\ holds s' (done ++ l) /\ holds_res s' (done ++ l).
Proof.
  induction l as [|y l IH]; intros done s F Hs Hr Hm.
  - exists s. rewrite app_nil_r. auto.
  - inversion F; subst. simpl in Hm.
    destruct (stack_feature_ok y done s) as (s1 & E1 & B1 & B2); auto. lia.
    destruct (IH (done ++ [y]) s1) as (s2 & E2 & C1 & C2); auto.
    { destruct B1 as (_ & _ & E & _). destruct Hs as (_ & _ & E' & _). rewrite E, rows_of_app. lia. }
    exists s2. unfold stack_all. simpl. rewrite E1. simpl. rewrite <- app_assoc in *. auto.
Qed.
Lemma holds0 : holds stack0 [] /\ holds_res stack0 [].
Proof.
  split; (split; [|split]); simpl; auto.
  - split; [constructor|]. split; auto.
  - repeat split; auto. intros e [].
  - intros a b Hab. unfold mid. destruct (Nat.eqb_spec a b); congruence.
  - intros r _. unfold mid. rewrite Nat.eqb_refl. reflexivity.
Qed.

Lemma holds_stacked s l : Forall sys_good l -> (forall e, good e -> has_id e) -> holds s l -> holds_res s l ->
  forall r0, rowsok (sk_H s) (sk_order s) r0 l -> resok (sk_res s) (sk_R s) r0 l ->
  stacked r0 l (map snd (sk_order s)) (sk_H s) (sk_res s) (sk_R s).
Proof.
  intros F Hid (St & Gs & _) _. induction l as [|y l IH]; simpl; auto. intros r0 (A & B & C) (D & E).
  inversion F; subst. split.
  - intros i Hi. split; [|apply D; auto]. intros j. destruct St as (N & _). destruct H1 as (No & _).
    apply rowok_widen; auto. apply Forall_forall. intros e Ie. apply Hid. rewrite Forall_forall in Gs. auto.
  - apply IH; auto.
Qed.
End Stack.
