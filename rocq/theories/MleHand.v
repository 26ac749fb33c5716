(** C93: what the dynamic initializer hands over. *)
From Coq Require Import Reals List Arith ZArith Bool Sorted Lia Lra.
From Verif Require Import RBool Outcome GeoModel GeoSpec Lin TypesModel DbModel InitModel StateModel StateSpec PropModel CamModel HelpModel CpiModel CeresModel DynModel MleModel MleSpec MleBuild.
Import ListNotations.
Open Scope R_scope.

Lemma cov_sym o B : sym 15 (cov_out o B).
Proof. intros i j _ _. unfold cov_out. cbv zeta. generalize (scale3 (scale3 (scale3 (scale3 (cov_blocks B) 0 (mo_inf_ori o)) 6 (mo_inf_vel o)) 9 (mo_inf_bg o)) 12 (mo_inf_ba o)). intros C. unfold mscal, madd, mtr. ring. Qed.
Lemma cases15 (P : nat -> Prop) : (forall a i, (a < 5)%nat -> (i < 3)%nat -> P (3 * a + i)%nat) -> forall k, (k < 15)%nat -> P k.
Proof. intros H k Hk. rewrite (Nat.div_mod k 3) by lia. apply H; [apply Nat.div_lt_upper_bound; lia|apply Nat.mod_upper_bound; lia]. Qed.
Lemma blocks_at B a b k l : (a < 5)%nat -> (b < 5)%nat -> (k < 3)%nat -> (l < 3)%nat ->
  cov_blocks B (3 * a + k)%nat (3 * b + l)%nat = if (a <=? b)%nat then m3mat (B a b) k l else m3mat (B b a) l k.
Proof.
  intros Ha Hb Hk Hl.
  destruct a as [|[|[|[|[|a]]]]]; try lia; destruct b as [|[|[|[|[|b]]]]]; try lia; destruct k as [|[|[|k]]]; try lia; destruct l as [|[|[|l]]]; try lia; reflexivity.
Qed.
Lemma scale_at C c s a b k l : (k < 3)%nat -> (l < 3)%nat ->
  scale3 C (3 * c) s (3 * a + k)%nat (3 * b + l)%nat = (if (Nat.eqb a c && Nat.eqb b c)%bool then s else 1) * C (3 * a + k)%nat (3 * b + l)%nat.
Proof.
  intros Hk Hl. unfold scale3, set_block.
  assert (Q : forall a k, (k < 3)%nat -> ((3 * c <=? 3 * a + k)%nat && (3 * a + k <? 3 * c + 3)%nat)%bool = Nat.eqb a c).
  { intros a0 k0 H. destruct (Nat.leb_spec (3 * c) (3 * a0 + k0)), (Nat.ltb_spec (3 * a0 + k0) (3 * c + 3)), (Nat.eqb_spec a0 c); cbn [andb]; auto; lia. }
  rewrite Q by exact Hk. rewrite <- andb_assoc, Q by exact Hl. destruct (Nat.eqb_spec a c) as [->|N]; cbn [andb]; [|ring]. destruct (Nat.eqb_spec b c) as [->|N]; [|ring].
  replace (3 * c + (3 * c + k - 3 * c))%nat with (3 * c + k)%nat by lia. replace (3 * c + (3 * c + l - 3 * c))%nat with (3 * c + l)%nat by lia. reflexivity.
Qed.
Lemma div3 a k : (k < 3)%nat -> ((3 * a + k) / 3 = a)%nat.
Proof. intros H. rewrite Nat.mul_comm, Nat.div_add_l by lia. rewrite Nat.div_small by exact H. lia. Qed.
(** C93 *)
Lemma cov_entries o B C : sym 15 C -> blocks_of C B -> meq 15 15 (cov_out o B) (inflated o C).
Proof.
  intros Hs Hb i j Hi Hj. revert i Hi. apply cases15. intros a k Ha Hk. revert j Hj. apply cases15. intros b l Hlb Hl.
  set (i := (3 * a + k)%nat). set (j := (3 * b + l)%nat). unfold inflated, i, j. rewrite !div3 by assumption. unfold cov_out. cbv zeta. unfold mscal, madd, mtr.
change (scale3 (scale3 (scale3 (scale3 (cov_blocks B) 0 (mo_inf_ori o)) 6 (mo_inf_vel o)) 9 (mo_inf_bg o)) 12 (mo_inf_ba o)) with (scale3 (scale3 (scale3 (scale3 (cov_blocks B) (3 * 0) (mo_inf_ori o)) (3 * 2) (mo_inf_vel o)) (3 * 3) (mo_inf_bg o)) (3 * 4) (mo_inf_ba o)).
  rewrite !scale_at, !blocks_at by assumption.
  assert (E : (if (a <=? b)%nat then m3mat (B a b) k l else m3mat (B b a) l k) = C i j).
  { destruct (Nat.leb_spec a b) as [L|L]; [apply Hb; assumption|]. rewrite (Hb b a l k) by assumption. apply Hs; unfold i, j; lia. }
  assert (E' : (if (b <=? a)%nat then m3mat (B b a) l k else m3mat (B a b) k l) = C i j).
  { destruct (Nat.leb_spec b a) as [L|L]; [|apply Hb; assumption]. rewrite (Hb b a l k) by assumption. apply Hs; unfold i, j; lia. }
  rewrite E, E'. unfold i, j. clear - Ha Hlb. generalize (C (3 * a + k)%nat (3 * b + l)%nat). intros c.
  destruct a as [|[|[|[|[|a]]]]]; try lia; destruct b as [|[|[|[|[|b]]]]]; try lia; cbn [Nat.eqb andb inflation]; field.
Qed.
Definition only (x : vec) (a : nat) : vec := fun i => if Nat.eqb (i / 3) a then x i else 0.
Lemma quad_only C x a : quad 15 (fun i j => if (Nat.eqb (i / 3) a && Nat.eqb (j / 3) a)%bool then C i j else 0) x = quad 15 C (only x a).
Proof. unfold quad, only. apply sumn_ext. intros i _. apply sumn_ext. intros j _. destruct (Nat.eqb (i / 3) a), (Nat.eqb (j / 3) a); cbn [andb]; ring. Qed.
Lemma quad_mscal n c A x : quad n (mscal c A) x = c * quad n A x.
Proof. unfold quad, mscal. rewrite <- sumn_scal. apply sumn_ext. intros i _. rewrite <- sumn_scal. apply sumn_ext. intros j _. ring. Qed.
Lemma inflated_psd o C : spsd 15 C -> (forall a, 1 <= inflation o a) -> spsd 15 (inflated o C).
Proof.
  intros (Hs & Hp) Hi. split.
  - intros i j Hi' Hj. unfold inflated, mtr. rewrite (Hs i j Hi' Hj). unfold mtr. rewrite (Nat.eqb_sym (j / 3)). destruct (Nat.eqb_spec (i / 3) (j / 3)) as [->|N]; ring.
  - intros x. set (D := fun a => fun i j => if (Nat.eqb (i / 3) a && Nat.eqb (j / 3) a)%bool then C i j else 0).
    rewrite (quad_ext 15 _ (madd C (madd (mscal (inflation o 0 - 1) (D 0%nat)) (madd (mscal (inflation o 2 - 1) (D 2%nat)) (madd (mscal (inflation o 3 - 1) (D 3%nat)) (mscal (inflation o 4 - 1) (D 4%nat))))))).
    + rewrite !quad_add, !quad_mscal. unfold D. rewrite !quad_only.
      pose proof (Hp x). pose proof (Hp (only x 0)). pose proof (Hp (only x 2)). pose proof (Hp (only x 3)). pose proof (Hp (only x 4)). pose proof (Hi 0%nat). pose proof (Hi 2%nat). pose proof (Hi 3%nat). pose proof (Hi 4%nat).
      assert (G : forall k q, 1 <= k -> 0 <= q -> 0 <= (k - 1) * q) by (intros; apply Rmult_le_pos; lra).
      pose proof (G _ _ H4 H0). pose proof (G _ _ H5 H1). pose proof (G _ _ H6 H2). pose proof (G _ _ H7 H3). lra.
    + intros i j Hi' Hj. unfold inflated, madd, mscal, D. clear - Hi' Hj.
      assert (A : (i / 3 < 5)%nat) by (apply Nat.div_lt_upper_bound; lia). assert (B : (j / 3 < 5)%nat) by (apply Nat.div_lt_upper_bound; lia). generalize dependent (i / 3)%nat. generalize dependent (j / 3)%nat. intros b Hb a Ha.
      destruct a as [|[|[|[|[|a]]]]]; try lia; destruct b as [|[|[|[|[|b]]]]]; try lia; cbn [Nat.eqb andb inflation]; ring.
Qed.
Lemma spsd_ext n A B : meq n n A B -> spsd n A -> spsd n B.
Proof.
  intros E (S & P). split; [intros i j Hi Hj; unfold mtr; rewrite <- (E i j), <- (E j i) by assumption; apply S; assumption|]. intros x. rewrite <- (quad_ext n A B x E). apply P.
Qed.
Lemma cov_psd o B C : spsd 15 C -> blocks_of C B -> (forall a, 1 <= inflation o a) -> spsd 15 (cov_out o B).
Proof. intros H Hb Hi. apply spsd_ext with (inflated o C); [|apply inflated_psd; assumption]. apply meq_sym, cov_entries; [apply H|exact Hb]. Qed.
(** with a factor below one the result can be indefinite *)
Definition exh_C : mat := fun i j => if ((Nat.eqb i 0 || Nat.eqb i 3) && (Nat.eqb j 0 || Nat.eqb j 3))%bool then 1 else 0.
Definition exh_B (a b : nat) : m3 := let c (i j : nat) := exh_C (3 * a + i)%nat (3 * b + j)%nat in M3 (c 0%nat 0%nat) (c 0%nat 1%nat) (c 0%nat 2%nat) (c 1%nat 0%nat) (c 1%nat 1%nat) (c 1%nat 2%nat) (c 2%nat 0%nat) (c 2%nat 1%nat) (c 2%nat 2%nat).
Lemma exh_blocks : blocks_of exh_C exh_B.
Proof. intros a b i j _ _ Hi Hj. unfold exh_B. cbv zeta. destruct i as [|[|[|i]]]; try lia; destruct j as [|[|[|j]]]; try lia; reflexivity. Qed.
Lemma exh_spsd : spsd 15 exh_C.
Proof.
  split; [intros i j _ _; unfold mtr, exh_C; rewrite andb_comm; reflexivity|]. intros x. replace (quad 15 exh_C x) with ((x 0%nat + x 3%nat) * (x 0%nat + x 3%nat)); [apply Rle_0_sqr|].
  unfold quad, exh_C. cbn [sumn Nat.eqb orb andb]. ring.
Qed.
Lemma shrink_refuted : exists o B C, spsd 15 C /\ blocks_of C B /\ (forall a, 0 < inflation o a) /\ ~ psd 15 (cov_out o B).
Proof.
  set (y := mkYO 2 8 2 0 v3zero v3zero (981 / 100) 0 [] mzero).
  set (o := mkMO y [] 1 false false (1 / 10) 1 1 1). exists o, exh_B, exh_C. split; [apply exh_spsd|]. split; [apply exh_blocks|]. split.
  - intros [|[|[|[|[|a]]]]]; cbn; lra.
  - intros H. set (x := fun i : nat => if Nat.eqb i 0 then 1 else if Nat.eqb i 3 then - 1 / 10 else 0). specialize (H x).
    rewrite (quad_ext 15 _ _ x (cov_entries o exh_B exh_C (proj1 exh_spsd) exh_blocks)) in H.
    assert (E : quad 15 (inflated o exh_C) x = - 9 / 100).
    { unfold quad, inflated, exh_C, x. cbn [sumn Nat.eqb orb andb Nat.div Nat.divmod fst Nat.sub inflation]. cbn [o mo_inf_ori mo_inf_vel mo_inf_bg mo_inf_ba]. field. }
    rewrite E in H. lra.
Qed.
(** what is returned and left behind *)
Lemma finish_spec o pr tn A conv cov old r h : finish o pr tn A conv cov old = Ok (r, h) ->
  (r = None /\ h = old /\ mo_no_iter o = false /\ conv = false) \/
  exists i x, nth_error (pr_times pr) i = Some tn /\ nth_error (as_x A) i = Some x /\ hd_clones h = combine (pr_times pr) (map (fun y => (cl_q y, cl_p y)) (as_x A)) /\ hd_feats h = combine (pr_fids pr) (as_f A) /\
    ((r = None /\ cov i = None /\ hd_imu h = x) \/
     exists B, cov i = Some B /\ r = Some (cov_out o B) /\ cl_q (hd_imu h) = cl_q x /\ cl_bg (hd_imu h) = cl_bg x /\ cl_v (hd_imu h) = cl_v x /\ cl_ba (hd_imu h) = cl_ba x /\ cl_p (hd_imu h) = v3zero).
Proof.
  unfold finish. destruct (negb (mo_no_iter o) && negb conv)%bool eqn:Q.
  - intros E. injection E as <- <-. left. apply andb_prop in Q. destruct Q as (Q1 & Q2). destruct (mo_no_iter o), conv; try discriminate. auto.
  - intros E. apply obind_ok in E. destruct E as (i & Ei & E). right. destruct (nth_error (as_x A) i) as [x|] eqn:Ex; [|discriminate].
    assert (Hi : nth_error (pr_times pr) i = Some tn).
    { clear - Ei. revert i Ei. induction (pr_times pr) as [|t l IH]; intros i Ei; cbn [index] in Ei; [discriminate|]. destruct (Reqb_spec tn t) as [->|N]; [injection Ei as <-; reflexivity|].
      apply obind_ok in Ei. destruct Ei as (n & En & Ei). injection Ei as <-. apply (IH n En). }
    exists i, x. split; [exact Hi|]. split; [exact Ex|]. destruct (cov i) as [B|] eqn:Ec; injection E as <- <-; cbn [hd_imu hd_clones hd_feats cl_q cl_bg cl_v cl_ba cl_p]; split; auto; split; auto. right. exists B. auto 8.
Qed.
(** it always returns when there is a value for every state *)
Lemma finish_total o pr tn A conv cov old : In tn (pr_times pr) -> length (as_x A) = length (pr_times pr) -> exists r h, finish o pr tn A conv cov old = Ok (r, h).
Proof.
  intros It Ln. unfold finish. destruct (_ && _)%bool; [eauto|]. destruct (index_in Reqb Reqb_iff (pr_times pr) tn It) as (i & -> & Hi). cbn [obind].
  destruct (nth_error (as_x A) i) as [x|] eqn:E; [|apply nth_error_None in E; assert (i < length (pr_times pr))%nat by (apply nth_error_Some; congruence); lia]. destruct (cov i); eauto.
Qed.
Definition exh_old : handed := mkHd (mkCl (Q4 0 0 0 1) v3zero v3zero v3zero v3zero) [] [].
Definition exh_o : mopts := mkMO (mkYO 2 8 2 0 v3zero v3zero (981 / 100) 0 [] mzero) [] 1 false false 10 10 100 100.
Lemma reqb_refl x : Reqb x x = true. Proof. apply Reqb_iff. reflexivity. Qed.
Lemma defaults_inflate : forall a, 1 <= inflation exh_o a.
Proof. intros [|[|[|[|[|a]]]]]; cbn; lra. Qed.
