(** Proofs for C78. *)
From Coq Require Import Reals List Arith Lia Lra ZArith Bool.
From Verif Require Import RBool Outcome Lin GeoModel TypesModel GivensModel StateModel ReachModel ReachSpec DbModel DbSpec DbProofs TrackModel UpdModel UpdSpec UpdProofs2 UpdProofs4 TagSpec.
Import ListNotations.
Open Scope R_scope.

Lemma init_system_eqs sgl l Hx Hf res : init_system sgl l = Ok (Hx, Hf, res) -> init_eqs sgl l Hx Hf res.
Proof.
  unfold init_system, init_eqs. destruct sgl; intros E.
  - apply guard_ok in E; [|discriminate]. destruct E as [_ E]. apply obind_ok in E. destruct E as ([[F X] r] & E1 & E2). cbv beta iota in E2. injection E2 as <- <- <-. exists F, X. split; [exact E1|split; reflexivity].
  - cbv beta iota in E. injection E as <- <- <-. split; [reflexivity|split; reflexivity].
Qed.

Lemma loop_run chi2q so single lm_val jac (trk : nat -> feature -> Prop) ids : forall st d st' d' kept, NoDup ids ->
  (forall id f, In id ids -> alook d id = Some f -> trk id f) ->
  delayed_loop chi2q so single lm_val jac st ids d = Ok (st', d', kept) ->
  init_run chi2q so single lm_val jac trk st ids st' kept.
Proof.
  induction ids as [|id ids IH]; intros st d st' d' kept N Tr E.
  - cbn in E. inversion E; subst. constructor.
  - cbn [delayed_loop] in E. destruct (alook d id) as [f|] eqn:Ef; [|discriminate].
    apply obind_ok in E. destruct E as (l & El & E). apply obind_ok in E. destruct E as ([[Hx Hf] res] & Es & E).
    apply obind_ok in E. destruct E as ([ok st2] & Ei & E). apply NoDup_cons_iff in N. destruct N as [Ni N].
    assert (Tr' : forall g k h, In k ids -> alook (aset d id g) k = Some h -> trk k h).
    { intros g k h Hk Hh. rewrite alook_aset in Hh. destruct (Nat.eqb_spec k id); [subst; contradiction|]. apply Tr; simpl; auto. }
    destruct ok.
    + apply obind_ok in E. destruct E as ([[st3 d3] kp] & E1 & E2). inversion E2; subst.
      exact (ir_step chi2q so single lm_val jac trk st id ids f l Hx Hf res _ _ true st2 st' kp (Tr id f (or_introl eq_refl) Ef) El
               (init_system_eqs _ _ _ _ _ Es) (so_noise so st id) Ei (IH _ _ _ _ _ N (Tr' _) E1)).
    + exact (ir_step chi2q so single lm_val jac trk st id ids f l Hx Hf res _ _ false st2 st' kept (Tr id f (or_introl eq_refl) Ef) El
               (init_system_eqs _ _ _ _ _ Es) (so_noise so st id) Ei (IH _ _ _ _ _ N (Tr' _) E)).
Qed.

Lemma clean_sub times ids : forall d i1 d1, NoDup ids -> clean_step times ids d = Ok (i1, d1) -> exists p, i1 = filter p ids.
Proof.
  induction ids as [|id ids IH]; intros d i1 d1 N E; cbn [clean_step] in E.
  - inversion E; subst. exists (fun _ => true). reflexivity.
  - apply NoDup_cons_iff in N. destruct N as [Ni N]. destruct (alook d id) as [f|]; [|discriminate]. apply obind_ok in E. destruct E as (f' & _ & E).
    destruct (count_meas f' <? 2)%nat.
    + destruct (IH _ _ _ N E) as (p & ->). exists (fun k => negb (Nat.eqb k id) && p k). cbn [filter]. rewrite Nat.eqb_refl. cbn [negb andb].
      apply filter_ext_in. intros k Hk. destruct (Nat.eqb_spec k id); [subst; contradiction|reflexivity].
    + apply obind_ok in E. destruct E as ([a b] & E1 & E2). destruct (IH _ _ _ N E1) as (p & Hp). inversion E2; subst.
      exists (fun k => Nat.eqb k id || p k). cbn [filter fst]. rewrite Nat.eqb_refl. cbn [orb]. f_equal.
      apply filter_ext_in. intros k Hk. destruct (Nat.eqb_spec k id); [subst; contradiction|reflexivity].
Qed.
Lemma tri_sub tri ids : forall d i1 d1, NoDup ids -> UpdModel.tri_step tri ids d = Ok (i1, d1) -> exists p, i1 = filter p ids.
Proof.
  induction ids as [|id ids IH]; intros d i1 d1 N E; cbn [UpdModel.tri_step] in E.
  - inversion E; subst. exists (fun _ => true). reflexivity.
  - apply NoDup_cons_iff in N. destruct N as [Ni N]. destruct (alook d id) as [f|]; [|discriminate].
    destruct (snd (tri f)).
    + apply obind_ok in E. destruct E as ([a b] & E1 & E2). destruct (IH _ _ _ N E1) as (p & Hp). inversion E2; subst.
      exists (fun k => Nat.eqb k id || p k). cbn [filter fst]. rewrite Nat.eqb_refl. cbn [orb]. f_equal.
      apply filter_ext_in. intros k Hk. destruct (Nat.eqb_spec k id); [subst; contradiction|reflexivity].
    + destruct (IH _ _ _ N E) as (p & ->). exists (fun k => negb (Nat.eqb k id) && p k). cbn [filter]. rewrite Nat.eqb_refl. cbn [negb andb].
      apply filter_ext_in. intros k Hk. destruct (Nat.eqb_spec k id); [subst; contradiction|reflexivity].
Qed.
Lemma filter_twice {A} (p q : A -> bool) l : filter q (filter p l) = filter (fun x => p x && q x) l.
Proof. induction l as [|a l IH]; cbn; auto. destruct (p a); cbn; rewrite IH; auto. Qed.

Lemma delayed_run chi2q so single lm_val tri jac st d ids st' d' kept : db_ok d -> handed d ids ->
  delayed_init chi2q so single lm_val tri jac st d ids = Ok (st', d', kept) ->
  exists p, (forall id f, In id ids -> alook d id = Some f -> (p id = true <-> exists g, prepared st tri f g)) /\
    init_run chi2q so single lm_val jac (fun id g => exists f, alook d id = Some f /\ prepared st tri f g) st (filter p ids) st' kept.
Proof.
  intros Dk [Nd Hd] E. destruct ids as [|id0 ids0] eqn:Eids.
  { cbn in E. inversion E; subst. exists (fun _ => true). split; [intros ? ? []|]. constructor. }
  rewrite <- Eids in *. unfold delayed_init in E. rewrite Eids in E. rewrite <- Eids in E. clear Eids id0 ids0.
  set (times := map fst (s_clones st)) in *.
  destruct (clean_step_ok times ids d Nd) as (i1 & d1 & E1 & S1).
  { intros id Hid. destruct (Hd id Hid) as (f & Ef). exists f. split; auto. apply alook_some_key in Ef. apply Dk in Ef. apply Ef. }
  rewrite E1 in E. cbn [obind fst snd] in E. destruct (clean_sub _ _ _ _ _ Nd E1) as (p1 & Hp1). destruct S1 as (N1 & I1 & M1 & U1 & P1).
  destruct (tri_step_ok (tri st) i1 d1 N1) as (i2 & d2 & E2 & S2).
  { intros id Hid. destruct (P1 id (I1 _ Hid)) as (f & f' & b & A & B & _). eauto. }
  rewrite E2 in E. cbn [obind fst snd] in E. destruct (tri_sub _ _ _ _ _ N1 E2) as (p2 & Hp2). destruct S2 as (N2 & I2 & M2 & U2 & P2).
  assert (I12 : i2 = filter (fun x => p1 x && p2 x) ids) by (rewrite Hp2, Hp1; apply filter_twice).
  assert (Pr : forall id, In id i2 -> exists f g, alook d id = Some f /\ prepared st tri f g /\ alook d2 id = Some g).
  { intros id Hid. destruct (P2 id (I2 _ Hid)) as (f1 & g & b2 & A2 & B2 & (C2 & C2') & D2).
    assert (H : b2 = true) by (apply D2; auto). rewrite H in C2, C2'.
    destruct (P1 id (I1 _ (I2 _ Hid))) as (f & f1' & b1 & A1 & B1 & (f1'' & K1 & K2 & K3 & K4 & K5) & D1).
    assert (H0 : b1 = true) by (apply D1; auto). rewrite H0 in K4, K5. subst f1'.
    assert (f1'' = f1) by congruence. subst f1''.
    symmetry in K4. apply negb_true_iff, Nat.ltb_ge in K4.
    exists f, g. split; auto. split; [exists f1; auto|]. auto. }
  exists (fun x => p1 x && p2 x). split.
  - intros id f Hid Ef. split.
    + intros Hp. assert (Hi : In id i2) by (rewrite I12; apply filter_In; auto). destruct (Pr id Hi) as (f0 & g & A & B & _). exists g. congruence.
    + intros (g & f1 & G1 & G2 & G3 & G4).
      destruct (P1 id Hid) as (f0 & f1' & b1 & A1 & B1 & (f1'' & K1 & K2 & K3 & K4 & K5) & D1).
      assert (f0 = f) by congruence. subst f0. fold times in G1. assert (f1'' = f1) by congruence. subst f1''.
      assert (Hb : b1 = true) by (rewrite K4; apply negb_true_iff, Nat.ltb_ge; auto).
      assert (Hi1 : In id i1) by (apply D1; auto). rewrite Hb in K5. subst f1'.
      destruct (P2 id Hi1) as (f2 & g' & b2 & A2 & B2 & (C2 & C2') & D2). assert (f2 = f1) by congruence. subst f2.
      assert (Hb2 : b2 = true) by congruence. apply D2 in Hb2. rewrite I12 in Hb2. apply filter_In in Hb2. apply Hb2.
  - rewrite <- I12. apply (loop_run chi2q so single lm_val jac _ i2 st d2 st' d' kept N2); auto.
    intros id g Hid Eg. destruct (Pr id Hid) as (f & g' & A & B & C). exists f. split; auto. congruence.
Qed.

(** which options a corner gets *)
Lemma corner_noise so st M tag n sig mult : o_max_aruco (s_opts st) = Z.of_nat M -> (tag <= M)%nat -> (0 < M)%nat ->
  slam_noise so st (aruco_id M tag n) sig mult ->
  ((tag < M /\ n = 0)%nat -> sig = so_sig_aruco so /\ mult = so_mult_aruco so) /\
  ((0 < n)%nat \/ tag = M -> sig = so_sig_slam so /\ mult = so_mult_slam so).
Proof.
  intros Hm Ht HM. unfold slam_noise, aruco_id. rewrite Hm. intros [(A & B)|(A & B)].
  - split; auto. intros [C|C]; exfalso; [|lia]. destruct n; [lia|]. nia.
  - split; [|auto]. intros [C ->]. lia.
Qed.
