(** One step of one second after which the covariance of the preintegrated measurement is not positive
    semidefinite (C103). *)
From Coq Require Import Reals Lra Lia List Arith Bool FunctionalExtensionality.
From Coquelicot Require Import Coquelicot.
From Verif Require Import RBool GeoModel GeoSpec GeoProofs JacSo3 Calc3 CpiJac CeresLog Lin StateModel PropModel HelpSpec CpiModel CpiSpec CpiCovSpec CpiCov CpiCov2 CpiCov3.
Import ListNotations.
Open Scope R_scope.

(** the noises of NoiseManager.h *)
Definition ex_Qc : mat := cpi_Qc (16968 / 100000000) (19393 / 1000000000) (2 / 1000) (3 / 1000).
Definition ex_c : cpi := cpi_new true ex_Qc v3zero v3zero.
Definition ex_a : v3 := V3 0 0 (981 / 100).
Lemma Qc_sym sw swb sa sab : sym 12 (cpi_Qc sw swb sa sab).
Proof.
  intros i j Hi Hj. unfold mtr, cpi_Qc. rewrite (Nat.eqb_sym j i). destruct (Nat.eqb_spec i j) as [->|]; reflexivity.
Qed.
Lemma Qc_psd sw swb sa sab : psd 12 (cpi_Qc sw swb sa sab).
Proof.
  intros x. unfold quad. cbn. pose proof (pow2_ge_0 (sw * x 0%nat)). pose proof (pow2_ge_0 (sw * x 1%nat)). pose proof (pow2_ge_0 (sw * x 2%nat)).
  pose proof (pow2_ge_0 (swb * x 3%nat)). pose proof (pow2_ge_0 (swb * x 4%nat)). pose proof (pow2_ge_0 (swb * x 5%nat)).
  pose proof (pow2_ge_0 (sa * x 6%nat)). pose proof (pow2_ge_0 (sa * x 7%nat)). pose proof (pow2_ge_0 (sa * x 8%nat)).
  pose proof (pow2_ge_0 (sab * x 9%nat)). pose proof (pow2_ge_0 (sab * x 10%nat)). pose proof (pow2_ge_0 (sab * x 11%nat)). lra.
Qed.

Section Entries.
Let F := cpi_F m3id v3zero ex_a.
Definition few (i : nat) : Prop := In i [1; 4; 6; 9; 12]%nat.
Definition row (i : nat) (f : nat -> R) : R :=
  match i with 1%nat => - f 4%nat | 6%nat => 981 / 100 * f 1%nat - f 9%nat | 12%nat => f 6%nat | _ => 0 end.
Lemma row_l i j X : few i -> mmul 15 F X i j = row i (fun l => X l j).
Proof.
  destruct (F_rows m3id ex_a X j) as (A & B & C & D & E). fold F in A, B, C, D, E.
  intros H. unfold few in H. cbn in H. destruct H as [<-|[<-|[<-|[<-|[<-|[]]]]]]; cbn [row].
  - rewrite (A 1%nat) by lia. reflexivity.
  - apply (B 1%nat). lia.
  - etransitivity; [exact (C 0%nat ltac:(lia))|]. cbn. ring.
  - apply (D 0%nat). lia.
  - apply (E 0%nat). lia.
Qed.
Lemma row_r i j X : few j -> mmul 15 X (mtr F) i j = row j (fun l => X i l).
Proof.
  intros H. replace (mmul 15 X (mtr F) i j) with (mmul 15 F (mtr X) j i); [rewrite row_l by exact H; reflexivity|].
  unfold mmul, mtr. apply sumn_ext. intros. ring.
Qed.
Lemma lin_few i j X : few i -> few j -> lin_part F X i j = row i (fun l => X l j) + row j (fun l => X i l).
Proof. intros Hi Hj. unfold lin_part. rewrite row_l, row_r by assumption. reflexivity. Qed.
Lemma noise_few i j : few i -> few j -> term m3id ex_a ex_Qc mzero 0 i j =
  if Nat.eqb i j then match i with 1%nat => (16968 / 100000000) ^ 2 | 4%nat => (19393 / 1000000000) ^ 2 | 6%nat => (2 / 1000) ^ 2 | 9%nat => (3 / 1000) ^ 2 | _ => 0 end else 0.
Proof.
  intros Hi Hj. change (term m3id ex_a ex_Qc mzero 0) with (cov_rate F (cpi_G m3id) ex_Qc mzero). unfold cov_rate.
  replace (mmul 15 F mzero i j) with 0 by (symmetry; unfold mmul, mzero; apply sumn_zero; intros; ring).
  replace (mmul 15 mzero (mtr F) i j) with 0 by (symmetry; unfold mmul, mzero; apply sumn_zero; intros; ring).
  assert (GQ : forall k, (k < 12)%nat -> mmul 12 (cpi_G m3id) ex_Qc i k = cpi_G m3id i k * ex_Qc k k).
  { intros k Hk. unfold mmul. apply (sumn_delta 12 k (fun l => cpi_G m3id i l * ex_Qc l k) Hk). intros l Hl N. unfold ex_Qc, cpi_Qc. destruct (Nat.eqb_spec l k); [contradiction|ring]. }
  replace (mmul 12 (mmul 12 (cpi_G m3id) ex_Qc) (mtr (cpi_G m3id)) i j) with (sumn 12 (fun k => cpi_G m3id i k * ex_Qc k k * cpi_G m3id j k))
    by (unfold mmul at 1; apply sumn_ext; intros k Hk; rewrite GQ by exact Hk; reflexivity).
  unfold few in Hi, Hj. cbn in Hi, Hj.
  destruct Hi as [<-|[<-|[<-|[<-|[<-|[]]]]]]; destruct Hj as [<-|[<-|[<-|[<-|[<-|[]]]]]]; cbn; unfold mzero; ring.
Qed.
Definition ex_P : mat := cp_P (cpi_feed ex_c (steady ex_c 1 v3zero ex_a)).
Lemma ex_entry i j : (i < 15)%nat -> (j < 15)%nat -> ex_P i j = let T k := term m3id ex_a ex_Qc mzero k i j in
  T 0%nat + 1 / 2 * T 1%nat + 1 / 6 * T 2%nat + 1 / 24 * T 3%nat.
Proof.
  intros Hi Hj. unfold ex_P. rewrite feed_steady by lra. change (cp_R ex_c) with m3id. change (cp_Qc ex_c) with ex_Qc. change (cp_P ex_c) with mzero.
  rewrite step_still; [|apply Qc_sym|intros u v _ _; reflexivity|assumption|assumption]. cbv zeta. unfold mzero at 1. field.
Qed.
Ltac fw := unfold few; cbn; tauto.
Ltac ent := rewrite ex_entry by lia; cbv beta zeta; rewrite !term_S; fold F; repeat (rewrite !lin_few by fw; cbn [row]); rewrite ?noise_few by fw; cbn [Nat.eqb].
Lemma e66 : ex_P 6%nat 6%nat = (2 / 1000) ^ 2 + 1 / 3 * ((981 / 100) ^ 2 * (16968 / 100000000) ^ 2 + (3 / 1000) ^ 2).
Proof. ent. field. Qed.
Lemma e612 : ex_P 6%nat 12%nat = 1 / 2 * (2 / 1000) ^ 2 + 1 / 8 * ((981 / 100) ^ 2 * (16968 / 100000000) ^ 2 + (3 / 1000) ^ 2).
Proof. ent. field. Qed.
Lemma e126 : ex_P 12%nat 6%nat = 1 / 2 * (2 / 1000) ^ 2 + 1 / 8 * ((981 / 100) ^ 2 * (16968 / 100000000) ^ 2 + (3 / 1000) ^ 2).
Proof. ent. field. Qed.
Lemma e1212 : ex_P 12%nat 12%nat = 1 / 3 * (2 / 1000) ^ 2.
Proof. ent. field. Qed.
End Entries.
Definition ex_x : vec := fun i => match i with 6%nat => 1 | 12%nat => - (26 / 10) | _ => 0 end.
Lemma ex_neg : quad 15 ex_P ex_x < 0.
Proof.
  assert (E : quad 15 ex_P ex_x = ex_P 6%nat 6%nat - 26 / 10 * (ex_P 6%nat 12%nat + ex_P 12%nat 6%nat) + (26 / 10) ^ 2 * ex_P 12%nat 12%nat).
  { generalize ex_P. intros P. unfold quad, ex_x. cbn. ring. }
  rewrite E, e66, e612, e126, e1212. lra.
Qed.
Theorem psd_refuted : exists c r, sym 12 (cp_Qc c) /\ psd 12 (cp_Qc c) /\ sym 15 (cp_P c) /\ psd 15 (cp_P c) /\ c = cpi_new true (cp_Qc c) v3zero v3zero /\ 0 < rd_t1 r - rd_t0 r /\ ~ psd 15 (cp_P (cpi_run c [r])).
Proof.
  exists ex_c, (steady ex_c 1 v3zero ex_a). split; [apply Qc_sym|]. split; [apply Qc_psd|]. split; [intros i j _ _; reflexivity|]. split.
  { intros x. unfold quad. change (cp_P ex_c) with mzero. rewrite sumn_zero; [lra|]. intros i _. apply sumn_zero. intros j _. unfold mzero. ring. }
  split; [reflexivity|]. split; [cbn; lra|]. intros H. pose proof (H ex_x) as K. change (cp_P (cpi_run ex_c [steady ex_c 1 v3zero ex_a])) with ex_P in K. pose proof ex_neg. lra.
Qed.

(** ** what the theorems say *)
Lemma new_sym avg Qc bw ba l : sym 15 (cp_P (cpi_run (cpi_new avg Qc bw ba) l)).
Proof. apply run_sym. intros i j _ _. reflexivity. Qed.
Lemma bias_cov avg sw swb sa sab bw ba l r s : (r < 3)%nat -> (s < 3)%nat ->
  let P := cp_P (cpi_run (cpi_new avg (cpi_Qc sw swb sa sab) bw ba) l) in let T := duration l in
  P (3 + r)%nat (3 + s)%nat = (if Nat.eqb r s then swb ^ 2 * T else 0) /\
  P (9 + r)%nat (9 + s)%nat = (if Nat.eqb r s then sab ^ 2 * T else 0) /\
  P (3 + r)%nat (9 + s)%nat = 0 /\ P (9 + r)%nat (3 + s)%nat = 0.
Proof.
  intros Hr Hs. cbv zeta. rewrite !run_bias by first [apply Qc_sym|unfold is_bias; lia].
  generalize (duration l). intros T. destruct r as [|[|[|r]]]; try lia; destruct s as [|[|[|s]]]; try lia; cbn [Nat.eqb]; unfold cpi_Qc; cbn [Nat.add Nat.eqb Nat.ltb Nat.leb]; (split; [|split; [|split]]); ring.
Qed.
Lemma rates_same F G F' G' Q w a x n : is_rot Q -> lin_rates F G Q w a -> lin_rates F' G' Q w a ->
  forall i, (i < 15)%nat -> mvec 15 F x i + mvec 12 G n i = mvec 15 F' x i + mvec 12 G' n i.
Proof.
  intros HQ H H' i Hi. set (D := m3mul (m3scal (-1) (skew_x (seg3 x 0))) Q). set (Qs := fun s => m3add Q (m3scal s D)).
  assert (E0 : Qs 0 = Q) by (unfold Qs; apply m3_ext; cbn; ring).
  assert (ED : m3_derive Qs 0 D).
  { unfold Qs. eapply m3_derive_eq; [apply m3d_add; [apply m3d_const|apply m3d_scalf; [|apply m3d_const]]|].
    - instantiate (1 := 1). auto_derive; [auto|ring].
    - apply m3_ext; cbn; ring. }
  specialize (H x n Qs E0 ED). specialize (H' x n Qs E0 ED). cbv zeta in H, H'.
  set (d := fun i => mvec 15 F x i + mvec 12 G n i) in *. set (d' := fun i => mvec 15 F' x i + mvec 12 G' n i) in *. change (d i = d' i).
  destruct H as (A1 & A2 & A3 & A4 & A5). destruct H' as (B1 & B2 & B3 & B4 & B5).
  assert (C0 : seg3 d 0 = seg3 d' 0).
  { pose proof (m3_derive_unique _ _ _ _ A1 B1) as U. apply skew_inj.
    assert (V : m3mul (skew_x (seg3 d 0)) Q = m3mul (skew_x (seg3 d' 0)) Q).
    { revert U. generalize (m3mul (m3scal (-1) (skew_x (seg3 x 0))) (m3mul (m3scal (-1) (skew_x w)) Q)). intros Z U.
      assert (X : forall M, m3mul M Q = m3scal (-1) (m3sub (m3add (m3mul (m3scal (-1) M) Q) Z) Z)) by (intros M; apply m3_ext; cbn; ring).
      rewrite (X (skew_x (seg3 d 0))), (X (skew_x (seg3 d' 0))), U. reflexivity. }
    apply (f_equal (fun M => m3mul M (m3tr Q))) in V. rewrite !m3mul_assoc in V. destruct HQ as [O _].
    rewrite O in V. rewrite !m3mul_id_r in V. exact V. }
  assert (C6 : seg3 d 6 = seg3 d' 6) by exact (v3_derive_unique _ _ _ _ A3 B3).
  assert (C3 : seg3 d 3 = seg3 d' 3) by congruence. assert (C9 : seg3 d 9 = seg3 d' 9) by congruence. assert (C12 : seg3 d 12 = seg3 d' 12) by congruence.
  clearbody d d'. unfold seg3 in C0, C3, C6, C9, C12. injection C0 as ? ? ?. injection C3 as ? ? ?. injection C6 as ? ? ?. injection C9 as ? ? ?. injection C12 as ? ? ?.
  do 15 (destruct i as [|i]; [assumption|]). lia.
Qed.
Lemma mvec_unit k A j i : (j < k)%nat -> mvec k A (fun l => if Nat.eqb l j then 1 else 0) i = A i j.
Proof.
  intros Hj. unfold mvec. rewrite (sumn_delta k j _ Hj); [rewrite Nat.eqb_refl; ring|]. intros l _ N. destruct (Nat.eqb_spec l j); [contradiction|ring].
Qed.
Lemma mvec_nil k A i : mvec k A (fun _ => 0) i = 0.
Proof. unfold mvec. apply sumn_zero. intros. ring. Qed.
Theorem rates_unique F G F' G' Q w a : is_rot Q -> lin_rates F G Q w a -> lin_rates F' G' Q w a -> meq 15 15 F F' /\ meq 15 12 G G'.
Proof.
  intros HQ H H'. split; intros i j Hi Hj.
  - pose proof (rates_same F G F' G' Q w a (fun l => if Nat.eqb l j then 1 else 0) (fun _ => 0) HQ H H' i Hi) as E. rewrite !mvec_unit, !mvec_nil in E by assumption. lra.
  - pose proof (rates_same F G F' G' Q w a (fun _ => 0) (fun l => if Nat.eqb l j then 1 else 0) HQ H H' i Hi) as E. rewrite !mvec_unit, !mvec_nil in E by assumption. lra.
Qed.
Lemma cov_ex : sym 12 ex_Qc /\ sym 15 (cp_P ex_c) /\ (forall t, m3_derive (fun _ => cp_R ex_c) t (m3mul (m3scal (-1) (skew_x v3zero)) (cp_R ex_c))) /\
  (exists F G Pt, lin_rates F G (cp_R ex_c) v3zero ex_a /\ true_cov ex_Qc (fun _ => F) (fun _ => G) Pt /\ meq 15 15 (Pt 0) (cp_P ex_c)) /\
  ex_P 12%nat 12%nat = 1 / 3 * (2 / 1000) ^ 2.
Proof.
  split; [apply Qc_sym|]. split; [intros i j _ _; reflexivity|]. split.
  { intros t. eapply m3_derive_eq; [apply m3d_const|]. apply m3_ext; cbn; ring. }
  split; [|apply e1212]. destruct (still_thm ex_c ex_a (Qc_sym _ _ _ _) ltac:(intros i j _ _; reflexivity)) as (F & G & HF & (Pt & HT & H0) & _).
  exists F, G, Pt. split; [exact HF|]. split; [exact HT|]. intros i j _ _. rewrite H0. reflexivity.
Qed.
