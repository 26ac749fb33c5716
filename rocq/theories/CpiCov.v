(** Proofs about the covariance of the preintegrated measurement (C103). *)
From Coq Require Import Reals Lra Lia List Arith Bool.
From Coquelicot Require Import Coquelicot.
From Verif Require Import RBool GeoModel GeoSpec GeoProofs JacSo3 Calc3 Lin StateModel PropModel HelpSpec CpiModel CpiSpec CpiProofs CpiJac CpiCovSpec.
Import ListNotations.
Open Scope R_scope.

Lemma pdot_is Q w a Qc P i j : cpi_Pdot Q w a Qc P i j = cov_rate (cpi_F Q w a) (cpi_G Q) Qc P i j.
Proof. reflexivity. Qed.

(** ** symmetry *)
Lemma cov_sym dt R0 Rm R1 w a Qc P i j : cpi_cov dt R0 Rm R1 w a Qc P i j = cpi_cov dt R0 Rm R1 w a Qc P j i.
Proof. unfold cpi_cov, mscal, madd, mtr. ring. Qed.
Lemma feed_sym c r : sym 15 (cp_P c) -> sym 15 (cp_P (cpi_feed c r)).
Proof.
  intros H. unfold cpi_feed. destruct (Reqb _ 0); cbn [cp_P]; [exact H|]. intros i j _ _. unfold mtr. apply cov_sym.
Qed.
Lemma run_sym c l : sym 15 (cp_P c) -> sym 15 (cp_P (cpi_run c l)).
Proof. revert c. induction l as [|r l IH]; intros c H; [exact H|]. apply IH, feed_sym, H. Qed.

(** ** bias blocks *)
Definition is_bias (i : nat) : Prop := (3 <= i < 6 \/ 9 <= i < 12)%nat.
Lemma F_bias Q w a i j : is_bias i -> cpi_F Q w a i j = 0.
Proof.
  intros H. unfold cpi_F, put3, set_block.
  repeat match goal with |- context [(?x <=? i)%nat] => destruct (Nat.leb_spec x i) | |- context [(i <? ?x)%nat] => destruct (Nat.ltb_spec i x) end;
    cbn [andb]; try reflexivity; exfalso; unfold is_bias in H; lia.
Qed.
Lemma G_bias Q i k : is_bias i -> cpi_G Q i k = if Nat.eqb i k then 1 else 0.
Proof.
  intros H. assert (E : (i = 3 \/ i = 4 \/ i = 5 \/ i = 9 \/ i = 10 \/ i = 11)%nat) by (unfold is_bias in H; lia).
  unfold cpi_G, put3, set_block.
  destruct E as [-> |[-> |[-> |[-> |[-> | ->]]]]]; cbn [Nat.leb Nat.ltb andb Nat.add Nat.sub];
    (do 13 (destruct k as [|k]; [reflexivity|])); cbn; reflexivity.
Qed.
Lemma GQG_bias Q Qc i j : is_bias i -> is_bias j -> mmul 12 (mmul 12 (cpi_G Q) Qc) (mtr (cpi_G Q)) i j = Qc i j.
Proof.
  intros Hi Hj. assert (Li : (i < 12)%nat) by (unfold is_bias in Hi; lia). assert (Lj : (j < 12)%nat) by (unfold is_bias in Hj; lia).
  assert (A : forall k, mmul 12 (cpi_G Q) Qc i k = Qc i k).
  { intros k. unfold mmul. rewrite (sumn_delta 12 i) by (first [exact Li|intros l _ N; rewrite G_bias by exact Hi; destruct (Nat.eqb_spec i l); [congruence|ring]]).
    rewrite G_bias, Nat.eqb_refl by exact Hi. ring. }
  unfold mmul at 1. rewrite (sumn_delta 12 j) by (first [exact Lj|intros l _ N; unfold mtr; rewrite (G_bias Q j l) by exact Hj; destruct (Nat.eqb_spec j l); [congruence|ring]]).
  rewrite A. unfold mtr. rewrite G_bias, Nat.eqb_refl by exact Hj. ring.
Qed.
Lemma pdot_bias Q w a Qc P i j : is_bias i -> is_bias j -> cpi_Pdot Q w a Qc P i j = Qc i j.
Proof.
  intros Hi Hj. rewrite pdot_is. unfold cov_rate. rewrite GQG_bias by assumption.
  unfold mmul. rewrite sumn_zero by (intros l _; rewrite F_bias by exact Hi; ring).
  rewrite sumn_zero by (intros l _; unfold mtr; rewrite F_bias by exact Hj; ring). ring.
Qed.
Lemma feed_bias c r i j : is_bias i -> is_bias j -> cp_Qc c i j = cp_Qc c j i -> cp_P c i j = cp_P c j i ->
  cp_P (cpi_feed c r) i j = cp_P c i j + (rd_t1 r - rd_t0 r) * cp_Qc c i j.
Proof.
  intros Hi Hj S1 S2. unfold cpi_feed. destruct (Reqb_spec (rd_t1 r - rd_t0 r) 0) as [E|E]; cbn [cp_P]; [rewrite E; ring|].
  set (dt := rd_t1 r - rd_t0 r) in *. unfold cpi_cov, mscal, madd, mtr. rewrite !pdot_bias by assumption. rewrite S2, <- S1. field.
Qed.
Lemma feed_Qc c r : cp_Qc (cpi_feed c r) = cp_Qc c /\ cp_DT (cpi_feed c r) = cp_DT c + (rd_t1 r - rd_t0 r).
Proof. unfold cpi_feed. destruct (Reqb _ 0); split; reflexivity. Qed.
Lemma run_bias Qc avg bw ba l i j : sym 12 Qc -> is_bias i -> is_bias j ->
  cp_P (cpi_run (cpi_new avg Qc bw ba) l) i j = duration l * Qc i j.
Proof.
  intros S Hi Hj. assert (SQ : Qc i j = Qc j i) by (apply S; unfold is_bias in *; lia).
  assert (G : forall l c, cp_Qc c = Qc -> cp_P c i j = cp_P c j i -> cp_P (cpi_run c l) i j = cp_P c i j + duration l * Qc i j).
  { clear l. induction l as [|r l IH]; intros c HQ HP; cbn [cpi_run fold_left duration fold_right]; [ring|].
    change (fold_left cpi_feed l (cpi_feed c r)) with (cpi_run (cpi_feed c r) l). rewrite IH.
    - rewrite feed_bias; try assumption; rewrite HQ; [fold (duration l); ring|exact SQ].
    - rewrite (proj1 (feed_Qc c r)). exact HQ.
    - rewrite !feed_bias; try assumption; rewrite ?HQ; congruence. }
  rewrite G; [|reflexivity|reflexivity]. cbn [cpi_new cp_P]. unfold mzero. ring.
Qed.

(** ** the linear rates of the errors *)
Lemma sub_scal_derive (w d : v3) t : v3_derive (fun s => v3sub w (v3scal s d)) t (v3scal (-1) d).
Proof. destruct w as [w0 w1 w2], d as [d0 d1 d2]. split; [|split]; cbn [vx vy vz v3sub v3scal]; auto_derive; auto; ring. Qed.
Lemma F_rates Q w a : lin_rates (cpi_F Q w a) (cpi_G Q) Q w a.
Proof.
  intros x n Qs E0 D. cbv zeta.
  assert (W : v3_derive (fun s => v3sub w (v3scal s (v3add (seg3 x 3) (seg3 n 0)))) 0 (v3scal (-1) (v3add (seg3 x 3) (seg3 n 0)))).
  { apply sub_scal_derive. }
  assert (A : v3_derive (fun s => v3sub a (v3scal s (v3add (seg3 x 9) (seg3 n 6)))) 0 (v3scal (-1) (v3add (seg3 x 9) (seg3 n 6)))).
  { apply sub_scal_derive. }
  split.
  - eapply m3_derive_eq; [apply m3d_mul; [apply m3d_scal, skew_derive, W|exact D]|]. rewrite E0.
    destruct Q as [q0 q1 q2 q3 q4 q5 q6 q7 q8], w as [w0 w1 w2], a as [a0 a1 a2]. apply m3_ext; cbn; unfold mzero; ring.
  - split; [|split; [|split]].
    + destruct Q as [q0 q1 q2 q3 q4 q5 q6 q7 q8], w as [w0 w1 w2], a as [a0 a1 a2]. apply v3_ext; cbn; unfold mzero; ring.
    + eapply v3_derive_eq; [apply v3d_mv; [apply m3d_tr, D|exact A]|]. cbv beta. rewrite E0.
      destruct Q as [q0 q1 q2 q3 q4 q5 q6 q7 q8], w as [w0 w1 w2], a as [a0 a1 a2]. apply v3_ext; cbn; unfold mzero; ring.
    + destruct Q as [q0 q1 q2 q3 q4 q5 q6 q7 q8], w as [w0 w1 w2], a as [a0 a1 a2]. apply v3_ext; cbn; unfold mzero; ring.
    + destruct Q as [q0 q1 q2 q3 q4 q5 q6 q7 q8], w as [w0 w1 w2], a as [a0 a1 a2]. apply v3_ext; cbn; unfold mzero; ring.
Qed.

(** ** curves of matrices *)
Definition mder (A : R -> mat) (t : R) (D : mat) : Prop := forall i j, (i < 15)%nat -> (j < 15)%nat -> is_derive (fun s => A s i j) t (D i j).
Lemma cder (c t : R) : is_derive (fun _ : R => c) t 0.
Proof. auto_derive; auto. Qed.
Lemma sum_der n (f : R -> nat -> R) t d : (forall k, (k < n)%nat -> is_derive (fun s => f s k) t (d k)) -> is_derive (fun s => sumn n (f s)) t (sumn n d).
Proof.
  induction n as [|n IH]; intros H; cbn [sumn]; [apply cder|].
  apply (is_derive_plus (fun s => sumn n (f s)) (fun s => f s n)); [apply IH; intros k Hk; apply H; lia|apply H; lia].
Qed.
Lemma mul_der (f g : R -> R) t a b : is_derive f t a -> is_derive g t b -> is_derive (fun s => f s * g s) t (a * g t + f t * b).
Proof. intros H K. apply (is_derive_mult f g t a b H K). intros x y. apply Rmult_comm. Qed.
Lemma mmul_der n (A B : R -> mat) t A' B' i j : (forall k, (k < n)%nat -> is_derive (fun s => A s i k) t (A' i k)) -> (forall k, (k < n)%nat -> is_derive (fun s => B s k j) t (B' k j)) ->
  is_derive (fun s => mmul n (A s) (B s) i j) t (mmul n A' (B t) i j + mmul n (A t) B' i j).
Proof.
  intros HA HB. unfold mmul. rewrite <- sumn_plus. apply (sum_der n (fun s k => A s i k * B s k j)). intros k Hk. apply mul_der; [apply HA, Hk|apply HB, Hk].
Qed.
(** derivative of the rate, for curves of F, G and P *)
Definition bent (F F' G G' Qc P P' : mat) : mat := fun i j =>
  mmul 15 F' P i j + mmul 15 F P' i j + (mmul 15 P' (mtr F) i j + mmul 15 P (mtr F') i j) +
  (mmul 12 (mmul 12 G' Qc) (mtr G) i j + mmul 12 (mmul 12 G Qc) (mtr G') i j).
Lemma rate_der (F G P : R -> mat) Qc t F' G' P' : (forall i j, is_derive (fun s => F s i j) t (F' i j)) -> (forall i j, is_derive (fun s => G s i j) t (G' i j)) -> mder P t P' ->
  mder (fun s => cov_rate (F s) (G s) Qc (P s)) t (bent (F t) F' (G t) G' Qc (P t) P').
Proof.
  intros HF HG HP i j Hi Hj. unfold cov_rate, bent.
  apply (is_derive_plus (fun s => mmul 15 (F s) (P s) i j + mmul 15 (P s) (mtr (F s)) i j) (fun s => mmul 12 (mmul 12 (G s) Qc) (mtr (G s)) i j)).
  - apply (is_derive_plus (fun s => mmul 15 (F s) (P s) i j) (fun s => mmul 15 (P s) (mtr (F s)) i j)).
    + apply (mmul_der 15 F P t F' P'); intros k Hk; [apply HF|apply HP; assumption].
    + apply (mmul_der 15 P (fun s => mtr (F s)) t P' (mtr F')); intros k Hk; [apply HP; assumption|apply HF].
  - apply (mmul_der 12 (fun s => mmul 12 (G s) Qc) (fun s => mtr (G s)) t (mmul 12 G' Qc) (mtr G')); intros k Hk; [|apply HG].
    eapply is_derive_eq; [apply (mmul_der 12 G (fun _ => Qc) t G' mzero); intros l Hl; [apply HG|apply cder]|].
    unfold mmul, mzero. rewrite (sumn_zero 12 (fun l => G t i l * 0)) by (intros; ring). ring.
Qed.
(** how F and G bend when the rotation does *)
Definition F_bend (Q' : m3) (a : v3) : mat := put3 (put3 mzero 6 0 (m3mul (m3scal (-1) (m3tr Q')) (skew_x a))) 6 9 (m3scal (-1) (m3tr Q')).
Definition G_bend (Q' : m3) : mat := put3 mzero 6 6 (m3scal (-1) (m3tr Q')).
Lemma b3_der (A : R -> m3) t A' i j : m3_derive A t A' -> is_derive (fun s => b3 (A s) i j) t (b3 A' i j).
Proof.
  intros (H0 & H1 & H2 & H3 & H4 & H5 & H6 & H7 & H8). unfold b3.
  destruct i as [|[|[|i]]], j as [|[|[|j]]]; cbn; try assumption; try apply cder.
Qed.
Lemma F_der (Qs : R -> m3) t Q' w a i j : m3_derive Qs t Q' -> is_derive (fun s => cpi_F (Qs s) w a i j) t (F_bend Q' a i j).
Proof.
  intros D. assert (D1 : m3_derive (fun s => m3scal (-1) (m3tr (Qs s))) t (m3scal (-1) (m3tr Q'))) by (apply m3d_scal, m3d_tr, D).
  assert (D2 : m3_derive (fun s => m3mul (m3scal (-1) (m3tr (Qs s))) (skew_x a)) t (m3mul (m3scal (-1) (m3tr Q')) (skew_x a))).
  { eapply m3_derive_eq; [apply m3d_mul; [exact D1|apply m3d_const]|]. apply m3_ext; cbn; ring. }
  unfold cpi_F, F_bend, put3, set_block.
  destruct ((12 <=? i) && (i <? 12 + 3) && (6 <=? j) && (j <? 6 + 3))%nat eqn:E1.
  { assert (E2 : ((6 <=? i) && (i <? 6 + 3) && (9 <=? j) && (j <? 9 + 3))%nat = false) by (apply not_true_is_false; rewrite ?andb_true_iff, ?Nat.leb_le, ?Nat.ltb_lt in *; lia).
    assert (E3 : ((6 <=? i) && (i <? 6 + 3) && (0 <=? j) && (j <? 0 + 3))%nat = false) by (apply not_true_is_false; rewrite ?andb_true_iff, ?Nat.leb_le, ?Nat.ltb_lt in *; lia).
    rewrite E2, E3. apply cder. }
  destruct ((6 <=? i) && (i <? 6 + 3) && (9 <=? j) && (j <? 9 + 3))%nat; [apply b3_der, D1|].
  destruct ((6 <=? i) && (i <? 6 + 3) && (0 <=? j) && (j <? 0 + 3))%nat; [apply (b3_der (fun s => m3mul (m3scal (-1) (m3tr (Qs s))) (skew_x a))), D2|].
  destruct ((0 <=? i) && (i <? 0 + 3) && (3 <=? j) && (j <? 3 + 3))%nat; [apply cder|].
  destruct ((0 <=? i) && (i <? 0 + 3) && (0 <=? j) && (j <? 0 + 3))%nat; apply cder.
Qed.
Lemma G_der (Qs : R -> m3) t Q' i j : m3_derive Qs t Q' -> is_derive (fun s => cpi_G (Qs s) i j) t (G_bend Q' i j).
Proof.
  intros D. assert (D1 : m3_derive (fun s => m3scal (-1) (m3tr (Qs s))) t (m3scal (-1) (m3tr Q'))) by (apply m3d_scal, m3d_tr, D).
  unfold cpi_G, G_bend, put3, set_block.
  destruct ((9 <=? i) && (i <? 9 + 3) && (9 <=? j) && (j <? 9 + 3))%nat eqn:E1.
  { assert (E2 : ((6 <=? i) && (i <? 6 + 3) && (6 <=? j) && (j <? 6 + 3))%nat = false) by (apply not_true_is_false; rewrite ?andb_true_iff, ?Nat.leb_le, ?Nat.ltb_lt in *; lia).
    rewrite E2. apply cder. }
  destruct ((6 <=? i) && (i <? 6 + 3) && (6 <=? j) && (j <? 6 + 3))%nat; [apply b3_der, D1|].
  destruct ((3 <=? i) && (i <? 3 + 3) && (3 <=? j) && (j <? 3 + 3))%nat; [apply cder|].
  destruct ((0 <=? i) && (i <? 0 + 3) && (0 <=? j) && (j <? 0 + 3))%nat; apply cder.
Qed.
(** one evaluation of the rate inside the Runge-Kutta step, as a function of the step: the rotation and the
    covariance moved by the fraction [c] *)
Lemma pdot_der (Qs : R -> m3) (X : R -> mat) w a Qc t Q' X' : m3_derive Qs t Q' -> mder X t X' ->
  mder (fun s => cpi_Pdot (Qs s) w a Qc (X s)) t (bent (cpi_F (Qs t) w a) (F_bend Q' a) (cpi_G (Qs t)) (G_bend Q') Qc (X t) X').
Proof.
  intros D HX. apply (rate_der (fun s => cpi_F (Qs s) w a) (fun s => cpi_G (Qs s)) X Qc t (F_bend Q' a) (G_bend Q') X'); auto; intros; [apply F_der, D|apply G_der, D].
Qed.
