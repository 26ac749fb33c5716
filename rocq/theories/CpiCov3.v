(** The covariance of the preintegrated measurement without rotation: exact covariance, order four, and a
    step after which the stored matrix is not positive semidefinite (C103). *)
From Coq Require Import Reals Lra Lia List Arith Bool FunctionalExtensionality.
From Coquelicot Require Import Coquelicot.
From Verif Require Import RBool GeoModel GeoSpec GeoProofs JacSo3 Calc3 Lin StateModel PropModel HelpSpec CpiModel CpiSpec CpiProofs CpiJac CpiCovSpec CpiCov CpiCov2.
Import ListNotations.
Open Scope R_scope.

Lemma mext (A B : mat) : (forall i j, A i j = B i j) -> A = B.
Proof. intros H. extensionality i. extensionality j. apply H. Qed.

Section Nil.
Variables (F : mat).
Let La (X : mat) : mat := mmul 15 F X.
Let Lb (X : mat) : mat := mmul 15 X (mtr F).
Lemma La_add X Y : La (madd X Y) = madd (La X) (La Y). Proof. apply mext. intros. apply mmul_add_r. Qed.
Lemma Lb_add X Y : Lb (madd X Y) = madd (Lb X) (Lb Y). Proof. apply mext. intros. apply mmul_add_l. Qed.
Lemma La_Lb X : La (Lb X) = Lb (La X). Proof. apply mext. intros. unfold La, Lb. symmetry. apply mmul_assoc. Qed.
Fixpoint it (f : mat -> mat) (n : nat) (X : mat) : mat := match n with O => X | S k => f (it f k X) end.
Lemma it_add (f : mat -> mat) (Hf : forall X Y, f (madd X Y) = madd (f X) (f Y)) n X Y : it f n (madd X Y) = madd (it f n X) (it f n Y).
Proof. induction n as [|n IH]; cbn [it]; [reflexivity|]. rewrite IH, Hf. reflexivity. Qed.
Lemma it_S (f : mat -> mat) n X : it f (S n) X = it f n (f X).
Proof. induction n as [|n IH]; cbn [it] in *; [reflexivity|]. rewrite IH. reflexivity. Qed.
Lemma it_comm n X : it La n (Lb X) = Lb (it La n X).
Proof. induction n as [|n IH]; cbn [it]; [reflexivity|]. rewrite IH. apply La_Lb. Qed.
Lemma it_comm2 n m X : it La n (it Lb m X) = it Lb m (it La n X).
Proof. revert X. induction m as [|m IH]; intros X; [reflexivity|]. rewrite !(it_S Lb), IH, it_comm. reflexivity. Qed.
Hypothesis nilF : forall X, it La 4 X = mzero.
Lemma La_zero : La mzero = mzero. Proof. apply mext. intros. unfold La, mmul, mzero. apply sumn_zero. intros. ring. Qed.
Lemma Lb_zero : Lb mzero = mzero. Proof. apply mext. intros. unfold Lb, mmul, mzero. apply sumn_zero. intros. ring. Qed.
Lemma La_tr X : La (mtr X) = mtr (Lb X).
Proof. apply mext. intros i j. unfold La, Lb, mtr at 2. rewrite mmul_tr. reflexivity. Qed.
Lemma it_tr n X : it La n (mtr X) = mtr (it Lb n X).
Proof. induction n as [|n IH]; cbn [it]; [reflexivity|]. rewrite IH. apply La_tr. Qed.
Lemma nilF' X : it Lb 4 X = mzero.
Proof. pose proof (it_tr 4 X) as H. rewrite nilF in H. apply mext. intros i j. apply (f_equal (fun M => M j i)) in H. symmetry. exact H. Qed.
Lemma it_zero (f : mat -> mat) n : f mzero = mzero -> it f n mzero = mzero.
Proof. intros H. induction n as [|n IH]; cbn [it]; [reflexivity|]. rewrite IH. exact H. Qed.
Lemma it_plus (f : mat -> mat) n m X : it f (n + m) X = it f n (it f m X).
Proof. induction n as [|n IH]; cbn [it Nat.add]; [reflexivity|]. rewrite IH. reflexivity. Qed.
Lemma la_big n X : (4 <= n)%nat -> it La n X = mzero.
Proof. intros H. replace n with ((n - 4) + 4)%nat by lia. rewrite it_plus, nilF. apply it_zero, La_zero. Qed.
Lemma lb_big n X : (4 <= n)%nat -> it Lb n X = mzero.
Proof. intros H. replace n with ((n - 4) + 4)%nat by lia. rewrite it_plus, nilF'. apply it_zero, Lb_zero. Qed.
Definition small (k : nat) (X : mat) : Prop := forall n m, (k <= n + m)%nat -> it La n (it Lb m X) = mzero.
Lemma small7 X : small 7 X.
Proof.
  intros n m H. destruct (le_lt_dec 4 n); [apply la_big; assumption|]. rewrite lb_big by lia. apply it_zero, La_zero.
Qed.
Lemma lin_is X : lin_part F X = madd (La X) (Lb X). Proof. reflexivity. Qed.
Lemma small_down k X : small (S k) X -> small k (lin_part F X).
Proof.
  intros H n m Hk. rewrite lin_is, (it_add Lb Lb_add), (it_add La La_add).
  rewrite <- (it_S Lb), (H n (S m)) by lia. rewrite <- (it_comm2 1 m) by lia. cbn [it]. rewrite <- it_S, (H (S n) m) by lia.
  apply mext. intros. unfold madd, mzero. ring.
Qed.
Lemma lin7 X : it (lin_part F) 7 X = mzero.
Proof.
  assert (G : forall k, (k <= 7)%nat -> small (7 - k) (it (lin_part F) k X)).
  { induction k as [|k IH]; intros Hk; [apply small7|]. cbn [it]. apply small_down. replace (S (7 - S k)) with (7 - k)%nat by lia. apply IH. lia. }
  apply (G 7%nat ltac:(lia) 0%nat 0%nat). lia.
Qed.
End Nil.

(** ** without rotation *)
Lemma F_rows Q a X j : let F := cpi_F Q v3zero a in
  (forall r, (r < 3)%nat -> mmul 15 F X r j = - X (3 + r)%nat j) /\
  (forall r, (r < 3)%nat -> mmul 15 F X (3 + r)%nat j = 0) /\
  (forall r, (r < 3)%nat -> mmul 15 F X (6 + r)%nat j = sumn 3 (fun k => b3 (m3mul (m3scal (-1) (m3tr Q)) (skew_x a)) r k * X k j) + sumn 3 (fun k => b3 (m3scal (-1) (m3tr Q)) r k * X (9 + k)%nat j)) /\
  (forall r, (r < 3)%nat -> mmul 15 F X (9 + r)%nat j = 0) /\
  (forall r, (r < 3)%nat -> mmul 15 F X (12 + r)%nat j = X (6 + r)%nat j).
Proof.
  destruct Q as [q0 q1 q2 q3 q4 q5 q6 q7 q8], a as [a0 a1 a2]. cbv zeta.
  split; [|split; [|split; [|split]]]; intros r Hr; destruct r as [|[|[|r]]]; try lia; cbn; unfold mzero; ring.
Qed.
Lemma F_out Q w a i l : (15 <= i)%nat -> cpi_F Q w a i l = 0.
Proof.
  intros H. unfold cpi_F, put3, set_block.
  repeat match goal with |- context [(i <? ?k)%nat] => replace (i <? k)%nat with false by (symmetry; apply Nat.ltb_ge; lia) end.
  rewrite !andb_false_r. reflexivity.
Qed.
Lemma nil4 Q a X : it (fun X => mmul 15 (cpi_F Q v3zero a) X) 4 X = mzero.
Proof.
  apply mext. intros i j. set (L := fun X => mmul 15 (cpi_F Q v3zero a) X).
  assert (Z3 : forall Y r, (r < 3)%nat -> L Y (3 + r)%nat j = 0) by (intros Y r Hr; apply (F_rows Q a Y j); exact Hr).
  assert (Z9 : forall Y r, (r < 3)%nat -> L Y (9 + r)%nat j = 0) by (intros Y r Hr; apply (F_rows Q a Y j); exact Hr).
  assert (Z0 : forall Y r, (r < 3)%nat -> L (L Y) r j = 0).
  { intros Y r Hr. unfold L at 1. rewrite (proj1 (F_rows Q a (L Y) j) r Hr), Z3 by exact Hr. ring. }
  assert (Z6 : forall Y r, (r < 3)%nat -> L (L (L Y)) (6 + r)%nat j = 0).
  { intros Y r Hr. unfold L at 1. rewrite (proj1 (proj2 (proj2 (F_rows Q a (L (L Y)) j))) r Hr). rewrite !sumn_zero; [ring| |]; intros k Hk; [rewrite Z9 by exact Hk|rewrite Z0 by exact Hk]; ring. }
  unfold mzero. cbn [it]. change (L (L (L (L X))) i j = 0).
  destruct (le_lt_dec 15 i) as [G|G]; [unfold L at 1, mmul; apply sumn_zero; intros l Hl; rewrite F_out by exact G; ring|].
  destruct (le_lt_dec 12 i) as [G2|G2].
  { replace i with (12 + (i - 12))%nat by lia. unfold L at 1. rewrite (proj2 (proj2 (proj2 (proj2 (F_rows Q a (L (L (L X))) j)))) (i - 12)%nat) by lia. apply Z6. lia. }
  destruct (le_lt_dec 9 i); [replace i with (9 + (i - 9))%nat by lia; apply Z9; lia|].
  destruct (le_lt_dec 6 i); [replace i with (6 + (i - 6))%nat by lia; apply Z6; lia|].
  destruct (le_lt_dec 3 i); [replace i with (3 + (i - 3))%nat by lia; apply Z3; lia|apply Z0; lia].
Qed.
Lemma nil7 Q a X : it (lin_part (cpi_F Q v3zero a)) 7 X = mzero.
Proof. apply lin7. intros Y. apply nil4. Qed.

Lemma lin_add F X Y c : lin_part F (madd X (mscal c Y)) = madd (lin_part F X) (mscal c (lin_part F Y)).
Proof.
  apply mext. intros i j. unfold lin_part, madd, mscal, mmul. rewrite !Rmult_plus_distr_l, <- !sumn_scal, <- !sumn_plus.
  apply sumn_ext. intros l Hl. unfold mtr. ring.
Qed.
Lemma lin_sym F X : sym 15 X -> sym 15 (lin_part F X).
Proof.
  intros H i j Hi Hj. unfold mtr, lin_part. rewrite (lin_tr F X i j), <- (lin_tr F X j i) by assumption. ring.
Qed.
Lemma rate_lin F G Qc P X c : cov_rate F G Qc (madd P (mscal c X)) = madd (cov_rate F G Qc P) (mscal c (lin_part F X)).
Proof.
  apply mext. intros i j. pose proof (f_equal (fun M => M i j) (lin_add F P X c)) as E. unfold lin_part, madd, mscal in E. unfold cov_rate, madd, mscal, lin_part.
  cbv beta in E. rewrite E. ring.
Qed.

Section Still.
Variables (Q : m3) (a : v3) (Qc P : mat).
Hypothesis SQ : sym 12 Qc.
Hypothesis SP : sym 15 P.
Let F := cpi_F Q v3zero a.
Let G := cpi_G Q.
Definition term (k : nat) : mat := it (lin_part F) k (cov_rate F G Qc P).
Lemma term_S k : term (S k) = lin_part F (term k). Proof. reflexivity. Qed.
Lemma term_sym k : sym 15 (term k).
Proof. induction k as [|k IH]; [apply cov_rate_sym; assumption|apply lin_sym, IH]. Qed.
(** the exponential series, which ends *)
Definition series (t : R) : mat :=
  madd (madd (madd (madd (madd (madd (madd P (mscal t (term 0))) (mscal (t ^ 2 / 2) (term 1))) (mscal (t ^ 3 / 6) (term 2))) (mscal (t ^ 4 / 24) (term 3)))
    (mscal (t ^ 5 / 120) (term 4))) (mscal (t ^ 6 / 720) (term 5))) (mscal (t ^ 7 / 5040) (term 6)).
Lemma series_0 : series 0 = P.
Proof. apply mext. intros i j. unfold series, madd, mscal. field. Qed.
Lemma series_rate t i j : cov_rate F G Qc (series t) i j =
  term 0 i j + t * term 1 i j + t ^ 2 / 2 * term 2 i j + t ^ 3 / 6 * term 3 i j + t ^ 4 / 24 * term 4 i j + t ^ 5 / 120 * term 5 i j + t ^ 6 / 720 * term 6 i j.
Proof.
  unfold series. rewrite !rate_lin, <- !term_S. change (cov_rate F G Qc P) with (term 0).
  assert (Z : term 7 = mzero) by apply nil7. rewrite Z. unfold madd, mscal, mzero. ring.
Qed.
Lemma series_true : true_cov Qc (fun _ => F) (fun _ => G) series.
Proof.
  constructor. intros t i j Hi Hj. eapply is_derive_eq; [|symmetry; apply series_rate]. unfold series, madd, mscal.
  generalize (P i j) (term 0 i j) (term 1 i j) (term 2 i j) (term 3 i j) (term 4 i j) (term 5 i j) (term 6 i j). intros p a0 a1 a2 a3 a4 a5 a6.
  auto_derive; [auto|]. field.
Qed.
(** it is the only covariance *)
Lemma lin_ext X Y : meq 15 15 X Y -> meq 15 15 (lin_part F X) (lin_part F Y).
Proof. intros E i j Hi Hj. unfold lin_part. f_equal; apply mmul_ext; intros l Hl; auto. Qed.
Lemma it_ext n X Y : meq 15 15 X Y -> meq 15 15 (it (lin_part F) n X) (it (lin_part F) n Y).
Proof. intros E. induction n as [|n IH]; [exact E|apply lin_ext, IH]. Qed.
Lemma lin_der (D : R -> mat) t D' : mder D t D' -> mder (fun s => lin_part F (D s)) t (lin_part F D').
Proof.
  intros H i j Hi Hj. unfold lin_part. eapply is_derive_eq.
  - apply (is_derive_plus (fun s => mmul 15 F (D s) i j) (fun s => mmul 15 (D s) (mtr F) i j)).
    + apply (mmul_der 15 (fun _ => F) D t mzero D'); intros k Hk; [apply cder|apply H; assumption].
    + apply (mmul_der 15 D (fun _ => mtr F) t D' mzero); intros k Hk; [apply H; assumption|apply cder].
  - assert (Z1 : forall A, mmul 15 mzero A i j = 0) by (intros A; unfold mmul; apply sumn_zero; intros; unfold mzero; ring).
    assert (Z2 : forall A, mmul 15 A mzero i j = 0) by (intros A; unfold mmul; apply sumn_zero; intros; unfold mzero; ring).
    rewrite Z1, Z2. unfold plus; cbn. ring.
Qed.
Lemma it_der n (D : R -> mat) t D' : mder D t D' -> mder (fun s => it (lin_part F) n (D s)) t (it (lin_part F) n D').
Proof. intros H. induction n as [|n IH]; [exact H|]. apply lin_der, IH. Qed.
Lemma flat (f : R -> R) : (forall t, is_derive f t 0) -> forall t, f t = f 0.
Proof.
  intros H t. destruct (MVT_gen f 0 t (fun _ => 0)) as (c & _ & E).
  - intros x _. apply H.
  - intros x _. apply derivable_continuous_pt. eexists. apply is_derive_Reals, H.
  - lra.
Qed.
Lemma diff_zero (D : R -> mat) : (forall t, mder D t (lin_part F (D t))) -> meq 15 15 (D 0) mzero -> forall t, meq 15 15 (D t) mzero.
Proof.
  intros HD H0.
  assert (Z : forall n, meq 15 15 (it (lin_part F) n (D 0)) mzero).
  { induction n as [|n IH]; [exact H0|]. intros i j Hi Hj. cbn [it]. rewrite (lin_ext _ _ IH i j Hi Hj). unfold lin_part, mmul, mzero. rewrite !sumn_zero; [ring| |]; intros; ring. }
  assert (H7 : forall k, (k <= 7)%nat -> forall t, meq 15 15 (it (lin_part F) (7 - k) (D t)) mzero).
  { induction k as [|k IH]; intros Hk t i j Hi Hj; [change (7 - 0)%nat with 7%nat; unfold F; rewrite nil7; reflexivity|].
    rewrite (flat (fun s => it (lin_part F) (7 - S k) (D s) i j)); [apply Z; assumption|]. intros s.
    eapply is_derive_eq; [apply (it_der (7 - S k) D s _ (HD s) i j Hi Hj)|]. rewrite <- it_S. replace (S (7 - S k)) with (7 - k)%nat by lia. apply IH; [lia|assumption|assumption]. }
  intros t. exact (H7 7%nat ltac:(lia) t).
Qed.
Lemma series_only Pt : true_cov Qc (fun _ => F) (fun _ => G) Pt -> meq 15 15 (Pt 0) P -> forall t, meq 15 15 (Pt t) (series t).
Proof.
  intros [H] H0 t i j Hi Hj.
  assert (E : meq 15 15 (madd (Pt t) (mscal (-1) (series t))) mzero).
  { apply (diff_zero (fun s => madd (Pt s) (mscal (-1) (series s)))).
    - intros s u v Hu Hv. unfold madd at 1, mscal at 1. eapply is_derive_eq.
      + apply (is_derive_plus (fun s => Pt s u v) (fun s => -1 * series s u v)); [apply H; assumption|]. apply (is_derive_scal (fun s => series s u v)). apply (tc_rate _ _ _ _ series_true s u v Hu Hv).
      + rewrite lin_add. change (cov_rate F G Qc (Pt s) u v + -1 * cov_rate F G Qc (series s) u v = lin_part F (Pt s) u v + -1 * lin_part F (series s) u v). unfold lin_part, cov_rate. ring.
    - intros u v Hu Hv. unfold madd, mscal, mzero. rewrite H0, series_0 by assumption. ring. }
  specialize (E i j Hi Hj). unfold madd, mscal, mzero in E. lra.
Qed.
Lemma rot_still s : cpi_rot s v3zero = m3id.
Proof.
  unfold cpi_rot. assert (E : cpi_small v3zero = true).
  { unfold cpi_small, v3norm, v3dot. cbn. replace (0 * 0 + 0 * 0 + 0 * 0) with 0 by ring. rewrite sqrt_0. destruct (Rltb_spec 0 (8726646 / 1000000000)); [reflexivity|lra]. }
  rewrite E. apply m3_ext; cbn; ring.
Qed.
Lemma step_still t i j : (i < 15)%nat -> (j < 15)%nat ->
  cpi_cov t Q (m3mul (cpi_mid t v3zero) Q) (m3mul (cpi_rot t v3zero) Q) v3zero a Qc P i j =
  P i j + t * term 0 i j + t ^ 2 / 2 * term 1 i j + t ^ 3 / 6 * term 2 i j + t ^ 4 / 24 * term 3 i j.
Proof.
  intros Hi Hj. rewrite cov_slope by assumption. unfold slope. unfold cpi_mid. rewrite !rot_still.
  assert (M0 : m3mul m3id Q = Q) by (apply m3_ext; cbn; ring). rewrite !M0. cbv zeta.
  assert (PD : forall X, cpi_Pdot Q v3zero a Qc X = cov_rate F G Qc X) by reflexivity.
  rewrite !PD, !rate_lin. change (cov_rate F G Qc P) with (term 0). rewrite !lin_add, <- !term_S.
  pose proof (term_sym 0 i j Hi Hj) as S0. pose proof (term_sym 1 i j Hi Hj) as S1. pose proof (term_sym 2 i j Hi Hj) as S2. pose proof (term_sym 3 i j Hi Hj) as S3.
  unfold mtr in S0, S1, S2, S3. unfold madd, mscal. rewrite <- S0, <- S1, <- S2, <- S3. field.
Qed.
End Still.

Lemma feed_steady c s w a : s <> 0 -> cp_P (cpi_feed c (steady c s w a)) = cpi_cov s (cp_R c) (m3mul (cpi_mid s w) (cp_R c)) (m3mul (cpi_rot s w) (cp_R c)) w a (cp_Qc c) (cp_P c).
Proof.
  intros N. unfold cpi_feed, steady. cbn [rd_t0 rd_t1 rd_w0 rd_w1 rd_a0 rd_a1]. rewrite Rminus_0_r. destruct (Reqb_spec s 0); [contradiction|]. cbn [cp_P].
  rewrite !hat_steady. reflexivity.
Qed.
Lemma poly_lim p q r : is_lim (fun t => t * p + t ^ 2 * q + t ^ 3 * r) 0 0.
Proof.
  apply (is_lim_ext (fun t => t * (p + t * (q + t * r)))); [intros; ring|].
  assert (H : is_lim (fun t => t * (p + t * (q + t * r))) 0 (0 * (p + 0 * (q + 0 * r)))).
  { apply (is_lim_continuity (fun t => t * (p + t * (q + t * r))) 0). apply derivable_continuous_pt. reg. }
  rewrite Rmult_0_l in H. exact H.
Qed.
Theorem still_thm c a : sym 12 (cp_Qc c) -> sym 15 (cp_P c) ->
  exists F G, lin_rates F G (cp_R c) v3zero a /\
    (exists Pt, true_cov (cp_Qc c) (fun _ => F) (fun _ => G) Pt /\ Pt 0 = cp_P c) /\
    forall Pt, true_cov (cp_Qc c) (fun _ => F) (fun _ => G) Pt -> meq 15 15 (Pt 0) (cp_P c) ->
      forall i j, (i < 15)%nat -> (j < 15)%nat ->
      is_lim (fun dt => (cp_P (cpi_feed c (steady c dt v3zero a)) i j - Pt dt i j) / dt ^ 4) 0 0.
Proof.
  intros SQ SP. exists (cpi_F (cp_R c) v3zero a), (cpi_G (cp_R c)). split; [apply F_rates|]. split.
  - exists (series (cp_R c) a (cp_Qc c) (cp_P c)). split; [apply series_true|apply series_0].
  - intros Pt HT H0 i j Hi Hj. set (T := fun k => term (cp_R c) a (cp_Qc c) (cp_P c) k i j).
    apply (is_lim_ext_loc (fun t => t * (- (T 4%nat) / 120) + t ^ 2 * (- (T 5%nat) / 720) + t ^ 3 * (- (T 6%nat) / 5040))); [|apply poly_lim].
    exists (mkposreal 1 Rlt_0_1). intros t _ N. rewrite feed_steady by exact N. rewrite step_still by assumption.
    rewrite (series_only (cp_R c) a (cp_Qc c) (cp_P c) Pt HT H0 t i j Hi Hj). unfold series, madd, mscal, T. field. exact N.
Qed.
