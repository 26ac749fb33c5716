(** exp_so3 against the power series of the matrix exponential. *)
From Coq Require Import Reals Lra Psatz Bool.
From Coquelicot Require Import Coquelicot.
From Verif Require Import RBool GeoModel GeoSpec GeoProofs ExpProofs.
Open Scope R_scope.

(** specification: E = sum_k M^k / k!, entry by entry *)
Fixpoint m3pow (M : m3) (k : nat) : m3 :=
  match k with O => m3id | S k => m3mul M (m3pow M k) end.
Definition entry_series (f : m3 -> R) (M E : m3) : Prop :=
  is_series (fun k => f (m3pow M k) / INR (fact k)) (f E).
Definition is_mexp (M E : m3) : Prop :=
  entry_series m00 M E /\ entry_series m01 M E /\ entry_series m02 M E /\
  entry_series m10 M E /\ entry_series m11 M E /\ entry_series m12 M E /\
  entry_series m20 M E /\ entry_series m21 M E /\ entry_series m22 M E.

Lemma skew_cube w : m3mul (skew_x w) (m3mul (skew_x w) (skew_x w)) = m3scal (- v3dot w w) (skew_x w).
Proof. apply m3_ext; unfold v3dot; simpl; ring. Qed.
Lemma m3mul_scal_r c A B : m3mul A (m3scal c B) = m3scal c (m3mul A B).
Proof. apply m3_ext; simpl; ring. Qed.
Lemma m3scal_scal c d A : m3scal c (m3scal d A) = m3scal (c * d) A.
Proof. apply m3_ext; simpl; ring. Qed.
Lemma m3scal_1 A : m3scal 1 A = A.
Proof. apply m3_ext; simpl; ring. Qed.

Lemma skew_pow w k :
  m3pow (skew_x w) (2 * k + 1) = m3scal ((- v3dot w w) ^ k) (skew_x w) /\
  m3pow (skew_x w) (2 * k + 2) = m3scal ((- v3dot w w) ^ k) (m3mul (skew_x w) (skew_x w)).
Proof.
  induction k as [|k [IH1 IH2]].
  - split; simpl; rewrite ?m3mul_id_r, m3scal_1; reflexivity.
  - assert (A : m3pow (skew_x w) (2 * S k + 1) = m3scal ((- v3dot w w) ^ S k) (skew_x w)).
    { replace (2 * S k + 1)%nat with (S (2 * k + 2)) by lia. cbn [m3pow]. rewrite IH2, m3mul_scal_r.
      rewrite skew_cube, m3scal_scal. f_equal. simpl; ring. }
    split; auto.
    replace (2 * S k + 2)%nat with (S (2 * S k + 1)) by lia. cbn [m3pow].
    rewrite A, m3mul_scal_r. reflexivity.
Qed.

Ltac req := match goal with |- @eq _ ?a ?b => change (@eq R a b) end.

Lemma cos_series t : is_series (fun n => (- (t * t)) ^ n / INR (fact (2 * n))) (cos t).
Proof.
  unfold cos. destruct (exist_cos (Rsqr t)) as [l Hl]. unfold cos_in in Hl.
  apply is_series_Reals. unfold infinite_sum in *. intros e He. destruct (Hl e He) as [N HN].
  exists N. intros n Hn. specialize (HN n Hn).
  replace (sum_f_R0 _ n) with (sum_f_R0 (fun i : nat => cos_n i * Rsqr t ^ i) n); auto.
  apply sum_eq. intros i _. unfold cos_n, Rsqr.
  replace (- (t * t)) with (-1 * (t * t)) by ring. rewrite !Rpow_mult_distr. unfold Rdiv. ring.
Qed.
Lemma sin_series t : t <> 0 -> is_series (fun n => (- (t * t)) ^ n / INR (fact (2 * n + 1))) (sin t / t).
Proof.
  intros Ht. unfold sin. destruct (exist_sin (Rsqr t)) as [l Hl]. unfold sin_in in Hl.
  replace (t * l / t) with l by (field; auto).
  apply is_series_Reals. unfold infinite_sum in *. intros e He. destruct (Hl e He) as [N HN].
  exists N. intros n Hn. specialize (HN n Hn).
  replace (sum_f_R0 _ n) with (sum_f_R0 (fun i : nat => sin_n i * Rsqr t ^ i) n); auto.
  apply sum_eq. intros i _. unfold sin_n, Rsqr.
  replace (- (t * t)) with (-1 * (t * t)) by ring. rewrite !Rpow_mult_distr. unfold Rdiv. ring.
Qed.

Definition deltaR (d : R) (n : nat) : R := match n with O => d | S _ => 0 end.
Lemma is_series_delta d : is_series (deltaR d) d.
Proof.
  assert (E : forall n, sum_f_R0 (deltaR d) n = d).
  { induction n; simpl; auto. rewrite IHn. ring. }
  apply is_series_Reals. intros e He. exists O. intros n _.
  unfold R_dist. rewrite E. replace (d - d) with 0 by ring. rewrite Rabs_R0. exact He.
Qed.

Lemma rodrigues_series w (f : m3 -> R) :
  (forall A B, f (m3add A B) = f A + f B) -> (forall c A, f (m3scal c A) = c * f A) ->
  v3norm w <> 0 ->
  entry_series f (skew_x w)
    (rodrigues w (sin (v3norm w) / v3norm w) ((1 - cos (v3norm w)) / (v3norm w * v3norm w))).
Proof.
  intros Fa Fs Hn. unfold entry_series.
  pose proof (v3norm_sq w) as Sq.
  set (t := v3norm w) in *. set (W := skew_x w).
  set (ka := - f (m3mul W W) / (t * t)).
  assert (P : is_pseries (fun k => f (m3pow W k) / INR (fact k)) 1
     ((cos t * ka + (f m3id - ka)) + 1 * (sin t / t * f W))).
  { apply is_pseries_odd_even.
    - apply is_pseries_R.
      apply is_series_ext with (a := fun n => plus ((- (t * t)) ^ n / INR (fact (2 * n)) * ka)
          (deltaR (f m3id - ka) n)).
      + intros n. rewrite pow1, pow1, Rmult_1_r. destruct n as [|n].
        * simpl. unfold plus; simpl. field.
        * replace (2 * S n)%nat with (2 * n + 2)%nat by lia.
          destruct (skew_pow w n) as [_ E]. fold W in E. rewrite E, Fs. unfold plus; simpl.
          rewrite <- Sq. unfold ka. field. split; [apply INR_fact_neq_0|exact Hn].
      + apply (is_series_plus (fun n => (- (t * t)) ^ n / INR (fact (2 * n)) * ka) (deltaR (f m3id - ka)) (cos t * ka) (f m3id - ka)).
        * apply is_series_scal_r. apply cos_series.
        * apply is_series_delta.
    - apply is_pseries_R.
      apply is_series_ext with (a := fun n => (- (t * t)) ^ n / INR (fact (2 * n + 1)) * f W).
      + intros n. rewrite pow1, pow1, Rmult_1_r.
        destruct (skew_pow w n) as [E _]. fold W in E. rewrite E, Fs. rewrite Sq. req. field.
        apply INR_fact_neq_0.
      + apply is_series_scal_r. apply sin_series; auto. }
  apply is_pseries_R in P.
  replace (f (rodrigues w _ _)) with ((cos t * ka + (f m3id - ka)) + 1 * (sin t / t * f W)).
  - eapply is_series_ext; [|exact P]. intros n. simpl. rewrite pow1. req. ring.
  - unfold rodrigues. fold W.
    replace (m3mul (m3scal ((1 - cos t) / (t * t)) W) W) with (m3scal ((1 - cos t) / (t * t)) (m3mul W W))
      by (apply m3_ext; simpl; ring).
    rewrite !Fa, !Fs. unfold ka. field. exact Hn.
Qed.

Lemma m3pow_zero k : m3pow (skew_x v3zero) (S k) = m3scal 0 m3id.
Proof. apply m3_ext; simpl; ring. Qed.

Lemma exp_so3_is_mexp w : v3norm w = 0 \/ 1 / 10 ^ 7 <= v3norm w -> is_mexp (skew_x w) (exp_so3 w).
Proof.
  intros H. assert (G : forall f : m3 -> R,
     (forall A B, f (m3add A B) = f A + f B) -> (forall c A, f (m3scal c A) = c * f A) ->
     entry_series f (skew_x w) (exp_so3 w)).
  { intros f Fa Fs. rewrite exp_so3_eq by auto. destruct H as [H|H].
    - apply v3norm_zero in H as ->. unfold entry_series.
      apply is_series_ext with (a := deltaR (f m3id)).
      + intros [|n]; [simpl; req; field|]. rewrite m3pow_zero, Fs. req. unfold deltaR. unfold Rdiv; ring.
      + replace (rodrigues v3zero _ _) with m3id by (apply m3_ext; simpl; ring). apply is_series_delta.
    - apply rodrigues_series; auto. assert (0 < 1 / 10 ^ 7) by lra. lra. }
  repeat split; apply G; intros; reflexivity.
Qed.
