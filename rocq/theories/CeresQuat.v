(** C88: proofs about State_JPLQuatLocal. *)
From Coq Require Import Reals List Bool Arith Lia Lra Psatz.
From Coquelicot Require Import Coquelicot.
From Verif Require Import RBool Outcome GeoModel GeoSpec GeoProofs ExpProofs ExpSeries JacSo3 Calc3 Lin TypesModel ManifoldSpec PropModel CamModel CamSpec HelpModel HelpSpec CeresModel CeresSpec.
Import ListNotations.
Open Scope R_scope.

(** ** quaternions up to sign *)
Lemma raw_neg_l p q : quat_mul_raw (q4neg p) q = q4neg (quat_mul_raw p q).
Proof. apply q4_ext; unfold v3dot; simpl; unfold v3dot; simpl; ring. Qed.
Lemma raw_neg_r p q : quat_mul_raw p (q4neg q) = q4neg (quat_mul_raw p q).
Proof. apply q4_ext; unfold v3dot; simpl; unfold v3dot; simpl; ring. Qed.
Lemma inv_neg q : quat_inv (q4neg q) = q4neg (quat_inv q).
Proof. apply q4_ext; simpl; ring. Qed.
Lemma raw_assoc a b c : quat_mul_raw (quat_mul_raw a b) c = quat_mul_raw a (quat_mul_raw b c).
Proof. apply q4_ext; unfold v3dot; simpl; unfold v3dot; simpl; ring. Qed.
Lemma neg_neg q : q4neg (q4neg q) = q.
Proof. destruct q; unfold q4neg; simpl; f_equal; ring. Qed.
Lemma raw_inv_cancel a b : unit_q b -> quat_mul_raw (quat_mul_raw a b) (quat_inv b) = a.
Proof.
  unfold unit_q. intros U. apply q4_ext; unfold v3dot; simpl; unfold v3dot; simpl.
  - transitivity (qx a * (qx b * qx b + qy b * qy b + qz b * qz b + qw b * qw b)); [ring|rewrite U; ring].
  - transitivity (qy a * (qx b * qx b + qy b * qy b + qz b * qz b + qw b * qw b)); [ring|rewrite U; ring].
  - transitivity (qz a * (qx b * qx b + qy b * qy b + qz b * qz b + qw b * qw b)); [ring|rewrite U; ring].
  - transitivity (qw a * (qx b * qx b + qy b * qy b + qz b * qz b + qw b * qw b)); [ring|rewrite U; ring].
Qed.
(** equal up to sign *)
Definition pm (a b : q4) : Prop := a = b \/ a = q4neg b.
Lemma pm_refl a : pm a a.
Proof. left; reflexivity. Qed.
Lemma pm_trans a b c : pm a b -> pm b c -> pm a c.
Proof. intros [->| ->] [->| ->]; [left|right|right|left]; auto using neg_neg. Qed.
Lemma pm_raw a b c d : pm a b -> pm c d -> pm (quat_mul_raw a c) (quat_mul_raw b d).
Proof. intros [->| ->] [->| ->]; rewrite ?raw_neg_l, ?raw_neg_r, ?neg_neg; [left|right|right|left]; reflexivity. Qed.
Lemma pm_inv a b : pm a b -> pm (quat_inv a) (quat_inv b).
Proof. intros [->| ->]; [left|right]; auto using inv_neg. Qed.
Lemma pm_norm q : unit_q q -> pm (quatnorm q) q.
Proof. intros U. rewrite quatnorm_unit by auto. destruct (Rltb (qw q) 0); [right|left]; reflexivity. Qed.
Lemma pm_mult a b : unit_q a -> unit_q b -> pm (quat_multiply a b) (quat_mul_raw a b).
Proof. intros. apply pm_norm, quat_mul_raw_unit; auto. Qed.
Lemma pm_rot a b : pm a b -> quat_2_Rot a = quat_2_Rot b.
Proof. intros [->| ->]; auto using quat_2_Rot_neg. Qed.
(** the one of the two with positive scalar part *)
Lemma pm_pick a b : unit_q b -> pm a b -> 0 <= qw a -> qw b <> 0 -> a = quatnorm b.
Proof.
  intros U [->| ->] P N; rewrite quatnorm_unit by auto; destruct (Rltb_spec (qw b) 0); simpl in *; auto; lra.
Qed.
Lemma qn_pos q : unit_q q -> 0 <= qw q -> quatnorm q = q.
Proof. intros U P. rewrite quatnorm_unit by auto. destruct (Rltb_spec (qw q) 0); [lra|reflexivity]. Qed.
Lemma mult_unit a b : unit_q a -> unit_q b -> unit_q (quat_multiply a b).
Proof. intros A B. apply quat_multiply_unit; auto. Qed.
Lemma mult_pos a b : unit_q a -> unit_q b -> 0 <= qw (quat_multiply a b).
Proof. intros A B. apply quat_multiply_unit; auto. Qed.

(** ** the turn *)
Definition turnq (d : v3) : q4 :=
  let t := v3norm d in let u := v3scal (sin (t / 2)) (v3div d t) in Q4 (vx u) (vy u) (vz u) (cos (t / 2)).
Lemma v3dot_comp d : vx d * vx d + vy d * vy d + vz d * vz d = v3norm d * v3norm d.
Proof. rewrite v3norm_sq. reflexivity. Qed.
Lemma turnq_unit d : 0 < v3norm d -> unit_q (turnq d).
Proof.
  intros P. unfold unit_q, turnq. cbn -[v3norm sin cos]. set (t := v3norm d) in *.
  replace (sin (t / 2) * (vx d / t) * (sin (t / 2) * (vx d / t)) + sin (t / 2) * (vy d / t) * (sin (t / 2) * (vy d / t)) + sin (t / 2) * (vz d / t) * (sin (t / 2) * (vz d / t)))
    with (sin (t / 2) * sin (t / 2) * ((vx d * vx d + vy d * vy d + vz d * vz d) / (t * t))) by (field; lra).
  rewrite v3dot_comp. fold t. replace (t * t / (t * t)) with 1 by (field; lra).
  pose proof (sin2_cos2 (t / 2)) as H. unfold Rsqr in H. lra.
Qed.
Lemma half_trig t : 2 * sin (t / 2) * cos (t / 2) = sin t /\ 2 * (sin (t / 2) * sin (t / 2)) = 1 - cos t /\ 2 * (cos (t / 2) * cos (t / 2)) - 1 = cos t.
Proof.
  replace (sin t) with (sin (2 * (t / 2))) by (f_equal; field). replace (cos t) with (cos (2 * (t / 2))) by (f_equal; field).
  rewrite sin_2a. pose proof (cos_2a_sin (t / 2)) as A. pose proof (cos_2a_cos (t / 2)) as B. repeat split; try lra.
Qed.
Lemma turnq_rot d : 0 < v3norm d ->
  quat_2_Rot (turnq d) = rodrigues (v3neg d) (sin (v3norm d) / v3norm d) ((1 - cos (v3norm d)) / (v3norm d * v3norm d)).
Proof.
  intros P. pose proof (v3dot_comp d) as Q. destruct (half_trig (v3norm d)) as (A & B & C).
  set (t := v3norm d) in *. unfold turnq. fold t. unfold quat_2_Rot, rodrigues. cbv zeta.
  cbn [qw qx qy qz qvec]. rewrite <- A, <- B. replace (2 * (cos (t / 2) * cos (t / 2)) - 1) with (1 - 2 * (sin (t / 2) * sin (t / 2))) by lra.
  set (s := sin (t / 2)) in *. set (c := cos (t / 2)) in *. clearbody s c.
  assert (D : t <> 0) by lra. set (x := vx d) in *. set (y := vy d) in *. set (z := vz d) in *.
  apply m3_ext; cbn -[v3norm]; fold x y z; try (field; lra).
  - assert (E : x * x = t * t - y * y - z * z) by lra. transitivity (1 - 2 * (s * s) * (y * y + z * z) / (t * t)); [|field; auto].
    replace (1 - 2 * (s * s) * (y * y + z * z) / (t * t)) with (1 - 2 * (s * s) + 2 * (s * s) * (t * t - y * y - z * z) / (t * t)) by (field; auto). rewrite <- E. field; auto.
  - assert (E : y * y = t * t - x * x - z * z) by lra. transitivity (1 - 2 * (s * s) * (x * x + z * z) / (t * t)); [|field; auto].
    replace (1 - 2 * (s * s) * (x * x + z * z) / (t * t)) with (1 - 2 * (s * s) + 2 * (s * s) * (t * t - x * x - z * z) / (t * t)) by (field; auto). rewrite <- E. field; auto.
  - assert (E : z * z = t * t - x * x - y * y) by lra. transitivity (1 - 2 * (s * s) * (x * x + y * y) / (t * t)); [|field; auto].
    replace (1 - 2 * (s * s) * (x * x + y * y) / (t * t)) with (1 - 2 * (s * s) + 2 * (s * s) * (t * t - x * x - y * y) / (t * t)) by (field; auto). rewrite <- E. field; auto.
Qed.
Lemma norm_neg d : v3norm (v3neg d) = v3norm d.
Proof. unfold v3norm, v3dot. f_equal. simpl. ring. Qed.
Lemma rod_mexp w : 0 < v3norm w -> is_mexp (skew_x w) (rodrigues w (sin (v3norm w) / v3norm w) ((1 - cos (v3norm w)) / (v3norm w * v3norm w))).
Proof.
  intros P. assert (G : forall f : m3 -> R, (forall A B, f (m3add A B) = f A + f B) -> (forall c A, f (m3scal c A) = c * f A) ->
     entry_series f (skew_x w) (rodrigues w (sin (v3norm w) / v3norm w) ((1 - cos (v3norm w)) / (v3norm w * v3norm w)))).
  { intros f Fa Fs. apply rodrigues_series; auto; lra. }
  repeat split; apply G; intros; reflexivity.
Qed.
Lemma turnq_mexp d : 0 < v3norm d -> is_mexp (skew_x (v3neg d)) (quat_2_Rot (turnq d)).
Proof. intros P. rewrite turnq_rot by auto. pose proof (rod_mexp (v3neg d)) as H. rewrite norm_neg in H. auto. Qed.

Lemma delta_small d : v3norm d < 1 / 10 ^ 8 -> jpl_delta d = small_quat d.
Proof. intros H. unfold jpl_delta, small_quat. cbv zeta. destruct (Rltb_spec (v3norm d) (1 / 10 ^ 8)); [|lra]. f_equal. apply q4_ext; simpl; lra. Qed.
Lemma delta_large d : 1 / 10 ^ 8 <= v3norm d -> jpl_delta d = quatnorm (turnq d).
Proof. intros H. unfold jpl_delta. cbv zeta. destruct (Rltb_spec (v3norm d) (1 / 10 ^ 8)); [lra|]. reflexivity. Qed.
Lemma p8 : 0 < 1 / 10 ^ 8.
Proof. lra. Qed.
Lemma delta_unit d : unit_q (jpl_delta d) /\ 0 <= qw (jpl_delta d).
Proof.
  destruct (Rlt_or_le (v3norm d) (1 / 10 ^ 8)) as [H|H].
  - rewrite delta_small by auto. unfold small_quat. apply quatnorm_is_unit. simpl. nra.
  - rewrite delta_large by auto. pose proof p8. apply quatnorm_is_unit. pose proof (turnq_unit d ltac:(lra)) as U. unfold unit_q in U. lra.
Qed.
Lemma v3zero_norm : v3norm v3zero = 0.
Proof. unfold v3norm, v3dot. simpl. replace (0 * 0 + 0 * 0 + 0 * 0) with 0 by ring. apply sqrt_0. Qed.
Lemma delta_0 : jpl_delta v3zero = Q4 0 0 0 1.
Proof.
  rewrite delta_small by (rewrite v3zero_norm; apply p8). unfold small_quat, quatnorm. simpl.
  destruct (Rltb_spec 1 0); [lra|]. unfold q4norm; simpl. replace (/ 2 * 0 * (/ 2 * 0) + / 2 * 0 * (/ 2 * 0) + / 2 * 0 * (/ 2 * 0) + 1 * 1) with 1 by ring.
  rewrite sqrt_1. unfold q4div; simpl. f_equal; field.
Qed.

Lemma plus_turn q d : unit_q q -> unit_q (jpl_plus q d) /\ 0 <= qw (jpl_plus q d) /\
  (d = v3zero \/ 1 / 10 ^ 8 <= v3norm d -> turned_by d q (jpl_plus q d)) /\
  (v3norm d < 1 / 10 ^ 8 -> quat_2_Rot (jpl_plus q d) = m3mul (cayley d) (quat_2_Rot q)).
Proof.
  intros U. destruct (delta_unit d) as (D1 & D2). unfold jpl_plus. repeat split.
  - apply mult_unit; auto.
  - apply mult_pos; auto.
  - intros H. unfold turned_by. rewrite quat_multiply_rot by auto. exists (quat_2_Rot (jpl_delta d)). split; auto.
    destruct H as [->|H].
    + rewrite delta_0. replace (v3neg v3zero) with v3zero by (apply v3_ext; simpl; ring).
      replace (quat_2_Rot (Q4 0 0 0 1)) with (exp_so3 v3zero).
      * apply exp_so3_is_mexp. left. apply v3zero_norm.
      * unfold exp_so3. rewrite v3zero_norm. destruct (Reqb_spec 0 0); [|lra]. apply m3_ext; simpl; ring.
    + rewrite delta_large by auto. pose proof p8. rewrite quat_2_Rot_quatnorm by (apply turnq_unit; lra). apply turnq_mexp. lra.
  - intros H. rewrite delta_small by auto. apply update_rot. auto.
Qed.

Lemma norm_scal s d : v3norm (v3scal s d) = Rabs s * v3norm d.
Proof.
  unfold v3norm, v3dot. simpl. replace (s * vx d * (s * vx d) + s * vy d * (s * vy d) + s * vz d * (s * vz d)) with (s * s * (vx d * vx d + vy d * vy d + vz d * vz d)) by ring.
  rewrite sqrt_mult; [|apply Rle_0_sqr|pose proof (Rle_0_sqr (vx d)); pose proof (Rle_0_sqr (vy d)); pose proof (Rle_0_sqr (vz d)); unfold Rsqr in *; lra].
  f_equal. rewrite <- (sqrt_Rsqr_abs s). reflexivity.
Qed.
Lemma plus_local q d : locally 0 (fun s => quat_multiply (small_quat (v3scal s d)) q = jpl_plus q (v3scal s d)).
Proof.
  assert (P : 0 < 1 / 10 ^ 8 / (1 + v3norm d)). { pose proof p8. pose proof (sqrt_pos (v3dot d d)) as Q. fold (v3norm d) in Q. apply Rdiv_lt_0_compat; lra. }
  exists (mkposreal _ P). intros s B; unfold jpl_plus. rewrite delta_small; auto.
  change (Rabs (s + - 0) < 1 / 10 ^ 8 / (1 + v3norm d)) in B.
  rewrite Ropp_0, Rplus_0_r in B. rewrite norm_scal.
  pose proof (sqrt_pos (v3dot d d)) as Q. fold (v3norm d) in Q.
  apply Rle_lt_trans with (Rabs s * (1 + v3norm d)); [pose proof (Rabs_pos s); nra|].
  apply Rlt_le_trans with (1 / 10 ^ 8 / (1 + v3norm d) * (1 + v3norm d)); [|right; field; lra].
  apply Rmult_lt_compat_r; [lra|]. exact B.
Qed.
Lemma plus_0 q d : unit_q q -> quat_2_Rot (jpl_plus q (v3scal 0 d)) = quat_2_Rot q.
Proof.
  intros U. destruct (plus_turn q (v3scal 0 d) U) as (_ & _ & _ & H). rewrite H.
  - rewrite cayley_0. apply m3mul_id_l.
  - rewrite norm_scal, Rabs_R0, Rmult_0_l. apply p8.
Qed.
Lemma plus_derive q d : unit_q q ->
  m3_derive (fun s => quat_2_Rot (jpl_plus q (v3scal s d))) 0 (m3mul (m3scal (-1) (skew_x d)) (quat_2_Rot q)).
Proof.
  intros U. eapply (m3_derive_ext_loc (fun s => quat_2_Rot (quat_multiply (small_quat (v3scal s d)) q))).
  - eapply filter_imp; [|exact (plus_local q d)]. intros s ->. reflexivity.
  - apply update_rot_derive. auto.
Qed.

(** ** Minus *)
Lemma rel_quat q d : unit_q q -> 0 < qw (jpl_delta d) -> quat_multiply (jpl_plus q d) (quat_inv q) = jpl_delta d.
Proof.
  intros U P. destruct (delta_unit d) as (D & _). assert (V : unit_q (jpl_plus q d)) by (apply mult_unit; auto).
  pose proof (quat_inv_unit q U) as I.
  assert (E : pm (quat_multiply (jpl_plus q d) (quat_inv q)) (jpl_delta d)).
  { eapply pm_trans; [apply pm_mult; auto|]. apply pm_trans with (quat_mul_raw (quat_mul_raw (jpl_delta d) q) (quat_inv q)); [|rewrite raw_inv_cancel by auto; apply pm_refl].
    apply pm_raw; [|apply pm_refl]. apply pm_mult; auto. }
  rewrite (pm_pick _ _ D E); [apply qn_pos; auto; lra| |lra]. apply mult_pos; auto.
Qed.
Lemma qvec_turnq d : 0 < v3norm d -> 0 <= sin (v3norm d / 2) -> v3norm (qvec (turnq d)) = sin (v3norm d / 2).
Proof.
  intros P S. unfold turnq, qvec. cbn [qx qy qz]. set (t := v3norm d) in *.
  replace (V3 _ _ _) with (v3scal (sin (t / 2)) (v3div d t)) by (apply v3_ext; reflexivity).
  rewrite norm_scal, Rabs_right by lra. replace (v3div d t) with (v3scal (/ t) d) by (apply v3_ext; simpl; field; lra).
  rewrite norm_scal, Rabs_right by (left; apply Rinv_0_lt_compat; lra). fold t. field. lra.
Qed.
Lemma minus_plus q d : unit_q q -> v3norm d < PI -> 1 / 10 ^ 8 <= sin (v3norm d / 2) -> jpl_minus (jpl_plus q d) q = d.
Proof.
  intros U L S. pose proof p8 as E8. set (t := v3norm d) in *.
  assert (T0 : 0 <= t) by (apply sqrt_pos).
  assert (T : 1 / 10 ^ 8 <= t).
  { destruct (Rle_or_lt t 0) as [Z|Z]. { assert (Z' : t = 0) by lra. rewrite Z' in S. unfold Rdiv in S at 2. rewrite Rmult_0_l, sin_0 in S. lra. }
    pose proof (sin_lt_x (t / 2) ltac:(lra)). lra. }
  assert (C : 0 < cos (t / 2)) by (apply cos_gt_0; lra).
  assert (DE : jpl_delta d = turnq d).
  { rewrite delta_large by auto. apply qn_pos; [apply turnq_unit; fold t; lra|]. simpl. fold t. lra. }
  unfold jpl_minus. rewrite rel_quat; auto; [|rewrite DE; simpl; fold t; auto]. rewrite DE, qvec_turnq by (fold t; lra). fold t. cbv zeta.
  destruct (Rltb_spec (sin (t / 2)) (1 / 10 ^ 8)); [lra|].
  assert (A : atan2 (sin (t / 2)) (qw (turnq d)) = t / 2).
  { simpl. fold t. unfold atan2. destruct (Rltb_spec 0 (cos (t / 2))); [|lra].
    change (sin (t / 2) / cos (t / 2)) with (tan (t / 2)). apply atan_tan. lra. }
  rewrite A. apply v3_ext; simpl; fold t; field; lra.
Qed.
Lemma minus_zero q : unit_q q -> jpl_minus q q = v3zero.
Proof.
  intros U. unfold jpl_minus. rewrite quat_inv_mul by auto. cbv zeta. replace (qvec (Q4 0 0 0 1)) with v3zero by reflexivity.
  rewrite v3zero_norm. destruct (Rltb_spec 0 (1 / 10 ^ 8)); [reflexivity|]. pose proof p8. lra.
Qed.
Lemma half_angle n w : n * n + w * w = 1 -> 0 < n -> 0 <= w -> 0 < atan2 n w /\ sin (atan2 n w) = n /\ cos (atan2 n w) = w /\ n <= atan2 n w.
Proof.
  intros E N W. assert (X : 0 < atan2 n w /\ sin (atan2 n w) = n /\ cos (atan2 n w) = w).
  { unfold atan2. destruct (Rltb_spec 0 w) as [P|P].
    - assert (Q : 0 < n / w) by (apply Rdiv_lt_0_compat; auto).
      assert (A : 0 < atan (n / w)) by (rewrite <- atan_0; apply atan_increasing; auto).
      pose proof (atan_bound (n / w)) as [_ B]. split; auto.
      assert (C : 0 < cos (atan (n / w))) by (apply cos_gt_0; lra).
      assert (Tn : sin (atan (n / w)) = n / w * cos (atan (n / w))).
      { rewrite <- (tan_atan (n / w)) at 2. unfold tan. field. lra. }
      pose proof (sin2_cos2 (atan (n / w))) as F. unfold Rsqr in F. rewrite Tn in F.
      set (c := cos (atan (n / w))) in *. assert (CC : c * c = w * w).
      { assert (G : c * c * (n * n + w * w) = w * w). { transitivity (w * w * (n / w * c * (n / w * c) + c * c)); [field; lra|rewrite F; ring]. }
        rewrite E in G. lra. }
      assert (CE : c = w) by nra. split; [rewrite Tn, CE; field; lra|exact CE].
    - assert (w = 0) by lra. subst w. destruct (Rltb_spec 0 0); [lra|]. destruct (Rltb_spec 0 n); [|lra].
      pose proof PI_RGT_0. rewrite sin_PI2, cos_PI2. split; [lra|]. split; [nra|reflexivity]. }
  destruct X as (A & B & C). repeat split; auto. rewrite <- B at 1. left. apply sin_lt_x. auto.
Qed.
Lemma plus_minus x y : unit_q x -> unit_q y ->
  (v3norm (qvec (quat_multiply y (quat_inv x))) < 1 / 10 ^ 8 /\ jpl_minus y x = v3zero) \/
  quat_2_Rot (jpl_plus x (jpl_minus y x)) = quat_2_Rot y.
Proof.
  intros X Y. pose proof (quat_inv_unit x X) as I. unfold jpl_minus.
  pose proof (mult_unit y _ Y I) as RU. pose proof (mult_pos y _ Y I) as RP. set (r := quat_multiply y (quat_inv x)) in *.
  assert (RR : quat_2_Rot r = m3mul (quat_2_Rot y) (m3tr (quat_2_Rot x))). { unfold r. rewrite quat_multiply_rot by auto. rewrite quat_inv_rot. reflexivity. }
  clearbody r. cbv zeta. set (n := v3norm (qvec r)). pose proof p8 as E8.
  destruct (Rltb_spec n (1 / 10 ^ 8)) as [L|L]; [left; auto|right].
  assert (NN : n * n + qw r * qw r = 1). { unfold n. rewrite v3norm_sq. unfold v3dot; simpl. exact RU. }
  assert (N0 : 0 < n) by lra.
  destruct (half_angle n (qw r) NN N0 RP) as (A & B & C & D). set (a := atan2 n (qw r)) in *.
  set (d := v3scal (2 * a) (v3div (qvec r) n)).
  assert (ND : v3norm d = 2 * a).
  { unfold d. replace (v3scal (2 * a) (v3div (qvec r) n)) with (v3scal (2 * a / n) (qvec r)) by (apply v3_ext; simpl; field; lra).
    rewrite norm_scal. fold n. rewrite Rabs_right by (left; apply Rdiv_lt_0_compat; lra). field. lra. }
  assert (TQ : turnq d = r).
  { unfold turnq. rewrite ND. replace (2 * a / 2) with a by field. cbv zeta. rewrite B, C. unfold d. destruct r; apply q4_ext; simpl; try reflexivity; field; split; lra. }
  unfold jpl_plus. rewrite delta_large by (rewrite ND; lra). rewrite TQ, qn_pos by auto.
  rewrite quat_multiply_rot, RR, m3mul_assoc by auto.
  destruct (quat_2_Rot_is_rot x X) as (RX & _). 
  assert (XX : m3mul (m3tr (quat_2_Rot x)) (quat_2_Rot x) = m3id) by apply (quat_2_Rot_is_rot x X).
  rewrite XX. apply m3mul_id_r.
Qed.
(** a turn of a billionth of a radian is lost *)
Definition tiny : v3 := V3 (1 / 10 ^ 9) 0 0.
Lemma tiny_norm : v3norm tiny = 1 / 10 ^ 9.
Proof. unfold v3norm, v3dot, tiny. cbn [vx vy vz]. replace (1 / 10 ^ 9 * (1 / 10 ^ 9) + 0 * 0 + 0 * 0) with (Rsqr (1 / 10 ^ 9)) by (unfold Rsqr; ring). apply sqrt_Rsqr. lra. Qed.
Lemma minus_tiny q : unit_q q -> jpl_minus (jpl_plus q tiny) q = v3zero.
Proof.
  intros U. assert (N : v3norm tiny < 1 / 10 ^ 8) by (rewrite tiny_norm; lra).
  assert (Q : jpl_delta tiny = q4div (Q4 (/ 2 * (1 / 10 ^ 9)) 0 0 1) (q4norm (Q4 (/ 2 * (1 / 10 ^ 9)) 0 0 1))).
  { rewrite delta_small by auto. unfold small_quat, quatnorm, tiny. cbn [qw]. destruct (Rltb_spec 1 0); [lra|]. cbn [vx vy vz]. rewrite Rmult_0_r. reflexivity. }
  assert (M : 1 <= q4norm (Q4 (/ 2 * (1 / 10 ^ 9)) 0 0 1)).
  { unfold q4norm. cbn [qx qy qz qw]. rewrite <- sqrt_1 at 1. apply sqrt_le_1_alt. nra. }
  unfold jpl_minus. rewrite rel_quat; auto.
  - cbv zeta. rewrite Q. set (m := q4norm _) in *. destruct (Rltb_spec (v3norm (qvec (q4div (Q4 (/ 2 * (1 / 10 ^ 9)) 0 0 1) m))) (1 / 10 ^ 8)) as [H|H]; [reflexivity|].
    exfalso. apply (Rlt_not_le (1 / 10 ^ 8) (v3norm (qvec (q4div (Q4 (/ 2 * (1 / 10 ^ 9)) 0 0 1) m)))); [|lra].
    unfold v3norm, v3dot, qvec, q4div. cbn [vx vy vz qx qy qz qw].
    replace (/ 2 * (1 / 10 ^ 9) / m * (/ 2 * (1 / 10 ^ 9) / m) + 0 / m * (0 / m) + 0 / m * (0 / m)) with (Rsqr (/ 2 * (1 / 10 ^ 9) / m)) by (unfold Rsqr; field; lra).
    assert (P : 0 <= / 2 * (1 / 10 ^ 9) / m) by (apply Rcomplements.Rdiv_le_0_compat; lra). rewrite sqrt_Rsqr by auto.
    apply Rle_lt_trans with (/ 2 * (1 / 10 ^ 9)); [|lra]. apply Rmult_le_reg_r with m; [lra|]. unfold Rdiv at 1. rewrite Rmult_assoc, Rinv_l, Rmult_1_r by lra. nra.
  - rewrite Q. set (m := q4norm _) in *. cbn [q4div qw]. apply Rdiv_lt_0_compat; lra.
Qed.
Lemma minus_tiny_refuted : exists q d, unit_q q /\ v3norm d < 1 / 10 ^ 8 /\ jpl_minus (jpl_plus q d) q <> d.
Proof.
  assert (U : unit_q (Q4 0 0 0 1)) by (unfold unit_q; simpl; ring).
  exists (Q4 0 0 0 1), tiny. repeat split; auto; [rewrite tiny_norm; lra|]. rewrite minus_tiny by auto. intros H. apply (f_equal vx) in H. simpl in H. lra.
Qed.
(** PlusJacobian is not the derivative of Plus *)
Lemma plus_jac_refuted : exists q d, unit_q q /\ ~ is_derive (fun s => qx (jpl_plus q (v3scal s d))) 0 (mvec 3 jpl_jac (v3vec d) 0%nat).
Proof.
  assert (U : unit_q (Q4 0 0 0 1)) by (unfold unit_q; simpl; ring).
  exists (Q4 0 0 0 1), (V3 1 0 0). split; auto. intros H.
  assert (D : is_derive (fun s => qx (jpl_plus (Q4 0 0 0 1) (v3scal s (V3 1 0 0)))) 0 (1 / 2)).
  { apply (is_derive_ext_loc (fun s => s / 2 / sqrt (1 + s * s / 4))).
    - eapply filter_imp; [|exact (plus_local (Q4 0 0 0 1) (V3 1 0 0))]. intros s <-.
      assert (N : sqrt (1 + s * s / 4) > 0) by (apply sqrt_lt_R0; nra).
      assert (E : small_quat (v3scal s (V3 1 0 0)) = Q4 (s / 2 / sqrt (1 + s * s / 4)) 0 0 (1 / sqrt (1 + s * s / 4))).
      { unfold small_quat, quatnorm, q4norm. simpl qw. destruct (Rltb_spec 1 0); [lra|]. simpl.
        replace (/ 2 * (s * 1) * (/ 2 * (s * 1)) + / 2 * (s * 0) * (/ 2 * (s * 0)) + / 2 * (s * 0) * (/ 2 * (s * 0)) + 1 * 1) with (1 + s * s / 4) by field.
        unfold q4div; simpl. f_equal; field; lra. }
      rewrite E. unfold quat_multiply. replace (quat_mul_raw _ _) with (Q4 (s / 2 / sqrt (1 + s * s / 4)) 0 0 (1 / sqrt (1 + s * s / 4))) by (apply q4_ext; unfold v3dot; simpl; unfold v3dot; simpl; ring).
      rewrite qn_pos; [reflexivity| |simpl; left; apply Rdiv_lt_0_compat; lra].
      unfold unit_q; simpl. pose proof (sqrt_sqrt (1 + s * s / 4) ltac:(nra)) as SS. set (k := sqrt _) in *.
      replace (s / 2 / k * (s / 2 / k) + 0 * 0 + 0 * 0 + 1 / k * (1 / k)) with ((1 + s * s / 4) / (k * k)) by (field; lra). rewrite SS. field. nra.
    - auto_derive; replace (1 + 0 * 0 * / 4) with 1 by field; [repeat split; try lra; rewrite sqrt_1; lra|]. rewrite sqrt_1. field. }
  pose proof (is_derive_unique _ _ _ H) as A. rewrite (is_derive_unique _ _ _ D) in A. unfold mvec, jpl_jac in A. simpl in A. lra.
Qed.
