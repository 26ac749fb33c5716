(** C90: proofs about Factor_ImuCPIv1. *)
From Coq Require Import Reals List Bool Arith Lia Lra Psatz.
From Coquelicot Require Import Coquelicot.
From Verif Require Import RBool Outcome GeoModel GeoSpec GeoProofs ExpSeries JacSo3 Calc3 Lin TypesModel ManifoldSpec PropModel CamModel CamSpec HelpModel HelpSpec HelpAsm HelpRep HelpGeo CeresModel CeresSpec CeresQuat CeresImg.
Import ListNotations.
Open Scope R_scope.

(** ** derivatives of quaternions *)
Lemma der_ext (f g : R -> R) (x l : R) : (forall t : R, f t = g t) -> is_derive f x l -> is_derive g x l.
Proof. intros H. apply is_derive_ext. exact H. Qed.
Definition q4_derive (f : R -> q4) (x : R) (D : q4) : Prop :=
  is_derive (fun t => qx (f t)) x (qx D) /\ is_derive (fun t => qy (f t)) x (qy D) /\ is_derive (fun t => qz (f t)) x (qz D) /\ is_derive (fun t => qw (f t)) x (qw D).
Lemma q4d_eq f x D D' : q4_derive f x D -> D = D' -> q4_derive f x D'.
Proof. intros H <-; exact H. Qed.
Lemma q4d_const c x : q4_derive (fun _ => c) x (Q4 0 0 0 0).
Proof. split; [|split; [|split]]; apply der_const. Qed.
Definition q4add a b := Q4 (qx a + qx b) (qy a + qy b) (qz a + qz b) (qw a + qw b).
Definition q4sc c a := Q4 (c * qx a) (c * qy a) (c * qz a) (c * qw a).
Lemma q4d_raw f g x a b : q4_derive f x a -> q4_derive g x b ->
  q4_derive (fun t => quat_mul_raw (f t) (g t)) x (q4add (quat_mul_raw a (g x)) (quat_mul_raw (f x) b)).
Proof.
  intros (A1 & A2 & A3 & A4) (B1 & B2 & B3 & B4). unfold q4_derive, quat_mul_raw, v3dot. cbn [qx qy qz qw qvec v3add v3scal m3v m3sub m3scal m3id skew_x vx vy vz m00 m01 m02 m10 m11 m12 m20 m21 m22 q4add].
  split; [|split; [|split]].
  - apply (der_ext (fun t => qw (f t) * qx (g t) + qz (f t) * qy (g t) - qy (f t) * qz (g t) + qw (g t) * qx (f t))); [intros; ring|].
    eapply is_derive_eq; [apply der_plus; [apply der_minus; [apply der_plus|]|]; apply der_mult; eassumption|cbv beta; ring].
  - apply (der_ext (fun t => qw (f t) * qy (g t) - qz (f t) * qx (g t) + qx (f t) * qz (g t) + qw (g t) * qy (f t))); [intros; ring|].
    eapply is_derive_eq; [apply der_plus; [apply der_plus; [apply der_minus|]|]; apply der_mult; eassumption|cbv beta; ring].
  - apply (der_ext (fun t => qw (f t) * qz (g t) + qy (f t) * qx (g t) - qx (f t) * qy (g t) + qw (g t) * qz (f t))); [intros; ring|].
    eapply is_derive_eq; [apply der_plus; [apply der_minus; [apply der_plus|]|]; apply der_mult; eassumption|cbv beta; ring].
  - apply (der_ext (fun t => qw (f t) * qw (g t) - qx (f t) * qx (g t) - qy (f t) * qy (g t) - qz (f t) * qz (g t))); [intros; ring|].
    eapply is_derive_eq; [apply der_minus; [apply der_minus; [apply der_minus|]|]; apply der_mult; eassumption|cbv beta; ring].
Qed.
Lemma q4d_inv f x a : q4_derive f x a -> q4_derive (fun t => quat_inv (f t)) x (quat_inv a).
Proof. intros (A & B & C & D). split; [|split; [|split]]; cbn; [apply der_opp|apply der_opp|apply der_opp|]; assumption. Qed.

(** ** the small-angle quaternion *)
Lemma small_eq d : small_quat d = Q4 (vx d / 2 / sqrt (1 + v3dot d d / 4)) (vy d / 2 / sqrt (1 + v3dot d d / 4)) (vz d / 2 / sqrt (1 + v3dot d d / 4)) (1 / sqrt (1 + v3dot d d / 4)).
Proof.
  unfold small_quat, quatnorm. cbn [qw]. destruct (Rltb_spec 1 0); [lra|]. unfold q4norm, q4div, v3dot. cbn [qx qy qz qw].
  replace (/ 2 * vx d * (/ 2 * vx d) + / 2 * vy d * (/ 2 * vy d) + / 2 * vz d * (/ 2 * vz d) + 1 * 1) with (1 + (vx d * vx d + vy d * vy d + vz d * vz d) / 4) by field.
  assert (0 < sqrt (1 + (vx d * vx d + vy d * vy d + vz d * vz d) / 4)) by (apply sqrt_lt_R0; nra).
  f_equal; field; lra.
Qed.
Lemma small_unit d : unit_q (small_quat d) /\ 0 < qw (small_quat d).
Proof.
  split; [apply quatnorm_is_unit; simpl; nra|]. rewrite small_eq. cbn [qw]. apply Rdiv_lt_0_compat; [lra|]. apply sqrt_lt_R0. unfold v3dot. nra.
Qed.
Lemma small_0 d : small_quat (v3scal 0 d) = Q4 0 0 0 1.
Proof. replace (v3scal 0 d) with v3zero by (apply v3_ext; simpl; ring). rewrite <- delta_small, delta_0; auto. rewrite v3zero_norm. apply p8. Qed.
Lemma small_derive d : q4_derive (fun s => small_quat (v3scal s d)) 0 (Q4 (vx d / 2) (vy d / 2) (vz d / 2) 0).
Proof.
  set (k := v3dot d d / 4).
  assert (E : forall s, 1 + v3dot (v3scal s d) (v3scal s d) / 4 = 1 + s * s * k) by (intros; unfold k, v3dot; simpl; field).
  assert (C : forall a, is_derive (fun s => s * a / 2 / sqrt (1 + s * s * k)) 0 (a / 2)).
  { intros a. auto_derive; replace (1 + 0 * 0 * k) with 1 by ring; [repeat split; try lra; rewrite sqrt_1; lra|]. rewrite sqrt_1. field. }
  assert (W : is_derive (fun s => 1 / sqrt (1 + s * s * k)) 0 0).
  { auto_derive; replace (1 + 0 * 0 * k) with 1 by ring; [repeat split; try lra; rewrite sqrt_1; lra|]. rewrite sqrt_1. field. }
  unfold q4_derive. cbn [qx qy qz qw]. split; [|split; [|split]].
  - apply (der_ext (fun s => s * vx d / 2 / sqrt (1 + s * s * k))); [|apply C]. intros s. rewrite small_eq. cbn [qx]. rewrite E. reflexivity.
  - apply (der_ext (fun s => s * vy d / 2 / sqrt (1 + s * s * k))); [|apply C]. intros s. rewrite small_eq. cbn [qy]. rewrite E. reflexivity.
  - apply (der_ext (fun s => s * vz d / 2 / sqrt (1 + s * s * k))); [|apply C]. intros s. rewrite small_eq. cbn [qz]. rewrite E. reflexivity.
  - apply (der_ext (fun s => 1 / sqrt (1 + s * s * k))); [|apply W]. intros s. rewrite small_eq. cbn [qw]. rewrite E. reflexivity.
Qed.
Lemma qb_small f x : imu_qb f x = small_quat (m3v (cf_Jq f) (v3sub (cl_bg x) (cf_bg f))).
Proof.
  unfold imu_qb, small_quat, quatnorm, q4divn. cbv zeta. cbn [qw]. destruct (Rltb_spec 1 0); [lra|].
  replace (Q4 _ _ _ 1) with (Q4 (/ 2 * vx (m3v (cf_Jq f) (v3sub (cl_bg x) (cf_bg f)))) (/ 2 * vy (m3v (cf_Jq f) (v3sub (cl_bg x) (cf_bg f)))) (/ 2 * vz (m3v (cf_Jq f) (v3sub (cl_bg x) (cf_bg f)))) 1); [reflexivity|].
  apply q4_ext; cbn; try lra; field.
Qed.

(** ** the product of the residual quaternion without sign changes *)
Definition qtotal (q2 q1 qb c : q4) : q4 := quat_mul_raw (quat_mul_raw (quat_mul_raw q2 (quat_inv q1)) (quat_inv qb)) c.
Lemma qp_total f x y : unit_q (cl_q x) -> unit_q (cl_q y) -> unit_q (cf_q f) ->
  pm (imu_qp f x y) (qtotal (cl_q y) (cl_q x) (cf_q f) (imu_qb f x)) /\ unit_q (imu_qp f x y) /\ 0 <= qw (imu_qp f x y).
Proof.
  intros X Y B. pose proof (quat_inv_unit _ X) as IX. pose proof (quat_inv_unit _ B) as IB.
  assert (QB : unit_q (imu_qb f x)) by (rewrite qb_small; apply small_unit).
  assert (A1 : unit_q (imu_q12 x y)) by (apply mult_unit; auto). assert (A2 : unit_q (imu_qm f x y)) by (apply mult_unit; auto).
  split; [|split; [apply mult_unit; auto|apply mult_pos; auto]].
  unfold imu_qp, qtotal. eapply pm_trans; [apply pm_mult; auto|]. apply pm_raw; [|apply pm_refl].
  unfold imu_qm. eapply pm_trans; [apply pm_mult; auto|]. apply pm_raw; [|apply pm_refl]. apply pm_mult; auto.
Qed.
Lemma total_unit q2 q1 qb c : unit_q q2 -> unit_q q1 -> unit_q qb -> unit_q c -> unit_q (qtotal q2 q1 qb c).
Proof. intros. unfold qtotal. repeat (apply quat_mul_raw_unit; auto using quat_inv_unit). Qed.
Lemma total_pm a b c e a' b' : pm a a' -> pm b b' -> pm (qtotal a b c e) (qtotal a' b' c e).
Proof. intros. unfold qtotal. repeat (apply pm_raw; auto using pm_refl, pm_inv). Qed.
Lemma pm_sc a b : pm a b -> exists s, s * s = 1 /\ a = q4sc s b.
Proof. intros [->| ->]; [exists 1|exists (-1)]; (split; [ring|apply q4_ext; cbn; ring]). Qed.
Lemma sign_local (T g : R -> q4) D : q4_derive T 0 D -> qw (T 0) <> 0 ->
  locally 0 (fun s => pm (g s) (T s) /\ 0 <= qw (g s)) ->
  exists o, o * o = 1 /\ 0 < o * qw (T 0) /\ g 0 = q4sc o (T 0) /\ q4_derive g 0 (q4sc o D).
Proof.
  intros (A & B & C & W) N L. set (o := if Rltb (qw (T 0)) 0 then -1 else 1).
  assert (OO : o * o = 1) by (unfold o; destruct (Rltb _ _); ring).
  assert (OP : 0 < o * qw (T 0)) by (unfold o; destruct (Rltb_spec (qw (T 0)) 0); lra).
  assert (LP : locally 0 (fun s => 0 < o * qw (T s))).
  { assert (CT : continuous (fun s => o * qw (T s)) 0).
    { apply (ex_derive_continuous (fun s => o * qw (T s))). exists (0 * qw (T 0) + o * qw D). apply (der_mult (fun _ => o) (fun s => qw (T s))); [apply der_const|exact W]. }
    apply (CT (fun v => 0 < v)). exact (open_gt 0 _ OP). }
  assert (E : forall s, pm (g s) (T s) -> 0 <= qw (g s) -> 0 < o * qw (T s) -> g s = q4sc o (T s)).
  { intros s [H|H] P Q; rewrite H in P |- *.
    - assert (o = 1). { unfold o in *. destruct (Rltb (qw (T 0)) 0); [exfalso|reflexivity]. lra. } rewrite H0. apply q4_ext; cbn; ring.
    - assert (o = -1). { unfold o in *. destruct (Rltb (qw (T 0)) 0); [reflexivity|exfalso]. simpl in P. lra. } rewrite H0. apply q4_ext; cbn; ring. }
  assert (LE : locally 0 (fun s => g s = q4sc o (T s))).
  { generalize (filter_and _ _ L LP). apply filter_imp. intros s ((P1 & P2) & P3). apply E; auto. }
  exists o. repeat (split; [assumption|]). split; [exact (locally_singleton _ _ LE)|].
  unfold q4_derive. cbn [q4sc qx qy qz qw].
  split; [|split; [|split]].
  - apply (is_derive_ext_loc (fun s => o * qx (T s))). { generalize LE. apply filter_imp. intros s ->. reflexivity. }
    eapply is_derive_eq; [apply (der_mult (fun _ => o) (fun s => qx (T s))); [apply der_const|exact A]|cbv beta; ring].
  - apply (is_derive_ext_loc (fun s => o * qy (T s))). { generalize LE. apply filter_imp. intros s ->. reflexivity. }
    eapply is_derive_eq; [apply (der_mult (fun _ => o) (fun s => qy (T s))); [apply der_const|exact B]|cbv beta; ring].
  - apply (is_derive_ext_loc (fun s => o * qz (T s))). { generalize LE. apply filter_imp. intros s ->. reflexivity. }
    eapply is_derive_eq; [apply (der_mult (fun _ => o) (fun s => qz (T s))); [apply der_const|exact C]|cbv beta; ring].
  - apply (is_derive_ext_loc (fun s => o * qw (T s))). { generalize LE. apply filter_imp. intros s ->. reflexivity. }
    eapply is_derive_eq; [apply (der_mult (fun _ => o) (fun s => qw (T s))); [apply der_const|exact W]|cbv beta; ring].
Qed.

Definition pure (d : v3) : q4 := Q4 (vx d) (vy d) (vz d) 0.
Definition qid : q4 := Q4 0 0 0 1.
Lemma inv_raw a b : quat_inv (quat_mul_raw a b) = quat_mul_raw (quat_inv b) (quat_inv a).
Proof. apply q4_ext; unfold v3dot; cbn; unfold v3dot; cbn; ring. Qed.
Lemma raw_id_l a : quat_mul_raw qid a = a.
Proof. apply q4_ext; unfold v3dot; cbn; unfold v3dot; cbn; ring. Qed.
Lemma raw_id_r a : quat_mul_raw a qid = a.
Proof. apply q4_ext; unfold v3dot; cbn; unfold v3dot; cbn; ring. Qed.
Lemma raw_0_l a : quat_mul_raw (Q4 0 0 0 0) a = Q4 0 0 0 0.
Proof. apply q4_ext; unfold v3dot; cbn; unfold v3dot; cbn; ring. Qed.
Lemma raw_0_r a : quat_mul_raw a (Q4 0 0 0 0) = Q4 0 0 0 0.
Proof. apply q4_ext; unfold v3dot; cbn; unfold v3dot; cbn; ring. Qed.
Lemma add_0_l a : q4add (Q4 0 0 0 0) a = a.
Proof. destruct a; apply q4_ext; cbn; ring. Qed.
Lemma add_0_r a : q4add a (Q4 0 0 0 0) = a.
Proof. destruct a; apply q4_ext; cbn; ring. Qed.
Lemma raw_add_l a b c : quat_mul_raw (q4add a b) c = q4add (quat_mul_raw a c) (quat_mul_raw b c).
Proof. apply q4_ext; unfold v3dot; cbn; unfold v3dot; cbn; ring. Qed.
Lemma raw_sc_l o a b : quat_mul_raw (q4sc o a) b = q4sc o (quat_mul_raw a b).
Proof. apply q4_ext; unfold v3dot; cbn; unfold v3dot; cbn; ring. Qed.
Lemma raw_sc_r o a b : quat_mul_raw a (q4sc o b) = q4sc o (quat_mul_raw a b).
Proof. apply q4_ext; unfold v3dot; cbn; unfold v3dot; cbn; ring. Qed.
Lemma sc_sc o p a : q4sc o (q4sc p a) = q4sc (o * p) a.
Proof. apply q4_ext; cbn; ring. Qed.
Lemma sc_add o a b : q4sc o (q4add a b) = q4add (q4sc o a) (q4sc o b).
Proof. apply q4_ext; cbn; ring. Qed.

(** derivative of the product along the motion of Ceres; c moves with rate c' *)
Lemma total_derive q2 q1 qb (c : R -> q4) c' e d : q4_derive c 0 c' ->
  let T0 := qtotal q2 q1 qb (c 0) in let Q12 := quat_mul_raw q2 (quat_inv q1) in
  let T := fun s => qtotal (quat_mul_raw (small_quat (v3scal s e)) q2) (quat_mul_raw (small_quat (v3scal s d)) q1) qb (c s) in
  T 0 = T0 /\ q4_derive T 0 (q4add (q4add (quat_mul_raw (pure (v3scal (/ 2) e)) T0)
      (quat_mul_raw (quat_mul_raw Q12 (pure (v3scal (- / 2) d))) (quat_mul_raw (quat_inv qb) (c 0))))
      (quat_mul_raw (quat_mul_raw Q12 (quat_inv qb)) c')).
Proof.
  intros HC. cbv zeta. split. { rewrite !small_0. fold qid. rewrite !raw_id_l. reflexivity. }
  unfold qtotal. eapply q4d_eq.
  - apply q4d_raw; [|exact HC]. apply q4d_raw; [|apply q4d_const]. apply q4d_raw.
    + apply q4d_raw; [apply small_derive|apply q4d_const].
    + apply q4d_inv. apply q4d_raw; [apply small_derive|apply q4d_const].
  - cbv beta. rewrite !small_0. fold qid. rewrite !raw_id_l, !raw_0_r, !add_0_r. f_equal.
    rewrite raw_add_l, raw_add_l. f_equal.
    + rewrite !raw_assoc. f_equal. apply q4_ext; cbn; field.
    + rewrite inv_raw. rewrite !raw_assoc. do 3 f_equal. apply q4_ext; cbn; field.
Qed.

Lemma qb_curve f x d : cl_bg x = cf_bg f \/ cd_bg d = v3zero ->
  q4_derive (fun s => imu_qb f (cmove x d s)) 0 (pure (v3scal (/ 2) (m3v (cf_Jq f) (cd_bg d)))) /\ imu_qb f (cmove x d 0) = imu_qb f x.
Proof.
  intros H. split.
  2: { rewrite !qb_small. do 2 f_equal. cbn [cmove cl_bg]. apply v3_ext; cbn; ring. }
  destruct H as [H|H].
  - assert (E : forall s, imu_qb f (cmove x d s) = small_quat (v3scal s (m3v (cf_Jq f) (cd_bg d)))).
    { intros s. rewrite qb_small. f_equal. cbn [cmove cl_bg]. rewrite H. apply v3_ext; cbn; ring. }
    destruct (small_derive (m3v (cf_Jq f) (cd_bg d))) as (A & B & C & D). unfold q4_derive, pure. cbn [qx qy qz qw v3scal vx vy vz].
    split; [|split; [|split]].
    + eapply is_derive_eq; [eapply der_ext; [|exact A]|cbn; lra]. intros s. rewrite E. reflexivity.
    + eapply is_derive_eq; [eapply der_ext; [|exact B]|cbn; lra]. intros s. rewrite E. reflexivity.
    + eapply is_derive_eq; [eapply der_ext; [|exact C]|cbn; lra]. intros s. rewrite E. reflexivity.
    + eapply is_derive_eq; [eapply der_ext; [|exact D]|cbn; lra]. intros s. rewrite E. reflexivity.
  - rewrite H. assert (E : forall s, imu_qb f (cmove x d s) = imu_qb f x).
    { intros s. rewrite !qb_small. do 2 f_equal. cbn [cmove cl_bg]. rewrite H. apply v3_ext; cbn; ring. }
    unfold q4_derive, pure. cbn [qx qy qz qw v3scal vx vy vz m3v v3zero].
    split; [|split; [|split]].
    + eapply is_derive_eq; [eapply der_ext; [|apply (der_const (qx (imu_qb f x)))]|cbn; ring]. intros s. rewrite E. reflexivity.
    + eapply is_derive_eq; [eapply der_ext; [|apply (der_const (qy (imu_qb f x)))]|cbn; ring]. intros s. rewrite E. reflexivity.
    + eapply is_derive_eq; [eapply der_ext; [|apply (der_const (qz (imu_qb f x)))]|cbn; ring]. intros s. rewrite E. reflexivity.
    + eapply is_derive_eq; [eapply der_ext; [|apply (der_const (qw (imu_qb f x)))]|cbn; ring]. intros s. rewrite E. reflexivity.
Qed.

(** the blocks of the orientation rows *)
Definition blk_th1 (f : cfac) (x y : clone) : m3 :=
  let q12 := imu_q12 x y in let qmeas := quat_multiply (quat_inv (cf_q f)) (imu_qb f x) in
  m3scal (-1) (m3sub (m3mul (m3sub (m3scal (qw q12) m3id) (skew_x (qvec q12))) (m3add (m3scal (qw qmeas) m3id) (skew_x (qvec qmeas)))) (m3outer (qvec q12) (qvec qmeas))).
Definition blk_th2 (f : cfac) (x y : clone) : m3 := m3add (m3scal (qw (imu_qp f x y)) m3id) (skew_x (qvec (imu_qp f x y))).
Definition blk_bg (f : cfac) (x y : clone) : m3 := m3mul (m3sub (m3scal (qw (imu_qm f x y)) m3id) (skew_x (qvec (imu_qm f x y)))) (cf_Jq f).
Lemma qvec_derive f x D : q4_derive f x D -> v3_derive (fun s => v3scal 2 (qvec (f s))) x (v3scal 2 (qvec D)).
Proof.
  intros (A & B & C & _). unfold v3_derive. cbn [v3scal qvec vx vy vz].
  split; [|split]; (eapply is_derive_eq; [apply (der_mult (fun _ => 2)); [apply der_const|eassumption]|cbv beta; ring]).
Qed.
Lemma qp_derive_sg f x y d e sg : sg * sg = 1 -> unit_q (cl_q x) -> unit_q (cl_q y) -> unit_q (cf_q f) -> cl_bg x = cf_bg f \/ cd_bg d = v3zero ->
  0 < sg * cross_w f x y ->
  v3_derive (fun s => v3scal 2 (qvec (imu_qp f (cmove x d s) (cmove y e s)))) 0
    (v3add (v3add (m3v (m3scal sg (blk_th1 f x y)) (cd_q d)) (m3v (blk_bg f x y) (cd_bg d))) (m3v (blk_th2 f x y) (cd_q e))).
Proof.
  intros SG X Y B HB CW. destruct (qb_curve f x d HB) as (C1 & C0).
  pose proof (quat_inv_unit _ X) as IX. pose proof (quat_inv_unit _ B) as IB.
  assert (QB : unit_q (imu_qb f x)) by (rewrite qb_small; apply small_unit).
  assert (P12 : pm (imu_q12 x y) (quat_mul_raw (cl_q y) (quat_inv (cl_q x)))) by (apply pm_mult; auto).
  assert (PM : pm (quat_multiply (quat_inv (cf_q f)) (imu_qb f x)) (quat_mul_raw (quat_inv (cf_q f)) (imu_qb f x))) by (apply pm_mult; auto).
  destruct (pm_sc _ _ P12) as (a & AA & EA). destruct (pm_sc _ _ PM) as (b & BB & EB).
  destruct (total_derive (cl_q y) (cl_q x) (cf_q f) (fun s => imu_qb f (cmove x d s)) _ (cd_q e) (cd_q d) C1) as (T0 & TD). cbv zeta in T0, TD.
  set (T := fun s => qtotal (quat_mul_raw (small_quat (v3scal s (cd_q e))) (cl_q y)) (quat_mul_raw (small_quat (v3scal s (cd_q d))) (cl_q x)) (cf_q f) (imu_qb f (cmove x d s))) in *.
  change (T 0 = qtotal (cl_q y) (cl_q x) (cf_q f) (imu_qb f (cmove x d 0))) in T0. cbv beta in TD. rewrite C0 in T0, TD.
  set (Q12 := quat_mul_raw (cl_q y) (quat_inv (cl_q x))) in *. set (M := quat_mul_raw (quat_inv (cf_q f)) (imu_qb f x)) in *.
  assert (TM : T 0 = quat_mul_raw Q12 M) by (rewrite T0; unfold qtotal, M; fold Q12; apply raw_assoc).
  assert (CE : cross_w f x y = a * b * qw (T 0)).
  { unfold cross_w. rewrite EA, EB, raw_sc_l, raw_sc_r, sc_sc, TM. reflexivity. }
  assert (TN : qw (T 0) <> 0). { intros Z. rewrite CE, Z, !Rmult_0_r in CW. lra. }
  destruct (sign_local T (fun s => imu_qp f (cmove x d s) (cmove y e s)) _ TD TN) as (o & OO & OP & E0 & DD).
  { generalize (filter_and _ _ (plus_local (cl_q x) (cd_q d)) (plus_local (cl_q y) (cd_q e))). apply filter_imp. intros s (S1 & S2).
    assert (UX : unit_q (cl_q (cmove x d s))) by (cbn [cmove cl_q]; apply plus_turn; auto).
    assert (UY : unit_q (cl_q (cmove y e s))) by (cbn [cmove cl_q]; apply plus_turn; auto).
    destruct (qp_total f (cmove x d s) (cmove y e s) UX UY B) as (P & _ & Q). split; auto.
    eapply pm_trans; [exact P|]. unfold T. apply total_pm; cbn [cmove cl_q].
    - rewrite <- S2. apply pm_mult; auto. apply small_unit.
    - rewrite <- S1. apply pm_mult; auto. apply small_unit. }
  assert (OAB : o = sg * (a * b)).
  { assert (S : (sg * (a * b)) * (sg * (a * b)) = 1) by (replace (sg * (a * b) * (sg * (a * b))) with (sg * sg * (a * a * (b * b))) by ring; rewrite SG, AA, BB; ring).
    assert (Z : (o - sg * (a * b)) * (o + sg * (a * b)) = 0) by (replace ((o - sg * (a * b)) * (o + sg * (a * b))) with (o * o - sg * (a * b) * (sg * (a * b))) by ring; rewrite OO, S; ring).
    apply Rmult_integral in Z as [Z|Z]; [lra|]. rewrite CE in CW. assert (sg * (a * b) = - o) by lra.
    replace (sg * (a * b * qw (T 0))) with (sg * (a * b) * qw (T 0)) in CW by ring. rewrite H in CW. lra. }
  eapply v3_derive_eq; [apply qvec_derive; exact DD|].
  rewrite !sc_add. replace (v3scal 2 (qvec (q4add (q4add (q4sc o (quat_mul_raw (pure (v3scal (/ 2) (cd_q e))) (qtotal (cl_q y) (cl_q x) (cf_q f) (imu_qb f x)))) _) _)))
    with (v3add (v3add (v3scal 2 (qvec (q4sc o (quat_mul_raw (quat_mul_raw Q12 (pure (v3scal (- / 2) (cd_q d)))) M))))
                (v3scal 2 (qvec (q4sc o (quat_mul_raw (quat_mul_raw Q12 (quat_inv (cf_q f))) (pure (v3scal (/ 2) (m3v (cf_Jq f) (cd_bg d)))))))))
                (v3scal 2 (qvec (q4sc o (quat_mul_raw (pure (v3scal (/ 2) (cd_q e))) (qtotal (cl_q y) (cl_q x) (cf_q f) (imu_qb f x)))))))
    by (match goal with |- v3add (v3add (v3scal 2 (qvec ?u)) (v3scal 2 (qvec ?v))) (v3scal 2 (qvec ?w)) = _ => generalize u v w end; intros; apply v3_ext; cbn; ring).
  f_equal; [f_equal|].
  - unfold blk_th1. rewrite EA, EB. rewrite OAB. generalize Q12 M (cd_q d). clear. intros q m d. destruct q, m, d. apply v3_ext; unfold v3dot; cbn; unfold v3dot; cbn; field.
  - destruct HB as [HB|HB]; [|rewrite HB; unfold blk_bg; apply v3_ext; unfold v3dot; cbn; unfold v3dot; cbn; ring].
    assert (QI : imu_qb f x = qid).
    { rewrite qb_small, HB. replace (m3v (cf_Jq f) (v3sub (cf_bg f) (cf_bg f))) with (v3scal 0 v3zero) by (apply v3_ext; cbn; ring). apply small_0. }
    assert (K : quat_mul_raw Q12 (quat_inv (cf_q f)) = T 0). { rewrite TM. unfold M. rewrite QI, raw_id_r. reflexivity. }
    assert (QM : imu_qm f x y = q4sc o (T 0)).
    { assert (U12 : unit_q (imu_q12 x y)) by (apply mult_unit; auto).
      assert (PQ : pm (imu_qm f x y) (T 0)). { unfold imu_qm. eapply pm_trans; [apply pm_mult; auto|]. rewrite <- K. apply pm_raw; auto using pm_refl. }
      assert (PP : 0 <= qw (imu_qm f x y)) by (apply mult_pos; auto).
      destruct (pm_sc _ _ PQ) as (c & CC & EC). rewrite EC. f_equal.
      assert (Z : (o - c) * (o + c) = 0) by (replace ((o - c) * (o + c)) with (o * o - c * c) by ring; rewrite OO, CC; ring).
      apply Rmult_integral in Z as [Z|Z]; [lra|]. rewrite EC in PP. change (0 <= c * qw (T 0)) in PP. assert (c = - o) by lra. rewrite H in PP. lra. }
    rewrite K. unfold blk_bg. rewrite QM, m3v_mul. generalize (T 0) (m3v (cf_Jq f) (cd_bg d)). clear. intros q d. destruct q, d. apply v3_ext; unfold v3dot; cbn; unfold v3dot; cbn; field.
  - unfold blk_th2. assert (Q0 : imu_qp f x y = q4sc o (qtotal (cl_q y) (cl_q x) (cf_q f) (imu_qb f x))).
    { rewrite <- T0. destruct (qp_total f x y X Y B) as (PQ & _ & PP). rewrite <- T0 in PQ.
      destruct (pm_sc _ _ PQ) as (c & CC & EC). rewrite EC. f_equal.
      assert (Z : (o - c) * (o + c) = 0) by (replace ((o - c) * (o + c)) with (o * o - c * c) by ring; rewrite OO, CC; ring).
      apply Rmult_integral in Z as [Z|Z]; [lra|]. rewrite EC in PP. change (0 <= c * qw (T 0)) in PP. assert (c = - o) by lra. rewrite H in PP. lra. }
    rewrite Q0. generalize (qtotal (cl_q y) (cl_q x) (cf_q f) (imu_qb f x)) (cd_q e). clear. intros q d. destruct q, d. apply v3_ext; unfold v3dot; cbn; unfold v3dot; cbn; field.
Qed.
Lemma qp_derive f x y d e : unit_q (cl_q x) -> unit_q (cl_q y) -> unit_q (cf_q f) -> cl_bg x = cf_bg f \/ cd_bg d = v3zero ->
  0 < cross_w f x y ->
  v3_derive (fun s => v3scal 2 (qvec (imu_qp f (cmove x d s) (cmove y e s)))) 0
    (v3add (v3add (m3v (blk_th1 f x y) (cd_q d)) (m3v (blk_bg f x y) (cd_bg d))) (m3v (blk_th2 f x y) (cd_q e))).
Proof.
  intros X Y B HB CW. eapply v3_derive_eq; [apply (qp_derive_sg f x y d e 1); auto; lra|].
  do 2 f_equal. generalize (blk_th1 f x y) (cd_q d). intros. apply v3_ext; cbn; ring.
Qed.
