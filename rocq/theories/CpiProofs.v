(** C82: the preintegrated means. *)
From Coq Require Import Reals List Bool Arith Lia Lra Psatz.
From Coquelicot Require Import Coquelicot.
From Verif Require Import RBool GeoModel GeoSpec GeoProofs GeoMore ExpProofs JacSo3 Calc3 Lin TypesModel ManifoldSpec ManifoldProofs PropModel PropSpec PropProofs PropAna CpiModel CpiSpec.
Open Scope R_scope.

Definition thr : R := 8726646 / 1000000000.
Lemma small_t w : v3norm w < thr -> cpi_small w = true.
Proof. intros H. unfold cpi_small. fold thr. destruct (Rltb_spec (v3norm w) thr); auto. lra. Qed.
Lemma small_f w : thr <= v3norm w -> cpi_small w = false.
Proof. intros H. unfold cpi_small. fold thr. destruct (Rltb_spec (v3norm w) thr); auto. lra. Qed.
Lemma norm0 : v3norm v3zero = 0.
Proof. unfold v3norm, v3dot; simpl. rewrite !Rmult_0_l, !Rplus_0_l. apply sqrt_0. Qed.
Lemma small_0 : cpi_small v3zero = true.
Proof. apply small_t. rewrite norm0. unfold thr. lra. Qed.
Lemma hat_eq avg b m0 m1 : cpi_hat avg b m0 m1 = unbiased avg b m0 m1.
Proof. unfold cpi_hat, unbiased. destruct avg; apply v3_ext; simpl; lra. Qed.

(** motion without rotation *)
Lemma still_motion a g Rs v p : kinematics v3zero a g Rs v p ->
  forall t, Rs t = Rs 0 /\ v t = v3sub (v3add (v 0) (v3scal t (m3v (m3tr (Rs 0)) a))) (v3scal t g) /\
    p t = v3sub (v3add (v3add (p 0) (v3scal t (v 0))) (v3scal (t ^ 2 / 2) (m3v (m3tr (Rs 0)) a))) (v3scal (/ 2 * t * t) g).
Proof.
  intros HK.
  assert (HR : forall t, Rs t = Rs 0).
  { apply zero_derive_m3. intros t. eapply m3_derive_eq; [apply HK|]. apply m3_ext; simpl; ring. }
  assert (D0 : forall t : R, is_derive (fun t : R => t) t 1) by (intros; auto_derive; auto).
  assert (D1 : forall t : R, is_derive (fun t : R => / 2 * t * t) t t) by (intros; auto_derive; [auto|field]).
  assert (D2 : forall t : R, is_derive (fun t : R => t ^ 2 / 2) t t) by (intros; auto_derive; [auto|field]).
  assert (Hv : forall t, v t = v3sub (v3add (v 0) (v3scal t (m3v (m3tr (Rs 0)) a))) (v3scal t g)).
  { apply (same_derive_v3 _ _ (fun t => v3sub (m3v (m3tr (Rs t)) a) g)).
    - intros t. apply HK.
    - intros t. eapply v3_derive_eq; [apply v3d_sub; [apply v3d_add; [apply v3d_const|apply (v3d_scalf (fun t => t)); [apply D0|apply v3d_const]]|apply (v3d_scalf (fun t => t)); [apply D0|apply v3d_const]]|].
      rewrite (HR t). generalize (m3v (m3tr (Rs 0)) a). intros. apply v3_ext; simpl; ring.
    - generalize (m3v (m3tr (Rs 0)) a). intros. apply v3_ext; simpl; ring. }
  intros t. split; [apply HR|]. split; [apply Hv|]. revert t.
  apply (same_derive_v3 _ _ v).
  - intros t. apply HK.
  - intros t. eapply v3_derive_eq.
    { apply v3d_sub; [apply v3d_add; [apply v3d_add; [apply v3d_const|apply (v3d_scalf (fun t => t)); [apply D0|apply v3d_const]]|apply (v3d_scalf (fun t => t ^ 2 / 2)); [apply D2|apply v3d_const]]|
        apply (v3d_scalf (fun t => / 2 * t * t)); [apply D1|apply v3d_const]]. }
    rewrite (Hv t). generalize (m3v (m3tr (Rs 0)) a). intros. apply v3_ext; simpl; ring.
  - generalize (m3v (m3tr (Rs 0)) a). intros. apply v3_ext; simpl; lra.
Qed.
(** with rotation *)
Lemma turning_motion w a g Rs v p : 0 < v3norm w -> kinematics w a g Rs v p ->
  let k := v3div w (v3norm w) in let n := v3norm w in
  forall t, Rs t = m3mul (flow k n (- t)) (Rs 0) /\ v t = v3sub (v3add (v 0) (m3v (m3mul (m3tr (Rs 0)) (xi1 k n t)) a)) (v3scal t g) /\
    p t = v3sub (v3add (v3add (p 0) (v3scal t (v 0))) (m3v (m3mul (m3tr (Rs 0)) (xi2 k n t)) a)) (v3scal (/ 2 * t * t) g).
Proof.
  intros P HK k nn.
  assert (Kk : v3dot k k = 1) by (apply unit_axis; auto).
  assert (Ek : v3scal nn k = w) by (unfold k; apply v3_ext; simpl; unfold nn; field; lra).
  assert (F1 : forall t, Rs t = m3mul (flow k nn (- t)) (Rs 0)).
  { intros t. apply flow_unique; auto. intros u. rewrite Ek. apply HK. }
  set (Q := Rs 0) in *. assert (Nz : nn <> 0) by (unfold nn; lra).
  assert (FT : forall t, m3tr (Rs t) = m3mul (m3tr Q) (flow k nn t)).
  { intros t. rewrite F1, m3tr_mul, flow_tr, Ropp_involutive. reflexivity. }
  assert (Fv : forall t, v t = v3sub (v3add (v 0) (m3v (m3mul (m3tr Q) (xi1 k nn t)) a)) (v3scal t g)).
  { apply (same_derive_v3 _ _ (fun t => v3sub (m3v (m3tr (Rs t)) a) g)).
    - intros t. apply HK.
    - intros t. assert (D0 : is_derive (fun t : R => t) t 1) by (auto_derive; auto).
      eapply v3_derive_eq.
      { apply v3d_sub; [apply v3d_add; [apply v3d_const|apply v3d_mv; [apply m3d_mul; [apply m3d_const|apply xi1_derive; auto]|apply v3d_const]]|
          apply (v3d_scalf (fun t => t)); [exact D0|apply v3d_const]]. }
      rewrite FT. cbv beta. generalize (flow k nn t) (xi1 k nn t). intros A B. generalize (m3mul (m3tr Q) A). intros C.
      replace (m3mul m3zero B) with m3zero by (apply m3_ext; simpl; ring). apply v3_ext; simpl; ring.
    - rewrite xi1_0 by auto. apply v3_ext; simpl; ring. }
  intros t. split; [apply F1|]. split; [apply Fv|]. revert t.
  apply (same_derive_v3 _ _ v).
  - intros t. apply HK.
  - intros t. assert (D0 : is_derive (fun t : R => t) t 1) by (auto_derive; auto).
    assert (D1 : is_derive (fun t : R => / 2 * t * t) t t) by (auto_derive; [auto|field]).
    eapply v3_derive_eq.
    { apply v3d_sub; [apply v3d_add; [apply v3d_add; [apply v3d_const|apply (v3d_scalf (fun t => t)); [exact D0|apply v3d_const]]|
           apply v3d_mv; [apply m3d_mul; [apply m3d_const|apply xi2_derive; auto]|apply v3d_const]]|
        apply v3d_scalf; [exact D1|apply v3d_const]]. }
    rewrite (Fv t). cbv beta. generalize (xi1 k nn t) (xi2 k nn t). intros A B. generalize (m3mul (m3tr Q) A). intros C.
    replace (m3mul m3zero B) with m3zero by (apply m3_ext; simpl; ring). apply v3_ext; simpl; ring.
  - rewrite xi2_0 by auto. apply v3_ext; simpl; ring.
Qed.

(** the coefficients of the code in the unit axis *)
Lemma skew_scal c w : skew_x (v3scal c w) = m3scal c (skew_x w).
Proof. apply m3_ext; simpl; ring. Qed.
Lemma m3mul_scal2 c d A B : m3mul (m3scal c A) (m3scal d B) = m3scal (c * d) (m3mul A B).
Proof. apply m3_ext; simpl; ring. Qed.
Lemma poly_mul K (a b c d e f : R) : m3mul K (m3mul K K) = m3scal (-1) K ->
  m3mul (m3add (m3add (m3scal a m3id) (m3scal b K)) (m3scal c (m3mul K K))) (m3add (m3add (m3scal d m3id) (m3scal e K)) (m3scal f (m3mul K K))) =
  m3add (m3add (m3scal (a * d) m3id) (m3scal (a * e + b * d - b * f - c * e) K)) (m3scal (a * f + c * d + b * e - c * f) (m3mul K K)).
Proof.
  intros H. assert (H4 : m3mul (m3mul K K) (m3mul K K) = m3scal (-1) (m3mul K K)).
  { rewrite m3mul_assoc, H. apply m3_ext; simpl; ring. }
  assert (H3 : m3mul (m3mul K K) K = m3scal (-1) K) by (rewrite m3mul_assoc; exact H).
  assert (X : forall A B C D E F : m3, m3mul (m3add (m3add A B) C) (m3add (m3add D E) F) =
    m3add (m3add (m3add (m3add (m3mul A D) (m3mul A E)) (m3add (m3mul A F) (m3mul B D))) (m3add (m3add (m3mul B E) (m3mul B F)) (m3add (m3mul C D) (m3mul C E)))) (m3mul C F))
    by (intros; apply m3_ext; simpl; ring).
  rewrite X, !m3mul_scal2, H, H3, H4, !m3mul_id_l, !m3mul_id_r. generalize (m3mul K K). intros K2. apply m3_ext; simpl; ring.
Qed.
Section Fast.
  Variables (w : v3) (dt : R).
  Hypothesis Hn : thr <= v3norm w.
  Let n := v3norm w.
  Let k := v3div w n.
  Lemma np : 0 < n.
  Proof. unfold n, thr in *. lra. Qed.
  Lemma kk1 : v3dot k k = 1.
  Proof. apply unit_axis. apply np. Qed.
  Lemma wx_k : skew_x w = m3scal n (skew_x k).
  Proof. pose proof np. rewrite <- skew_scal. f_equal. unfold k. apply v3_ext; simpl; field; lra. Qed.
  Lemma rot_flow t : cpi_rot t w = flow k n (- t).
  Proof.
    unfold cpi_rot. rewrite small_f by auto. fold n. rewrite wx_k, m3mul_scal2. unfold flow. replace (n * - t) with (- (n * t)) by ring. rewrite sin_neg, cos_neg.
    pose proof np. generalize (m3mul (skew_x k) (skew_x k)) (skew_x k). intros K2 K. generalize (sin (n * t)) (cos (n * t)). intros s c. apply m3_ext; simpl; field; lra.
  Qed.
  Lemma beta_flow : m3mul (flow k n dt) (cpi_beta dt w) = xi1 k n dt.
  Proof.
    unfold cpi_beta, cpi_f3, cpi_f4. rewrite small_f by auto. fold n. rewrite wx_k, m3mul_scal2. pose proof np as P. pose proof (K3 k kk1) as E.
    pose proof (sin2_cos2 (n * dt)) as SC. unfold Rsqr in SC. unfold flow, xi1.
    set (K := skew_x k) in *. set (s := sin (n * dt)) in *. set (c := cos (n * dt)) in *.
    assert (X : forall f, m3scal f (m3scal n K) = m3scal (f * n) K) by (intros; apply m3_ext; simpl; ring).
    assert (Y : forall f, m3scal f (m3scal (n * n) (m3mul K K)) = m3scal (f * (n * n)) (m3mul K K)) by (intros; apply m3_ext; simpl; ring).
    rewrite X, Y. replace (m3add (m3add m3id (m3scal s K)) (m3scal (1 - c) (m3mul K K))) with (m3add (m3add (m3scal 1 m3id) (m3scal s K)) (m3scal (1 - c) (m3mul K K))) by (apply m3_ext; simpl; ring).
    rewrite (poly_mul _ _ _ _ _ _ _ E). 
    assert (C1 : 1 * (- (1 - c) / n ^ 2 * n) + s * dt - s * ((n * dt - s) / n ^ 3 * (n * n)) - (1 - c) * (- (1 - c) / n ^ 2 * n) = (1 - c) / n).
    { field_simplify_eq; [|lra]. replace (s ^ 2) with (1 - c * c) by lra. ring. }
    assert (C2 : 1 * ((n * dt - s) / n ^ 3 * (n * n)) + (1 - c) * dt + s * (- (1 - c) / n ^ 2 * n) - (1 - c) * ((n * dt - s) / n ^ 3 * (n * n)) = dt - s / n).
    { field. lra. }
    rewrite C1, C2. rewrite Rmult_1_l. reflexivity.
  Qed.
  Lemma alpha_flow : m3mul (flow k n dt) (cpi_alpha dt w) = xi2 k n dt.
  Proof.
    unfold cpi_alpha, cpi_f1, cpi_f2. rewrite small_f by auto. fold n. rewrite wx_k, m3mul_scal2. pose proof np as P. pose proof (K3 k kk1) as E.
    pose proof (sin2_cos2 (n * dt)) as SC. unfold Rsqr in SC. unfold flow, xi2.
    set (K := skew_x k) in *. set (s := sin (n * dt)) in *. set (c := cos (n * dt)) in *.
    assert (X : forall f, m3scal f (m3scal n K) = m3scal (f * n) K) by (intros; apply m3_ext; simpl; ring).
    assert (Y : forall f, m3scal f (m3scal (n * n) (m3mul K K)) = m3scal (f * (n * n)) (m3mul K K)) by (intros; apply m3_ext; simpl; ring).
    rewrite X, Y. replace (m3add (m3add m3id (m3scal s K)) (m3scal (1 - c) (m3mul K K))) with (m3add (m3add (m3scal 1 m3id) (m3scal s K)) (m3scal (1 - c) (m3mul K K))) by (apply m3_ext; simpl; ring).
    rewrite (poly_mul _ _ _ _ _ _ _ E).
    f_equal; [f_equal|].
    - f_equal. lra.
    - f_equal. field_simplify_eq; [|lra]. replace (s ^ 2) with (1 - c * c) by lra. ring.
    - f_equal. field_simplify_eq; [|lra]. try replace (s ^ 2) with (1 - c * c) by lra. ring.
  Qed.
  Lemma flow_cancel t : m3mul (flow k n t) (flow k n (- t)) = m3id /\ m3mul (flow k n (- t)) (flow k n t) = m3id.
  Proof.
    assert (X : forall u, m3mul (flow k n u) (flow k n (- u)) = m3id).
    { intros u. pose proof (K3 k kk1) as E. pose proof (sin2_cos2 (n * u)) as SC. unfold Rsqr in SC. unfold flow. replace (n * - u) with (- (n * u)) by ring. rewrite sin_neg, cos_neg.
      set (K := skew_x k) in *. set (s := sin (n * u)) in *. set (c := cos (n * u)) in *.
      assert (Y : forall b d, m3add (m3add m3id (m3scal b K)) (m3scal d (m3mul K K)) = m3add (m3add (m3scal 1 m3id) (m3scal b K)) (m3scal d (m3mul K K))) by (intros; apply m3_ext; simpl; ring).
      rewrite !Y, (poly_mul _ _ _ _ _ _ _ E). 
      replace (1 * - s + s * 1 - s * (1 - c) - (1 - c) * - s) with 0 by ring. replace (1 * (1 - c) + (1 - c) * 1 + s * - s - (1 - c) * (1 - c)) with (1 - (s * s + c * c)) by ring. rewrite SC.
      generalize (m3mul K K). intros. apply m3_ext; simpl; ring. }
    split; [apply X|]. rewrite <- (Ropp_involutive t) at 2. apply X.
  Qed.
End Fast.

(** one piece of motion: where the body is afterwards *)
Lemma piece_motion w a g dt Rs v p : rate_ok w -> kinematics w a g Rs v p ->
  is_rot (cpi_rot dt w) /\ Rs dt = m3mul (cpi_rot dt w) (Rs 0) /\
  v dt = v3sub (v3add (v 0) (m3v (m3mul (m3tr (Rs 0)) (m3mul (m3tr (cpi_rot dt w)) (cpi_beta dt w))) a)) (v3scal dt g) /\
  p dt = v3sub (v3add (v3add (p 0) (v3scal dt (v 0))) (m3v (m3mul (m3tr (Rs 0)) (m3mul (m3tr (cpi_rot dt w)) (cpi_alpha dt w))) a)) (v3scal (/ 2 * dt * dt) g).
Proof.
  intros [->|Hn] HK.
  - destruct (still_motion a g Rs v p HK dt) as (E1 & E2 & E3).
    assert (X : cpi_rot dt v3zero = m3id) by (unfold cpi_rot; rewrite small_0; apply m3_ext; simpl; field).
    assert (B : cpi_beta dt v3zero = m3scal dt m3id) by (unfold cpi_beta, cpi_f3, cpi_f4; rewrite small_0; apply m3_ext; simpl; field).
    assert (A : cpi_alpha dt v3zero = m3scal (dt ^ 2 / 2) m3id) by (unfold cpi_alpha, cpi_f1, cpi_f2; rewrite small_0; apply m3_ext; simpl; field).
    rewrite X, A, B. split; [apply is_rot_id|]. split; [rewrite E1; apply m3_ext; simpl; ring|]. rewrite E2, E3. generalize (Rs 0) (v 0) (p 0). intros. split; apply v3_ext; simpl; field.
  - fold thr in Hn. pose proof (np w Hn) as P. destruct (turning_motion w a g Rs v p P HK dt) as (E1 & E2 & E3).
    rewrite (rot_flow w Hn dt). rewrite flow_tr, Ropp_involutive, (beta_flow w dt Hn), (alpha_flow w dt Hn).
    split; [|auto]. pose proof (kk1 w Hn) as U. pose proof (sin2_cos2 (v3norm w * - dt)) as SC. unfold Rsqr in SC.
    replace (flow (v3div w (v3norm w)) (v3norm w) (- dt)) with (rodrigues (v3div w (v3norm w)) (sin (v3norm w * - dt)) (1 - cos (v3norm w * - dt))) by (unfold rodrigues, flow; apply m3_ext; simpl; ring).
    apply rodrigues_is_rot. rewrite U. lra.
Qed.

(** what the accumulated values mean for a body that started in [x0] and is in [x] *)
Definition meaning (g : v3) (T : R) (x0 x : body) (c : cpi) : Prop :=
  is_rot (cp_R c) /\ bo_R x = m3mul (cp_R c) (bo_R x0) /\
  m3v (bo_R x0) (v3add (v3sub (bo_v x) (bo_v x0)) (v3scal T g)) = cp_be c /\
  m3v (bo_R x0) (v3add (v3sub (v3sub (bo_p x) (bo_p x0)) (v3scal T (bo_v x0))) (v3scal (T ^ 2 / 2) g)) = cp_al c.
Lemma moves_inv g dt w a l x z : moves g ((dt, w, a) :: l) x z ->
  exists Rs v p, kinematics w a g Rs v p /\ x = mkBody (Rs 0) (v 0) (p 0) /\ moves g l (mkBody (Rs dt) (v dt) (p dt)) z.
Proof. intros H. inversion H; subst. eauto 6. Qed.
Lemma feed_meaning g x0 x c r y : is_rot (bo_R x0) -> meaning g (cp_DT c) x0 x c -> (rd_t1 r - rd_t0 r = 0 \/ rate_ok (unbiased (cp_avg c) (cp_bw c) (rd_w0 r) (rd_w1 r))) ->
  moves g (piece (cp_avg c) (cp_bw c) (cp_ba c) r :: nil) x y -> meaning g (cp_DT (cpi_feed c r)) x0 y (cpi_feed c r).
Proof.
  intros HQ (M1 & M2 & M3 & M4) Hr Mv. unfold piece in Mv. apply moves_inv in Mv. destruct Mv as (Rs & v & p & HK & -> & Mz). inversion Mz; subst. cbn [bo_R bo_v bo_p] in *. clear Mz.
  unfold cpi_feed. set (dt := rd_t1 r - rd_t0 r) in *. destruct (Reqb_spec dt 0) as [Z|Z].
  - cbn [cp_DT cp_R cp_be cp_al]. unfold meaning; cbn [cp_R cp_be cp_al bo_R bo_v bo_p]. rewrite Z, Rplus_0_r. auto.
  - destruct Hr as [Hr|Hr]; [contradiction|]. cbv zeta. rewrite !hat_eq. set (w := unbiased (cp_avg c) (cp_bw c) (rd_w0 r) (rd_w1 r)) in *. set (a := unbiased (cp_avg c) (cp_ba c) (rd_a0 r) (rd_a1 r)) in *.
    destruct (piece_motion w a g dt Rs v p Hr HK) as (P1 & P2 & P3 & P4). unfold meaning; cbn [cp_DT cp_R cp_be cp_al bo_R bo_v bo_p].
    split; [apply is_rot_mul; auto|]. split; [rewrite P2, M2, m3mul_assoc; reflexivity|].
    destruct HQ as (Q1 & Q2 & _). set (Q := bo_R x0) in *. set (C := cp_R c) in *. set (Rr := cpi_rot dt w) in *.
    assert (X : forall A : m3, m3v Q (m3v (m3mul (m3tr (Rs 0)) (m3mul (m3tr Rr) A)) a) = m3v (m3mul (m3tr (m3mul Rr C)) A) a).
    { intros A. rewrite M2, !m3tr_mul, <- m3v_mul, !m3mul_assoc, <- (m3mul_assoc Q (m3tr Q)), Q1, m3mul_id_l. reflexivity. }
    rewrite P3, P4. rewrite <- M3, <- M4.
    set (ub := m3v (m3mul (m3tr (Rs 0)) (m3mul (m3tr Rr) (cpi_beta dt w))) a) in *.
    set (ua := m3v (m3mul (m3tr (Rs 0)) (m3mul (m3tr Rr) (cpi_alpha dt w))) a) in *.
    rewrite <- (X (cpi_beta dt w)), <- (X (cpi_alpha dt w)). fold ub ua. clear. generalize (v 0) (p 0) (bo_v x0) (bo_p x0) (cp_DT c). intros v1 p1 v0 p0 T.
    split; apply v3_ext; simpl; field.
Qed.
Lemma run_meaning g x0 l : forall c x y, is_rot (bo_R x0) -> meaning g (cp_DT c) x0 x c -> rates rate_ok (cp_avg c) (cp_bw c) l ->
  moves g (map (piece (cp_avg c) (cp_bw c) (cp_ba c)) l) x y -> meaning g (cp_DT (cpi_run c l)) x0 y (cpi_run c l).
Proof.
  induction l as [|r l IH]; intros c x y HQ M Hr Mv.
  - cbn [map] in Mv. inversion Mv; subst. exact M.
  - cbn [map] in Mv. destruct (piece (cp_avg c) (cp_bw c) (cp_ba c) r) as [[dt w] a] eqn:E1. apply moves_inv in Mv. destruct Mv as (Rs & v & p & HK & -> & Mz). cbn [cpi_run fold_left]. fold (cpi_run (cpi_feed c r) l).
    assert (S1 : meaning g (cp_DT (cpi_feed c r)) x0 (mkBody (Rs dt) (v dt) (p dt)) (cpi_feed c r)).
    { apply (feed_meaning g x0 (mkBody (Rs 0) (v 0) (p 0)) c r); auto; [apply Hr; left; reflexivity|]. rewrite E1. apply (moves_cons g dt w a nil Rs v p); [exact HK|constructor]. }
    assert (K : cp_avg (cpi_feed c r) = cp_avg c /\ cp_bw (cpi_feed c r) = cp_bw c /\ cp_ba (cpi_feed c r) = cp_ba c) by (unfold cpi_feed; destruct (Reqb _ 0); auto).
    destruct K as (K1 & K2 & K3). apply (IH _ _ _ HQ S1); rewrite ?K1, ?K2, ?K3; auto. intros r' Hr'. apply Hr. right. exact Hr'.
Qed.
Lemma run_DT l : forall c, cp_DT (cpi_run c l) = cp_DT c + duration l.
Proof.
  induction l as [|r l IH]; intros c; cbn [cpi_run fold_left duration fold_right]; [lra|]. fold (cpi_run (cpi_feed c r) l) (duration l). rewrite IH.
  unfold cpi_feed. destruct (Reqb _ 0); cbn [cp_DT]; lra.
Qed.
Lemma run_quat l : forall c, (forall q, cp_q c = Some q -> is_rot (cp_R c) -> unit_q q /\ quat_2_Rot q = cp_R c) ->
  forall q, cp_q (cpi_run c l) = Some q -> is_rot (cp_R (cpi_run c l)) -> unit_q q /\ quat_2_Rot q = cp_R (cpi_run c l).
Proof.
  induction l as [|r l IH]; intros c H; [exact H|]. cbn [cpi_run fold_left]. apply IH. unfold cpi_feed. destruct (Reqb _ 0); cbn [cp_q cp_R]; auto.
  intros q E Hr. injection E as <-. destruct (rot_2_quat_spec _ Hr) as (A & _ & B). auto.
Qed.
(** C82 *)
Lemma means_thm avg Qc bw ba g l x y : is_rot (bo_R x) -> rates rate_ok avg bw l -> moves g (map (piece avg bw ba) l) x y ->
  let c := cpi_run (cpi_new avg Qc bw ba) l in let T := duration l in
  cp_DT c = T /\ bo_R y = m3mul (cp_R c) (bo_R x) /\
  bo_v y = v3add (v3sub (bo_v x) (v3scal T g)) (m3v (m3tr (bo_R x)) (cp_be c)) /\
  bo_p y = v3add (v3sub (v3add (bo_p x) (v3scal T (bo_v x))) (v3scal (T ^ 2 / 2) g)) (m3v (m3tr (bo_R x)) (cp_al c)) /\
  (forall q, cp_q c = Some q -> unit_q q /\ quat_2_Rot q = cp_R c).
Proof.
  intros HQ Hr Mv c T.
  assert (ED : cp_DT c = T) by (unfold c, T; rewrite run_DT; cbn [cpi_new cp_DT]; lra).
  assert (M : meaning g (cp_DT c) x y c).
  { apply run_meaning with x; auto. split; [apply is_rot_id|]. cbn [cpi_new cp_R cp_be cp_al cp_DT]. split; [rewrite m3mul_id_l; reflexivity|]. split; apply v3_ext; simpl; field. }
  destruct M as (M1 & M2 & M3 & M4). rewrite ED in M3, M4. split; [exact ED|]. split; [exact M2|]. destruct HQ as (Q1 & Q2 & _).
  assert (X : forall u, m3v (m3tr (bo_R x)) (m3v (bo_R x) u) = u) by (intros; rewrite <- m3v_mul, Q2; apply v3_ext; simpl; ring).
  rewrite <- M3, <- M4, !X. split; [apply v3_ext; simpl; ring|]. split; [apply v3_ext; simpl; ring|].
  intros q Eq. apply (run_quat l (cpi_new avg Qc bw ba)); auto. intros q' E. discriminate.
Qed.
