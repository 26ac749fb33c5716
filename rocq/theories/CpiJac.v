(** C83: the bias Jacobians of the preintegrated means. *)
From Coq Require Import Reals List Bool Arith Lia Lra Psatz.
From Coquelicot Require Import Coquelicot.
From Verif Require Import RBool GeoModel GeoSpec GeoProofs GeoMore ExpProofs JacSo3 Calc3 Lin TypesModel ManifoldSpec ManifoldProofs PropModel PropSpec PropProofs PropAna CpiModel CpiSpec CpiProofs.
Open Scope R_scope.

Lemma skew_derive w s w' : v3_derive w s w' -> m3_derive (fun t => skew_x (w t)) s (skew_x w').
Proof. intros (A & B & C). split9; cbn [skew_x m00 m01 m02 m10 m11 m12 m20 m21 m22]; try apply der_const; try (apply der_opp); auto. Qed.
Lemma derive_cont (f : R -> R) x l : is_derive f x l -> continuous f x.
Proof. intros H. apply (ex_derive_continuous (K:=R_AbsRing) (V:=R_NormedModule)). eexists; exact H. Qed.
Lemma norm_cont w w' : v3_derive w 0 w' -> continuous (fun s => v3norm (w s)) 0.
Proof.
  intros H. unfold v3norm. apply (continuous_comp (fun s => v3dot (w s) (w s)) sqrt); [|apply continuous_sqrt].
  eapply derive_cont. apply d_dot; exact H.
Qed.
Lemma near_fast w w' : v3_derive w 0 w' -> thr < v3norm (w 0) -> locally 0 (fun s => thr <= v3norm (w s)).
Proof.
  intros H Hn. pose proof (norm_cont w w' H) as Ct. assert (O : locally (v3norm (w 0)) (fun y => thr < y)) by (apply open_gt; exact Hn).
  eapply filter_imp; [|exact (Ct _ O)]. intros s Hs. cbv beta in Hs. lra.
Qed.
Lemma near_small w w' : v3_derive w 0 w' -> v3norm (w 0) < thr -> locally 0 (fun s => v3norm (w s) < thr).
Proof.
  intros H Hn. pose proof (norm_cont w w' H) as Ct. assert (O : locally (v3norm (w 0)) (fun y => y < thr)) by (apply open_lt; exact Hn).
  eapply filter_imp; [|exact (Ct _ O)]. intros s Hs. exact Hs.
Qed.

(** ** the four coefficients *)
Section Coef.
  Variables (w : R -> v3) (w' : v3) (dt : R).
  Hypothesis Hw : v3_derive w 0 w'.
  Hypothesis Hr : rate_in (w 0).
  (** [F]: a coefficient with its slow value and its value as a function of the magnitude, [G] its derivative *)
  Lemma coef_derive (F G : v3 -> R) (c : R) (h : R -> R) (h' : R) :
    (forall v, F v = if cpi_small v then c else h (v3norm v)) -> (thr < v3norm (w 0) -> is_derive h (v3norm (w 0)) h' /\ h' = - v3norm (w 0) * G (w 0)) ->
    is_derive (fun s => F (w s)) 0 (- v3dot (w 0) w' * G (w 0)).
  Proof.
    intros E D. destruct Hr as [Z|N].
    - eapply (is_derive_ext_loc (fun _ => c)).
      + eapply filter_imp; [|apply (near_small w w' Hw); rewrite Z, norm0; unfold thr; lra]. intros s Hs. cbv beta in Hs |- *. rewrite E, small_t by exact Hs. reflexivity.
      + eapply is_derive_eq; [apply der_const|]. rewrite Z. unfold v3dot; simpl. ring.
    - fold thr in N. destruct (D N) as [D1 D2]. assert (P : 0 < v3norm (w 0)) by (unfold thr in N; lra).
      eapply (is_derive_ext_loc (fun s => h (v3norm (w s)))).
      + eapply filter_imp; [|apply (near_fast w w' Hw N)]. intros s Hs. cbv beta in Hs |- *. rewrite E, small_f by exact Hs. reflexivity.
      + eapply is_derive_eq; [apply (is_derive_comp h (fun s => v3norm (w s))); [exact D1|apply norm_derive; [exact Hw|exact P]]|].
        rewrite D2. change scal with Rmult. cbv [scal]. simpl. unfold mult; simpl. field. lra.
  Qed.
  Lemma f1_derive : is_derive (fun s => cpi_f1 dt (w s)) 0 (- v3dot (w 0) w' * cpi_d1 dt (w 0)).
  Proof.
    apply (coef_derive (cpi_f1 dt) (cpi_d1 dt) (- (dt ^ 3 / 3)) (fun n => (n * dt * cos (n * dt) - sin (n * dt)) / n ^ 3) (- v3norm (w 0) * cpi_d1 dt (w 0))); [reflexivity|].
    intros N. split; [|reflexivity]. unfold cpi_d1. rewrite small_f by lra. assert (P : 0 < v3norm (w 0)) by (unfold thr in N; lra). revert P. generalize (v3norm (w 0)). intros n P.
    auto_derive; [apply Rgt_not_eq; repeat apply Rmult_lt_0_compat; lra|]. field. lra.
  Qed.
  Lemma f2_derive : is_derive (fun s => cpi_f2 dt (w s)) 0 (- v3dot (w 0) w' * cpi_d2 dt (w 0)).
  Proof.
    apply (coef_derive (cpi_f2 dt) (cpi_d2 dt) (dt ^ 4 / 8) (fun n => ((n * dt) ^ 2 - 2 * cos (n * dt) - 2 * (n * dt) * sin (n * dt) + 2) / (2 * n ^ 4)) (- v3norm (w 0) * cpi_d2 dt (w 0))); [reflexivity|].
    intros N. split; [|reflexivity]. unfold cpi_d2. rewrite small_f by lra. assert (P : 0 < v3norm (w 0)) by (unfold thr in N; lra). revert P. generalize (v3norm (w 0)). intros n P.
    auto_derive; [apply Rgt_not_eq; repeat apply Rmult_lt_0_compat; lra|]. field. lra.
  Qed.
  Lemma f3_derive : is_derive (fun s => cpi_f3 dt (w s)) 0 (- v3dot (w 0) w' * cpi_d3 dt (w 0)).
  Proof.
    apply (coef_derive (cpi_f3 dt) (cpi_d3 dt) (- (dt ^ 2 / 2)) (fun n => - (1 - cos (n * dt)) / n ^ 2) (- v3norm (w 0) * cpi_d3 dt (w 0))); [reflexivity|].
    intros N. split; [|reflexivity]. unfold cpi_d3. rewrite small_f by lra. assert (P : 0 < v3norm (w 0)) by (unfold thr in N; lra). revert P. generalize (v3norm (w 0)). intros n P.
    auto_derive; [apply Rgt_not_eq; repeat apply Rmult_lt_0_compat; lra|]. field. lra.
  Qed.
  Lemma f4_derive : is_derive (fun s => cpi_f4 dt (w s)) 0 (- v3dot (w 0) w' * cpi_d4 dt (w 0)).
  Proof.
    apply (coef_derive (cpi_f4 dt) (cpi_d4 dt) (dt ^ 3 / 6) (fun n => (n * dt - sin (n * dt)) / n ^ 3) (- v3norm (w 0) * cpi_d4 dt (w 0))); [reflexivity|].
    intros N. split; [|reflexivity]. unfold cpi_d4. rewrite small_f by lra. assert (P : 0 < v3norm (w 0)) by (unfold thr in N; lra). revert P. generalize (v3norm (w 0)). intros n P.
    auto_derive; [apply Rgt_not_eq; repeat apply Rmult_lt_0_compat; lra|]. field. lra.
  Qed.

  (** the matrices of the common shape *)
  Definition arg_d (f h d1 d2 : R) : m3 :=
    let W := skew_x (w 0) in let W' := skew_x w' in let m := - v3dot (w 0) w' in
    m3add (m3add (m3scal (m * d1) W) (m3scal f W')) (m3add (m3scal (m * d2) (m3mul W W)) (m3scal h (m3add (m3mul W' W) (m3mul W W')))).
  Lemma shape_derive (c0 : R) (f h : R -> R) (d1 d2 : R) : is_derive f 0 (- v3dot (w 0) w' * d1) -> is_derive h 0 (- v3dot (w 0) w' * d2) ->
    m3_derive (fun s => m3add (m3add (m3scal c0 m3id) (m3scal (f s) (skew_x (w s)))) (m3scal (h s) (m3mul (skew_x (w s)) (skew_x (w s))))) 0 (arg_d (f 0) (h 0) d1 d2).
  Proof.
    intros D1 D2. pose proof (skew_derive w 0 w' Hw) as S. eapply m3_derive_eq.
    { apply m3d_add; [apply m3d_add; [apply m3d_const|apply m3d_scalf; [exact D1|exact S]]|apply m3d_scalf; [exact D2|apply m3d_mul; [exact S|exact S]]]. }
    unfold arg_d. generalize (skew_x (w 0)) (skew_x w') (v3dot (w 0) w'). intros W W' m. apply m3_ext; simpl; ring.
  Qed.
  Lemma alpha_derive : m3_derive (fun s => cpi_alpha dt (w s)) 0 (arg_d (cpi_f1 dt (w 0)) (cpi_f2 dt (w 0)) (cpi_d1 dt (w 0)) (cpi_d2 dt (w 0))).
  Proof. unfold cpi_alpha. apply (shape_derive (dt ^ 2 / 2) (fun s => cpi_f1 dt (w s)) (fun s => cpi_f2 dt (w s))); [apply f1_derive|apply f2_derive]. Qed.
  Lemma beta_derive : m3_derive (fun s => cpi_beta dt (w s)) 0 (arg_d (cpi_f3 dt (w 0)) (cpi_f4 dt (w 0)) (cpi_d3 dt (w 0)) (cpi_d4 dt (w 0))).
  Proof. unfold cpi_beta. apply (shape_derive dt (fun s => cpi_f3 dt (w s)) (fun s => cpi_f4 dt (w s))); [apply f3_derive|apply f4_derive]. Qed.

  (** the relative rotation *)
  Hypothesis Hdt : dt <> 0.
  Lemma rod_alg (u d : v3) (A B : R) : A * A = 2 * B - B * B * v3dot u u -> v3dot u u <> 0 ->
    let n := v3dot u u in let m := v3dot u d in
    m3add (m3add (m3scal ((1 - B * n - A) / n * m) (skew_x u)) (m3scal A (skew_x d)))
      (m3add (m3scal ((A - 2 * B) / n * m) (m3mul (skew_x u) (skew_x u)))
             (m3scal B (m3add (m3mul (skew_x d) (skew_x u)) (m3mul (skew_x u) (skew_x d))))) =
    m3mul (skew_x (m3v (rodrigues u B ((1 - A) / n)) d)) (rodrigues u A B).
  Proof.
    intros A2 N. cbv zeta. unfold v3dot in *. destruct u as [x y z], d as [p q r].
    assert (A2' : A ^ 2 = 2 * B - B * B * (x * x + y * y + z * z)) by (cbn [vx vy vz] in A2; lra). clear A2.
    unfold rodrigues; apply m3_ext; cbn [m3add m3id m3scal m3mul m3v skew_x m00 m01 m02 m10 m11 m12 m20 m21 m22 vx vy vz] in *.
    all: field_simplify_eq; [|auto].
    all: rewrite ?A2'; ring.
  Qed.
  Lemma rot_derive : m3_derive (fun s => cpi_rot dt (w s)) 0 (m3mul (skew_x (m3v (m3scal (- dt) (cpi_Jr dt (w 0))) w')) (cpi_rot dt (w 0))).
  Proof.
    pose proof (skew_derive w 0 w' Hw) as S. destruct Hr as [Z|N].
    - eapply m3_derive_ext_loc with (f := fun s => m3add (m3sub m3id (m3scal dt (skew_x (w s)))) (m3scal (dt ^ 2 / 2) (m3mul (skew_x (w s)) (skew_x (w s))))).
      + eapply filter_imp; [|apply (near_small w w' Hw); rewrite Z, norm0; unfold thr; lra]. intros s Hs. unfold cpi_rot. rewrite small_t by exact Hs. reflexivity.
      + eapply m3_derive_eq; [apply m3d_add; [apply m3d_sub; [apply m3d_const|apply m3d_scal; exact S]|apply m3d_scal, m3d_mul; [exact S|exact S]]|].
        unfold cpi_Jr, cpi_rot. rewrite Z, small_0. apply m3_ext; simpl; field.
    - fold thr in N. assert (P : 0 < v3norm (w 0)) by (unfold thr in N; lra). set (n0 := v3norm (w 0)) in *.
      assert (Dn : is_derive (fun s => v3norm (w s)) 0 (v3dot (w 0) w' / n0)) by (apply norm_derive; [exact Hw|exact P]).
      assert (Sq : n0 * n0 = v3dot (w 0) (w 0)) by apply v3norm_sq.
      set (x := n0 * dt) in *. assert (Xz : x <> 0) by (unfold x; apply Rmult_integral_contrapositive_currified; lra).
      set (A := sin x / x). set (B := (1 - cos x) / (x * x)).
      assert (Da : is_derive (fun n => sin (n * dt) / n) n0 ((dt * cos x - sin x / n0) / n0)).
      { unfold x. auto_derive; [lra|]. field. lra. }
      assert (Db : is_derive (fun n => (1 - cos (n * dt)) / n ^ 2) n0 ((dt * sin x / n0 - 2 * (1 - cos x) / n0 ^ 2) / n0)).
      { unfold x. auto_derive; [apply Rgt_not_eq; repeat apply Rmult_lt_0_compat; lra|]. field. lra. }
      eapply m3_derive_ext_loc with (f := fun s => m3add (m3sub m3id (m3scal (sin (v3norm (w s) * dt) / v3norm (w s)) (skew_x (w s)))) (m3scal ((1 - cos (v3norm (w s) * dt)) / v3norm (w s) ^ 2) (m3mul (skew_x (w s)) (skew_x (w s))))).
      { eapply filter_imp; [|apply (near_fast w w' Hw N)]. intros s Hs. unfold cpi_rot. rewrite small_f by exact Hs. reflexivity. }
      assert (Dc : forall h h', is_derive h n0 h' -> is_derive (fun s => h (v3norm (w s))) 0 (v3dot (w 0) w' / n0 * h')).
      { intros h h' D. eapply is_derive_eq; [apply (is_derive_comp h (fun s => v3norm (w s))); [exact D|exact Dn]|]. reflexivity. }
      eapply m3_derive_eq.
      { apply m3d_add; [apply m3d_sub; [apply m3d_const|apply m3d_scalf; [apply (Dc (fun n => sin (n * dt) / n)), Da|exact S]]|apply m3d_scalf; [apply (Dc (fun n => (1 - cos (n * dt)) / n ^ 2)), Db|apply m3d_mul; [exact S|exact S]]]. }
      cbv beta. fold n0. fold x.
      (* in terms of u = - dt w *)
      set (u := v3scal (- dt) (w 0)). set (d := v3scal (- dt) w').
      assert (Nu : v3dot u u = x * x) by (unfold u, x; replace (n0 * dt * (n0 * dt)) with (dt * dt * (n0 * n0)) by ring; rewrite Sq; unfold v3dot; simpl; ring).
      assert (Rel : A * A = 2 * B - B * B * v3dot u u).
      { rewrite Nu. unfold A, B. pose proof (sin2_cos2 x) as SC. unfold Rsqr in SC. field_simplify_eq; [|auto]. replace (sin x ^ 2) with (1 - cos x * cos x) by lra. ring. }
      assert (Nz : v3dot u u <> 0) by (rewrite Nu; apply Rmult_integral_contrapositive_currified; auto).
      pose proof (rod_alg u d A B Rel Nz) as RA. cbv zeta in RA.
      assert (E1 : cpi_rot dt (w 0) = rodrigues u A B).
      { unfold cpi_rot. rewrite small_f by (fold n0; lra). fold n0. fold x. unfold rodrigues, u. rewrite skew_scal. unfold A, B, x. generalize (skew_x (w 0)). intros W. apply m3_ext; simpl; field; split; lra. }
      assert (E2 : m3v (m3scal (- dt) (cpi_Jr dt (w 0))) w' = m3v (rodrigues u B ((1 - A) / v3dot u u)) d).
      { unfold cpi_Jr. rewrite small_f by (fold n0; lra). fold n0. fold x. rewrite Nu. unfold rodrigues, u, d. rewrite !skew_scal. unfold A, B. generalize (skew_x (w 0)). intros W. apply v3_ext; simpl; field; auto. }
      rewrite E1, E2, <- RA. rewrite Nu. unfold u, d. rewrite !skew_scal.
      assert (M : v3dot (v3scal (- dt) (w 0)) (v3scal (- dt) w') = dt * dt * v3dot (w 0) w') by (unfold v3dot; simpl; ring). rewrite M.
      unfold A, B, x. generalize (skew_x (w 0)) (skew_x w') (v3dot (w 0) w') (sin (n0 * dt)) (cos (n0 * dt)). intros W W' m sn cs.
      apply m3_ext; simpl; field; split; lra.
  Qed.
End Coef.

(** ** one reading *)
Lemma cpi_rot_is_rot dt w : rate_ok w -> is_rot (cpi_rot dt w).
Proof.
  intros H. destruct (Rle_lt_dec (v3norm w) 0) as [Z|P].
  - assert (E : w = v3zero) by (destruct H as [H|H]; [exact H|lra]). rewrite E. unfold cpi_rot. rewrite small_0.
    replace (m3add _ _) with m3id by (apply m3_ext; simpl; field). apply is_rot_id.
  - destruct (kinematics_exists w v3zero v3zero m3id v3zero v3zero P) as (Rs & v & p & K & _). apply (piece_motion w v3zero v3zero dt Rs v p H K).
Qed.
Lemma rate_in_ok w : rate_in w -> rate_ok w.
Proof. intros [H|H]; [left|right]; auto; lra. Qed.
Lemma m3v_madd A B v : m3v (m3add A B) v = v3add (m3v A v) (m3v B v).
Proof. apply v3_ext; simpl; ring. Qed.
Lemma m3v_msub A B v : m3v (m3sub A B) v = v3sub (m3v A v) (m3v B v).
Proof. apply v3_ext; simpl; ring. Qed.
Lemma m3v_mscal k A v : m3v (m3scal k A) v = v3scal k (m3v A v).
Proof. apply v3_ext; simpl; ring. Qed.
Lemma cols_v Rt arg f h df dh w Jq a e : let we := v3dot w e in let W := skew_x w in let E := skew_x e in
  m3v (cpi_cols Rt arg f h df dh w Jq a) e =
  m3v Rt (v3add (v3neg (m3v (skew_x (m3v Jq e)) (m3v arg a)))
    (m3v (m3sub (m3add (m3sub (m3scal (we * df) W) (m3scal f E)) (m3scal (we * dh) (m3mul W W))) (m3scal h (m3add (m3mul E W) (m3mul W E)))) a)).
Proof.
  cbv zeta. set (g := fun e we => v3add (v3neg (m3v (skew_x (m3v Jq e)) (m3v arg a)))
    (m3v (m3sub (m3add (m3sub (m3scal (we * df) (skew_x w)) (m3scal f (skew_x e))) (m3scal (we * dh) (m3mul (skew_x w) (skew_x w)))) (m3scal h (m3add (m3mul (skew_x e) (skew_x w)) (m3mul (skew_x w) (skew_x e))))) a)).
  assert (C : forall e we, cpi_col Rt arg f h df dh w Jq e we a = m3v Rt (g e we)).
  { intros e' we. unfold cpi_col, g. rewrite m3v_madd, !m3v_mul. rewrite m3v_mscal, m3v_mul.
    generalize (m3v (skew_x (m3v Jq e')) (m3v arg a)). intros u. match goal with |- context[v3add (v3neg u) ?t] => generalize t end. intros t. apply v3_ext; simpl; ring. }
  unfold cpi_cols. rewrite !C. change (v3add _ _) with (g e (v3dot w e)).
  assert (L : g e (v3dot w e) = v3add (v3scal (vx e) (g e1 (vx w))) (v3add (v3scal (vy e) (g e2 (vy w))) (v3scal (vz e) (g e3 (vz w))))).
  { unfold g. generalize (m3v arg a). intros u. destruct w as [w1 w2 w3], e as [x y z], a as [a1 a2 a3], u as [u1 u2 u3], Jq. unfold e1, e2, e3. apply v3_ext; simpl; unfold v3dot; simpl; ring. }
  rewrite L. generalize (g e1 (vx w)) (g e2 (vy w)) (g e3 (vz w)). intros p q r. destruct Rt, e, p, q, r. apply v3_ext; simpl; ring.
Qed.

Record follows (avg : bool) (bw ba e f : v3) (c : R -> cpi) : Prop := mkFw {
  fw_avg : forall s, cp_avg (c s) = avg;
  fw_bw : forall s, cp_bw (c s) = v3add bw (v3scal s e);
  fw_ba : forall s, cp_ba (c s) = v3add ba (v3scal s f);
  fw_rot : is_rot (cp_R (c 0));
  fw_R : m3_derive (fun s => cp_R (c s)) 0 (m3mul (skew_x (m3v (cp_Jq (c 0)) e)) (cp_R (c 0)));
  fw_al : v3_derive (fun s => cp_al (c s)) 0 (v3add (m3v (cp_Ja (c 0)) e) (m3v (cp_Ha (c 0)) f));
  fw_be : v3_derive (fun s => cp_be (c s)) 0 (v3add (m3v (cp_Jb (c 0)) e) (m3v (cp_Hb (c 0)) f)) }.

Lemma unb_derive avg b e m0 m1 : v3_derive (fun s => unbiased avg (v3add b (v3scal s e)) m0 m1) 0 (v3neg e).
Proof. unfold unbiased. eapply v3_derive_eq; [apply v3d_sub; [apply v3d_const|apply v3d_id]|]. apply v3_ext; simpl; ring. Qed.
Lemma unb_0 avg b e m0 m1 : unbiased avg (v3add b (v3scal 0 e)) m0 m1 = unbiased avg b m0 m1.
Proof. f_equal. apply v3_ext; simpl; ring. Qed.

(** the increment R1^T arg a *)
Lemma incr_derive R1 arg (a : R -> v3) w0 Jq e f ff hh df dh :
  is_rot (R1 0) -> m3_derive R1 0 (m3mul (skew_x (m3v Jq e)) (R1 0)) ->
  m3_derive arg 0 (m3add (m3add (m3scal (v3dot w0 e * df) (skew_x w0)) (m3scal ff (skew_x (v3neg e))))
     (m3add (m3scal (v3dot w0 e * dh) (m3mul (skew_x w0) (skew_x w0))) (m3scal hh (m3add (m3mul (skew_x (v3neg e)) (skew_x w0)) (m3mul (skew_x w0) (skew_x (v3neg e))))))) ->
  v3_derive a 0 (v3neg f) ->
  v3_derive (fun s => m3v (m3mul (m3tr (R1 s)) (arg s)) (a s)) 0
    (v3sub (m3v (cpi_cols (m3tr (R1 0)) (arg 0) ff hh df dh w0 Jq (a 0)) e) (m3v (m3mul (m3tr (R1 0)) (arg 0)) f)).
Proof.
  intros Q D1 D2 D3. eapply v3_derive_eq; [apply v3d_mv; [apply m3d_mul; [apply m3d_tr; exact D1|exact D2]|exact D3]|].
  rewrite cols_v. cbv zeta. rewrite m3v_madd, !m3v_mul. 
  assert (T : m3tr (m3mul (skew_x (m3v Jq e)) (R1 0)) = m3scal (-1) (m3mul (m3tr (R1 0)) (skew_x (m3v Jq e)))).
  { generalize (m3v Jq e) (R1 0). intros u r. apply m3_ext; simpl; ring. }
  rewrite T, m3v_mscal, m3v_mul. generalize (m3v (skew_x (m3v Jq e)) (m3v (arg 0) (a 0))). intros u.
  assert (N : m3v (arg 0) (v3neg f) = v3neg (m3v (arg 0) f)) by (generalize (arg 0); intros; apply v3_ext; simpl; ring). rewrite N. generalize (m3v (arg 0) f). intros z.
  assert (Z : skew_x (v3neg e) = m3scal (-1) (skew_x e)) by (apply m3_ext; simpl; ring). rewrite Z.
  generalize (v3dot w0 e) (a 0) (skew_x e) (skew_x w0). intros m aa E W.
  match goal with |- context[v3add (v3neg u) ?t] => set (tt := t) end.
  match goal with |- context[m3v (m3tr (R1 0)) (m3v ?M aa)] => assert (X : m3v M aa = tt) by (unfold tt; apply v3_ext; simpl; ring) end.
  rewrite X. clearbody tt. generalize (m3tr (R1 0)). intros r. apply v3_ext; simpl; ring.
Qed.

Lemma follows_feed avg bw ba e f c r : follows avg bw ba e f c -> (rd_t1 r - rd_t0 r = 0 \/ rate_in (unbiased avg bw (rd_w0 r) (rd_w1 r))) ->
  follows avg bw ba e f (fun s => cpi_feed (c s) r).
Proof.
  intros [A B C D E G H] Hr. unfold cpi_feed. destruct (Reqb_spec (rd_t1 r - rd_t0 r) 0) as [Z|Z].
  - split; cbn [cp_avg cp_bw cp_ba cp_R cp_al cp_be cp_Jq cp_Ja cp_Ha cp_Jb cp_Hb]; auto.
  - destruct Hr as [Hr|Hr]; [contradiction|]. set (dt := rd_t1 r - rd_t0 r) in *. cbv zeta.
    set (w := fun s => unbiased avg (v3add bw (v3scal s e)) (rd_w0 r) (rd_w1 r)). set (a := fun s => unbiased avg (v3add ba (v3scal s f)) (rd_a0 r) (rd_a1 r)).
    assert (Ew : forall s, cpi_hat (cp_avg (c s)) (cp_bw (c s)) (rd_w0 r) (rd_w1 r) = w s) by (intros s; rewrite hat_eq, A, B; reflexivity).
    assert (Ea : forall s, cpi_hat (cp_avg (c s)) (cp_ba (c s)) (rd_a0 r) (rd_a1 r) = a s) by (intros s; rewrite hat_eq, A, C; reflexivity).
    assert (Dw : v3_derive w 0 (v3neg e)) by apply unb_derive. assert (Da : v3_derive a 0 (v3neg f)) by apply unb_derive.
    assert (Rw : rate_in (w 0)) by (unfold w; rewrite unb_0; exact Hr).
    pose proof (rot_derive w (v3neg e) dt Dw Rw Z) as DR.
    assert (Q1 : is_rot (cpi_rot dt (w 0))) by (apply cpi_rot_is_rot, rate_in_ok, Rw).
    set (Jq := m3add (m3mul (cpi_rot dt (w 0)) (cp_Jq (c 0))) (m3scal dt (cpi_Jr dt (w 0)))).
    set (R1 := fun s => m3mul (cpi_rot dt (w s)) (cp_R (c s))).
    assert (DR1 : m3_derive R1 0 (m3mul (skew_x (m3v Jq e)) (R1 0))).
    { unfold R1. eapply m3_derive_eq; [apply m3d_mul; [exact DR|exact E]|]. rewrite !m3mul_assoc. rewrite <- (m3mul_assoc (cpi_rot dt (w 0)) (skew_x _)), (rot_skew _ _ Q1), !m3mul_assoc.
      unfold Jq. rewrite m3v_madd, m3v_mul, !m3v_mscal. generalize (m3v (cpi_rot dt (w 0)) (m3v (cp_Jq (c 0)) e)). intros p.
      assert (N : m3v (cpi_Jr dt (w 0)) (v3neg e) = v3neg (m3v (cpi_Jr dt (w 0)) e)) by (generalize (cpi_Jr dt (w 0)); intros; apply v3_ext; simpl; ring). rewrite N.
      generalize (m3v (cpi_Jr dt (w 0)) e) (m3mul (cpi_rot dt (w 0)) (cp_R (c 0))). intros q m. apply m3_ext; simpl; ring. }
    assert (QR : is_rot (R1 0)) by (apply is_rot_mul; auto).
    assert (Nd : - v3dot (w 0) (v3neg e) = v3dot (w 0) e) by (unfold v3dot; simpl; ring).
    pose proof (alpha_derive w (v3neg e) dt Dw Rw) as Dal. pose proof (beta_derive w (v3neg e) dt Dw Rw) as Dbe. unfold arg_d in Dal, Dbe. rewrite !Nd in Dal, Dbe.
    pose proof (incr_derive R1 (fun s => cpi_alpha dt (w s)) a (w 0) Jq e f _ _ _ _ QR DR1 Dal Da) as Ial.
    pose proof (incr_derive R1 (fun s => cpi_beta dt (w s)) a (w 0) Jq e f _ _ _ _ QR DR1 Dbe Da) as Ibe. cbv beta in Ial, Ibe.
    split; cbn [cp_avg cp_bw cp_ba cp_R cp_al cp_be cp_Jq cp_Ja cp_Ha cp_Jb cp_Hb]; auto; rewrite ?Ew, ?Ea; fold Jq.
    + exact QR.
    + eapply m3_derive_ext; [|exact DR1]. intros s. cbv beta. rewrite Ew. reflexivity.
    + apply v3_derive_ext with (f := fun s => v3add (cp_al (c s)) (v3add (v3scal dt (cp_be (c s))) (m3v (m3mul (m3tr (R1 s)) (cpi_alpha dt (w s))) (a s)))); [intros s; cbv beta; rewrite Ew, Ea; reflexivity|]. fold (R1 0). eapply v3_derive_eq; [apply v3d_add; [exact G|apply v3d_add; [apply v3d_scal; exact H|exact Ial]]|].
      rewrite ?m3v_madd, ?m3v_msub, ?m3v_madd, ?m3v_mscal. 
      generalize (m3v (cpi_cols (m3tr (R1 0)) (cpi_alpha dt (w 0)) (cpi_f1 dt (w 0)) (cpi_f2 dt (w 0)) (cpi_d1 dt (w 0)) (cpi_d2 dt (w 0)) (w 0) Jq (a 0)) e)
        (m3v (cp_Ja (c 0)) e) (m3v (cp_Ha (c 0)) f) (m3v (cp_Jb (c 0)) e) (m3v (cp_Hb (c 0)) f) (m3v (m3mul (m3tr (R1 0)) (cpi_alpha dt (w 0))) f). intros; apply v3_ext; simpl; ring.
    + apply v3_derive_ext with (f := fun s => v3add (cp_be (c s)) (m3v (m3mul (m3tr (R1 s)) (cpi_beta dt (w s))) (a s))); [intros s; cbv beta; rewrite Ew, Ea; reflexivity|]. fold (R1 0). eapply v3_derive_eq; [apply v3d_add; [exact H|exact Ibe]|].
      rewrite !m3v_madd, m3v_msub.
      generalize (m3v (cpi_cols (m3tr (R1 0)) (cpi_beta dt (w 0)) (cpi_f3 dt (w 0)) (cpi_f4 dt (w 0)) (cpi_d3 dt (w 0)) (cpi_d4 dt (w 0)) (w 0) Jq (a 0)) e)
        (m3v (cp_Jb (c 0)) e) (m3v (cp_Hb (c 0)) f) (m3v (m3mul (m3tr (R1 0)) (cpi_beta dt (w 0))) f). intros; apply v3_ext; simpl; ring.
Qed.
Lemma follows_run avg bw ba e f l : forall c, follows avg bw ba e f c -> rates rate_in avg bw l -> follows avg bw ba e f (fun s => cpi_run (c s) l).
Proof.
  induction l as [|r l IH]; intros c F Hr; [exact F|]. unfold cpi_run; cbn [fold_left]. apply (IH (fun s => cpi_feed (c s) r)).
  - apply follows_feed; auto. apply Hr. left; reflexivity.
  - intros x Hx. apply Hr. right; exact Hx.
Qed.
Lemma follows_new avg Qc bw ba e f : follows avg bw ba e f (fun s => cpi_new avg Qc (v3add bw (v3scal s e)) (v3add ba (v3scal s f))).
Proof.
  split; cbn [cpi_new cp_avg cp_bw cp_ba cp_R cp_al cp_be cp_Jq cp_Ja cp_Ha cp_Jb cp_Hb]; auto.
  - apply is_rot_id.
  - eapply m3_derive_eq; [apply m3d_const|]. apply m3_ext; simpl; ring.
  - eapply v3_derive_eq; [apply v3d_const|]. apply v3_ext; simpl; ring.
  - eapply v3_derive_eq; [apply v3d_const|]. apply v3_ext; simpl; ring.
Qed.
Lemma bias_thm avg Qc bw ba e f l : rates rate_in avg bw l ->
  let c := fun s => cpi_run (cpi_new avg Qc (v3add bw (v3scal s e)) (v3add ba (v3scal s f))) l in let k := cpi_run (cpi_new avg Qc bw ba) l in
  m3_derive (fun s => cp_R (c s)) 0 (m3mul (skew_x (m3v (cp_Jq k) e)) (cp_R k)) /\
  v3_derive (fun s => cp_al (c s)) 0 (v3add (m3v (cp_Ja k) e) (m3v (cp_Ha k) f)) /\
  v3_derive (fun s => cp_be (c s)) 0 (v3add (m3v (cp_Jb k) e) (m3v (cp_Hb k) f)).
Proof.
  intros Hr c k. pose proof (follows_run avg bw ba e f l _ (follows_new avg Qc bw ba e f) Hr) as F. fold c in F.
  assert (K : c 0 = k). { unfold c, k. f_equal. f_equal; apply v3_ext; simpl; ring. }
  destruct F as [_ _ _ _ F1 F2 F3]. rewrite <- K. split; [exact F1|]. split; [exact F2|exact F3].
Qed.
