(** Umeyama alignment. *)
From Coq Require Import Reals List Arith Bool Lia Lra.
From Verif Require Import RBool Outcome GeoModel GeoSpec GeoProofs EulerProofs InitModel InitSpec EvalModel EvalSpec EvalProofs EvalStats EvalAlign.
Import ListNotations.
Open Scope R_scope.

Lemma rot_trace r : is_rot r -> -1 <= m3trace r.
Proof.
  intros H. destruct (rot_2_quat_spec r H) as (U & _ & E). rewrite <- E. rewrite quat_2_Rot_hom by exact U.
  set (q := rot_2_quat r) in *. clearbody q. unfold unit_q in U. unfold rot_hom, m3trace. cbn [m00 m11 m22].
  pose proof (Rle_0_sqr (qw q)). pose proof (Rle_0_sqr (qx q)). pose proof (Rle_0_sqr (qy q)). pose proof (Rle_0_sqr (qz q)). unfold Rsqr in *. lra.
Qed.
Lemma orth_mul A B : orth A -> orth B -> orth (m3mul A B).
Proof.
  intros [A1 A2] [B1 B2]. split; rewrite m3tr_mul.
  - rewrite m3mul_assoc, <- (m3mul_assoc B), B1, m3mul_id_l. exact A1.
  - rewrite m3mul_assoc, <- (m3mul_assoc (m3tr A)), A2, m3mul_id_l. exact B2.
Qed.
Lemma orth_tr A : orth A -> orth (m3tr A).
Proof. intros [H1 H2]. split; rewrite m3tr_tr; auto. Qed.
Lemma det_id : m3det m3id = 1.
Proof. unfold m3det, m3id. simpl. ring. Qed.
Lemma orth_det A : orth A -> m3det A = 1 \/ m3det A = -1.
Proof.
  intros [H _]. assert (E : m3det A * m3det A = 1) by (rewrite <- (m3det_tr A) at 2; rewrite <- m3det_mul, H; apply det_id).
  assert (F : (m3det A - 1) * (m3det A + 1) = 0) by lra. apply Rmult_integral in F. lra.
Qed.
Lemma orth_diag A : orth A -> m00 A <= 1 /\ m11 A <= 1 /\ m22 A <= 1.
Proof.
  intros [H _]. pose proof (f_equal m00 H) as E0. pose proof (f_equal m11 H) as E1. pose proof (f_equal m22 H) as E2. m3simp.
  pose proof (Rle_0_sqr (m00 A)); pose proof (Rle_0_sqr (m01 A)); pose proof (Rle_0_sqr (m02 A)).
  pose proof (Rle_0_sqr (m10 A)); pose proof (Rle_0_sqr (m11 A)); pose proof (Rle_0_sqr (m12 A)).
  pose proof (Rle_0_sqr (m20 A)); pose proof (Rle_0_sqr (m21 A)); pose proof (Rle_0_sqr (m22 A)). unfold Rsqr in *.
  assert (B : forall x, x * x <= 1 -> x <= 1) by (intros x Hx; destruct (Rle_dec x 1); auto; nra).
  repeat split; apply B; lra.
Qed.
Definition sgn_mat (neg : bool) : m3 := if neg then M3 1 0 0  0 1 0  0 0 (-1) else m3id.
Lemma trace_ineq W D : orth W -> vx D >= vy D -> vy D >= vz D -> vz D >= 0 ->
  m3trace (m3mul W (diag3 D)) <= m3trace (m3mul (diag3 D) (sgn_mat (Rltb (m3det W) 0))).
Proof.
  intros O H1 H2 H3. destruct (orth_diag W O) as (B0 & B1 & B2).
  replace (m3trace (m3mul W (diag3 D))) with (m00 W * vx D + m11 W * vy D + m22 W * vz D) by (destruct W, D; m3simp; ring).
  destruct (Rltb_spec (m3det W) 0) as [N|N]; cbn [sgn_mat].
  - assert (T : m3trace W <= 1).
    { assert (Rt : is_rot (m3scal (-1) W)).
      { destruct O as [O1 O2]. split; [|split].
        - rewrite <- O1. destruct W; m3simp; f_equal; ring.
        - rewrite <- O2. destruct W; m3simp; f_equal; ring.
        - assert (E : m3det W = -1) by (destruct (orth_det W (conj O1 O2)); lra).
          replace (m3det (m3scal (-1) W)) with (- m3det W) by (destruct W; unfold m3det; m3simp; ring). lra. }
      apply rot_trace in Rt. destruct W; m3simp. lra. }
    replace (m3trace (m3mul (diag3 D) (M3 1 0 0 0 1 0 0 0 (-1)))) with (vx D + vy D - vz D) by (destruct D; m3simp; ring).
    unfold m3trace in T.
    assert (0 <= (vx D - vy D) * (1 - m00 W)) by (apply Rmult_le_pos; lra).
    assert (0 <= (vy D - vz D) * (2 - m00 W - m11 W)) by (apply Rmult_le_pos; lra).
    assert (0 <= vz D * (1 - (m00 W + m11 W + m22 W))) by (apply Rmult_le_pos; lra). lra.
  - replace (m3trace (m3mul (diag3 D) m3id)) with (vx D + vy D + vz D) by (destruct D; m3simp; ring).
    assert (0 <= vx D * (1 - m00 W)) by (apply Rmult_le_pos; lra).
    assert (0 <= vy D * (1 - m11 W)) by (apply Rmult_le_pos; lra).
    assert (0 <= vz D * (1 - m22 W)) by (apply Rmult_le_pos; lra). lra.
Qed.

Lemma frob_svd Q U D V : frob Q (m3mul (m3mul U (diag3 D)) (m3tr V)) = m3trace (m3mul (m3mul (m3mul (m3tr V) (m3tr Q)) U) (diag3 D)).
Proof. destruct Q, U, D, V. m3simp. ring. Qed.
Lemma sgn_orth b : orth (sgn_mat b).
Proof. destruct b; cbn [sgn_mat]; split; m3simp; f_equal; ring. Qed.
Lemma sgn_tr b : m3tr (sgn_mat b) = sgn_mat b.
Proof. destruct b; reflexivity. Qed.
Lemma sgn_det b : m3det (sgn_mat b) = if b then -1 else 1.
Proof. destruct b; unfold m3det; simpl; ring. Qed.

Lemma svd_opt C U D V : svd_of C (U, D, V) ->
  let S := sgn_mat (Rltb (m3det U * m3det V) 0) in let Rm := m3mul (m3mul U S) (m3tr V) in
  is_rot Rm /\ frob Rm C = m3trace (m3mul (diag3 D) S) /\ 0 <= m3trace (m3mul (diag3 D) S) /\ forall Q, is_rot Q -> frob Q C <= frob Rm C.
Proof.
  intros (OU & OV & H1 & H2 & H3 & EC) S Rm.
  assert (OR : orth Rm) by (apply orth_mul; [apply orth_mul; [exact OU|apply sgn_orth]|apply orth_tr; exact OV]).
  assert (F : frob Rm C = m3trace (m3mul (diag3 D) S)).
  { rewrite EC. fold (diag3 D). rewrite frob_svd. unfold Rm. rewrite !m3tr_mul, m3tr_tr. unfold S at 1. rewrite sgn_tr. fold S.
    destruct OU as [_ OU], OV as [_ OV]. rewrite <- !m3mul_assoc, OV, m3mul_id_l, (m3mul_assoc S), OU, m3mul_id_r. unfold S. destruct (Rltb _ _), D; cbn [sgn_mat]; m3simp; ring. }
  split; [|split; [exact F|split]].
  - destruct OR as [O1 O2]. split; [exact O1|split; [exact O2|]]. unfold Rm, S. rewrite !m3det_mul, sgn_det, m3det_tr.
    destruct (orth_det U OU) as [EU|EU], (orth_det V OV) as [EV|EV]; rewrite EU, EV; destruct (Rltb_spec (1 * 1) 0); destruct (Rltb_spec (1 * -1) 0); destruct (Rltb_spec (-1 * 1) 0); destruct (Rltb_spec (-1 * -1) 0); lra.
  - unfold S. clear -H1 H2 H3. destruct (Rltb _ _), D as [d0 d1 d2]; cbn [sgn_mat]; m3simp; lra.
  - intros Q RQ. rewrite F, EC. fold (diag3 D). rewrite frob_svd. set (W := m3mul (m3mul (m3tr V) (m3tr Q)) U).
    assert (OW : orth W) by (apply orth_mul; [apply orth_mul; [apply orth_tr; exact OV|apply orth_tr, rot_orth; exact RQ]|exact OU]).
    assert (DW : m3det W = m3det U * m3det V). { unfold W. rewrite !m3det_mul, !m3det_tr. destruct RQ as (_ & _ & ->). ring. }
    unfold S. rewrite <- DW. apply trace_ineq; auto.
Qed.

Lemma combine_maps {A B C D} (f : B -> C) (g : A -> D) : forall (l : list (A * B)),
  combine (map f (map snd l)) (map g (map fst l)) = map (fun p => (f (snd p), g (fst p))) l.
Proof. induction l as [|[a b] l IH]; simpl; f_equal; auto. Qed.
Lemma combine_fst {A B} : forall (a : list A) (b : list B), length b = length a -> map fst (combine a b) = a /\ map snd (combine a b) = b.
Proof.
  induction a as [|x a IH]; destruct b as [|y b]; intros H; try discriminate; [auto|]. injection H as H. destruct (IH b H) as [E1 E2]. simpl. split; f_equal; auto.
Qed.

Lemma umeyama_eq svd data model ks yo : length model = length data -> model <> [] ->
  let l := combine data model in
  let n := INR (length l) in
  let C := m3scal (1 / n) (cK l) in
  let s2 := 1 / n * cDD l in
  align_umeyama svd data model ks yo =
  let '(U, D, V) := svd C in
  let S := sgn_mat (Rltb (m3det U * m3det V) 0) in
  let Rm := if yo then rot_z (get_best_yaw (m3tr (cK l))) else m3mul (m3mul U S) (m3tr V) in
  do s <- (if ks then Ok 1 else guard (negb (Reqb s2 0)) UB (Ok (1 / s2 * m3trace (m3mul (diag3 D) S))));
  Ok (Rm, v3sub (cM l) (v3scal s (m3v Rm (cD l))), s).
Proof.
  intros HL Ne l n C s2. destruct (combine_fst data model HL) as [E1 E2]. fold l in E1, E2.
  assert (Ln : length model = length l) by (rewrite <- E2, map_length; reflexivity).
  unfold align_umeyama. rewrite HL, Nat.eqb_refl, <- HL. cbn [guard].
  assert (N0 : length model <> O) by (destruct model; simpl; congruence).
  rewrite (proj2 (Nat.eqb_neq _ _) N0). cbn [negb guard].
  rewrite Ln. fold n. rewrite <- E1, <- E2. fold (cM l) (cD l). rewrite combine_maps, !map_map. cbn [fst snd].
  fold (cK l). fold C.
  assert (Nn : n <> 0) by (apply not_0_INR; unfold n; rewrite <- Ln; exact N0).
  assert (EC : m3scal n (m3tr C) = m3tr (cK l)). { unfold C. set (K := cK l). clearbody K. destruct K. m3simp. f_equal; field; auto. }
  rewrite EC. rewrite (fold_left_total (fun d => v3dot d d)), map_map, Rplus_0_l.
  assert (ES : total (map (fun x : v3 * v3 => v3dot (v3sub (fst x) (cD l)) (v3sub (fst x) (cD l))) l) = cDD l).
  { unfold cDD. generalize (cD l). intros u. clear. unfold total. induction l as [|p l IH]; simpl; [reflexivity|]. rewrite IH. reflexivity. }
  rewrite ES. fold s2. destruct (svd C) as [[U D] V]. unfold sgn_mat. reflexivity.
Qed.

Lemma dot_nonneg u : 0 <= v3dot u u.
Proof. unfold v3dot. pose proof (Rle_0_sqr (vx u)); pose proof (Rle_0_sqr (vy u)); pose proof (Rle_0_sqr (vz u)). unfold Rsqr in *. lra. Qed.
Lemma cost_at_opt Rm s l : orth Rm -> l <> [] ->
  cost Rm (v3sub (cM l) (v3scal s (m3v Rm (cD l)))) s l = cMM l + s * s * cDD l - 2 * s * frob Rm (cK l).
Proof.
  intros O Ne. rewrite (cost_centered Rm _ s l O Ne). set (w := v3sub (cM l) (v3scal s (m3v Rm (cD l)))). replace (v3sub w w) with v3zero by (destruct w; m3simp; f_equal; ring).
  replace (v3dot v3zero v3zero) with 0 by (m3simp; ring). ring.
Qed.
Lemma cost_lower Rm t s l : orth Rm -> l <> [] -> cMM l + s * s * cDD l - 2 * s * frob Rm (cK l) <= cost Rm t s l.
Proof.
  intros O Ne. rewrite (cost_centered Rm t s l O Ne). set (w := v3sub _ _). pose proof (dot_nonneg w). pose proof (pos_INR (length l)).
  assert (0 <= INR (length l) * v3dot w w) by (apply Rmult_le_pos; auto). lra.
Qed.
Lemma cDD_pos l : 0 <= cDD l.
Proof. unfold cDD. generalize (cD l). intros u. induction l as [|p l IH]; simpl; [lra|]. pose proof (dot_nonneg (v3sub (fst p) u)). lra. Qed.

Lemma combine_ne {A B} (a : list A) (b : list B) : length b = length a -> b <> [] -> combine a b <> [].
Proof. destruct a, b; simpl; intros; congruence. Qed.

Lemma yaw_alignment svd data model : length model = length data -> model <> [] ->
  exists th t, align_umeyama svd data model true true = Ok (rot_z th, t, 1) /\
    forall th' t', cost (rot_z th) t 1 (combine data model) <= cost (rot_z th') t' 1 (combine data model).
Proof.
  intros HL Ne. rewrite (umeyama_eq svd data model true true HL Ne). cbv zeta. set (l := combine data model).
  assert (Nl : l <> []) by (apply combine_ne; auto).
  destruct (svd _) as [[U D] V]. cbn [obind]. eexists _, _. split; [reflexivity|]. intros th' t'.
  rewrite cost_at_opt by (auto; apply rot_orth, rotz_rot). pose proof (cost_lower (rot_z th') t' 1 l (rot_orth _ (rotz_rot th')) Nl).
  pose proof (yaw_opt (cK l) th'). lra.
Qed.

Lemma frob_scal Q c K : frob Q (m3scal c K) = c * frob Q K.
Proof. destruct Q, K. m3simp. ring. Qed.

Lemma se3_alignment svd data model : length model = length data -> model <> [] -> svd_of (correlation (combine data model)) (svd (correlation (combine data model))) ->
  exists Rm t, align_umeyama svd data model true false = Ok (Rm, t, 1) /\ is_rot Rm /\
    forall Q t', is_rot Q -> cost Rm t 1 (combine data model) <= cost Q t' 1 (combine data model).
Proof.
  intros HL Ne HS. rewrite (umeyama_eq svd data model true false HL Ne). cbv zeta. set (l := combine data model).
  assert (Nl : l <> []) by (apply combine_ne; auto).
  assert (Hn : 0 < INR (length l)) by (apply lt_0_INR; destruct l; simpl; [congruence|lia]).
  change (correlation (combine data model)) with (m3scal (1 / INR (length l)) (cK l)) in HS.
  destruct (svd _) as [[U D] V]. cbn [obind]. destruct (svd_opt _ U D V HS) as (Rt & F & P & O). eexists _, _. split; [reflexivity|].
  split; [exact Rt|]. intros Q t' RQ. rewrite cost_at_opt by (auto; apply rot_orth; exact Rt).
  pose proof (cost_lower Q t' 1 l (rot_orth _ RQ) Nl) as L. specialize (O Q RQ). rewrite !frob_scal in O.
  apply Rmult_le_reg_l in O; [lra|]. apply Rdiv_lt_0_compat; lra.
Qed.

Lemma sim3_alignment svd data model : length model = length data -> model <> [] -> svd_of (correlation (combine data model)) (svd (correlation (combine data model))) ->
  (exists a b, In a data /\ In b data /\ a <> b) ->
  exists Rm t s, align_umeyama svd data model false false = Ok (Rm, t, s) /\ is_rot Rm /\ 0 <= s /\
    forall Q t' s', is_rot Q -> 0 <= s' -> cost Rm t s (combine data model) <= cost Q t' s' (combine data model).
Proof.
  intros HL Ne HS (da & db & Ia & Ib & Nab). rewrite (umeyama_eq svd data model false false HL Ne). cbv zeta. set (l := combine data model).
  assert (Nl : l <> []) by (apply combine_ne; auto).
  assert (Hn : 0 < INR (length l)) by (apply lt_0_INR; destruct l; simpl; [congruence|lia]).
  assert (DD : cDD l <> 0).
  { intros Z. assert (Al : forall p, In p l -> v3sub (fst p) (cD l) = v3zero).
    { revert Z. unfold cDD. generalize (cD l). intros u. clear. induction l as [|p l IH]; intros Z q [].
      - subst q. simpl in Z. assert (X : 0 <= ssum (fun p => v3dot (v3sub (fst p) u) (v3sub (fst p) u)) l) by (clear; induction l; simpl; [lra|]; pose proof (dot_nonneg (v3sub (fst a) u)); lra).
        pose proof (dot_nonneg (v3sub (fst p) u)) as Y. assert (W : v3dot (v3sub (fst p) u) (v3sub (fst p) u) = 0) by lra.
        unfold v3dot in W. pose proof (Rle_0_sqr (vx (v3sub (fst p) u))); pose proof (Rle_0_sqr (vy (v3sub (fst p) u))); pose proof (Rle_0_sqr (vz (v3sub (fst p) u))). unfold Rsqr in *.
        apply v3_ext; apply Rsqr_0_uniq; unfold Rsqr; simpl in *; lra.
      - apply IH; auto. simpl in Z. assert (X : 0 <= ssum (fun p => v3dot (v3sub (fst p) u) (v3sub (fst p) u)) l) by (clear; induction l; simpl; [lra|]; pose proof (dot_nonneg (v3sub (fst a) u)); lra).
        pose proof (dot_nonneg (v3sub (fst p) u)). lra. }
    apply Nab. destruct (combine_fst data model HL) as [E1 _]. fold l in E1. rewrite <- E1 in Ia, Ib. apply in_map_iff in Ia. apply in_map_iff in Ib.
    destruct Ia as (pa & <- & Ia), Ib as (pb & <- & Ib). apply Al in Ia. apply Al in Ib.
    apply v3_ext; [pose proof (f_equal vx Ia) as A; pose proof (f_equal vx Ib) as B|pose proof (f_equal vy Ia) as A; pose proof (f_equal vy Ib) as B|pose proof (f_equal vz Ia) as A; pose proof (f_equal vz Ib) as B]; simpl in A, B; lra. }
  pose proof (cDD_pos l) as DP.
  assert (S2 : 0 < 1 / INR (length l) * cDD l) by (apply Rmult_lt_0_compat; [apply Rdiv_lt_0_compat; lra|lra]).
  change (correlation (combine data model)) with (m3scal (1 / INR (length l)) (cK l)) in HS.
  destruct (svd _) as [[U D] V]. destruct (svd_opt _ U D V HS) as (Rt & F & P & O).
  destruct (Reqb_spec (1 / INR (length l) * cDD l) 0) as [X|_]; [lra|]. cbn [negb guard obind]. eexists _, _, _. split; [reflexivity|].
  set (tr := m3trace (m3mul (diag3 D) _)) in *. set (Rm := m3mul _ _) in *. clearbody tr Rm.
  assert (Es : 1 / (1 / INR (length l) * cDD l) * tr = frob Rm (cK l) / cDD l). { rewrite <- F, frob_scal. field. split; lra. }
  assert (FR : 0 <= frob Rm (cK l)). { rewrite frob_scal in F. replace (frob Rm (cK l)) with (INR (length l) * tr) by (rewrite <- F; field; lra). apply Rmult_le_pos; lra. }
  rewrite Es. set (s := frob Rm (cK l) / cDD l). split; [exact Rt|].
  split; [apply Rmult_le_pos; [exact FR|left; apply Rinv_0_lt_compat; lra]|].
  intros Q t' s' RQ Hs'. rewrite cost_at_opt by (auto; apply rot_orth; exact Rt).
  pose proof (cost_lower Q t' s' l (rot_orth _ RQ) Nl) as L. specialize (O Q RQ). rewrite !frob_scal in O.
  apply Rmult_le_reg_l in O; [|apply Rdiv_lt_0_compat; lra].
  assert (s' * frob Q (cK l) <= s' * frob Rm (cK l)) by (apply Rmult_le_compat_l; auto).
  assert (E : frob Rm (cK l) = s * cDD l) by (unfold s; field; lra).
  assert (0 <= cDD l * ((s' - s) * (s' - s))) by (apply Rmult_le_pos; [lra|apply Rle_0_sqr]).
  rewrite E in *. nra.
Qed.

(** an exact yaw alignment is found *)
Lemma total_zero l : (forall x, In x l -> 0 <= x) -> total l <= 0 -> forall x, In x l -> x = 0.
Proof.
  unfold total. induction l as [|a l IH]; intros H T x []; simpl in T;
    pose proof (total_nonneg l (fun y I => H y (or_intror I))) as N; unfold total in N; pose proof (H a (or_introl eq_refl)).
  - subst. lra.
  - apply IH; auto; [intros; apply H; right; auto|lra].
Qed.
Lemma residual_zero Rm t s p : residual Rm t s p = 0 -> snd p = v3add (v3scal s (m3v Rm (fst p))) t.
Proof.
  unfold residual. set (w := v3add _ _). clearbody w. intros W. unfold v3dot in W.
  pose proof (Rle_0_sqr (vx (v3sub (snd p) w))) as X; pose proof (Rle_0_sqr (vy (v3sub (snd p) w))) as Y; pose proof (Rle_0_sqr (vz (v3sub (snd p) w))) as Z. unfold Rsqr in *.
  assert (A : vx (v3sub (snd p) w) = 0) by (apply Rsqr_0_uniq; unfold Rsqr; lra).
  assert (B : vy (v3sub (snd p) w) = 0) by (apply Rsqr_0_uniq; unfold Rsqr; lra).
  assert (C : vz (v3sub (snd p) w) = 0) by (apply Rsqr_0_uniq; unfold Rsqr; lra).
  simpl in A, B, C. apply v3_ext; lra.
Qed.
Lemma residual_nonneg Rm t s p : 0 <= residual Rm t s p.
Proof. unfold residual. apply dot_nonneg. Qed.
Lemma cost_zero_iff Rm t s l : cost Rm t s l <= 0 -> forall p, In p l -> snd p = v3add (v3scal s (m3v Rm (fst p))) t.
Proof.
  intros C p I. apply residual_zero. eapply total_zero; [|exact C|apply in_map; exact I].
  intros x Hx. apply in_map_iff in Hx. destruct Hx as (q & <- & _). apply residual_nonneg.
Qed.
Lemma cost_exact Rm t s l : (forall p, In p l -> snd p = v3add (v3scal s (m3v Rm (fst p))) t) -> cost Rm t s l = 0.
Proof.
  unfold cost, total. induction l as [|p l IH]; intros H; [reflexivity|]. cbn [map fold_right]. rewrite IH by (intros; apply H; right; auto).
  unfold residual. rewrite (H p (or_introl eq_refl)). set (w := v3add _ _). destruct w. m3simp. ring.
Qed.
