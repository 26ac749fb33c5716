(** The spline inside exp_se3's small-angle switch, just after a knot (C39). *)
From Coq Require Import Reals Lra Psatz Bool List.
From Coquelicot Require Import Coquelicot.
From Verif Require Import RBool Outcome GeoModel GeoSpec GeoProofs ExpProofs Se3Proofs JacSo3 Calc3 GeoMore EvalThms.
From Verif Require Import BsplModel BsplSpec BsplFind BsplDiff BsplSeg BsplThms BsplKnot.
Open Scope R_scope.

Lemma log_safe_angle T : log_safe (seR T) -> v3norm (fst (log_se3 T)) = 0 \/ 3 / 10 ^ 4 < v3norm (fst (log_se3 T)).
Proof.
  intros (Hr & H). assert (E : fst (log_se3 T) = log_so3 (seR T)).
  { unfold log_se3. destruct (Rltb_spec (v3norm (log_so3 (seR T))) (1 / 10 ^ 10)); reflexivity. }
  rewrite E. destruct H as [->|(H1 & H2)]; [left; rewrite log_id; apply norm_v3zero|right].
  destruct (exp_log_so3 (seR T) Hr H1 H2) as (_ & N).
  assert (Hc : -1 < (m3trace (seR T) - 1) / 2 < 1) by lra.
  pose proof (acos_range _ Hc) as Ht. rewrite <- N in Ht.
  assert (C : cos (v3norm (log_so3 (seR T))) = (m3trace (seR T) - 1) / 2) by (rewrite N; apply cos_acos; lra).
  pose proof (one_minus_cos_le (v3norm (log_so3 (seR T)))) as B. rewrite C in B. specialize (B ltac:(lra)).
  destruct (Rlt_or_le (3 / 10 ^ 4) (v3norm (log_so3 (seR T)))) as [L|L]; auto.
  assert (v3norm (log_so3 (seR T)) * v3norm (log_so3 (seR T)) <= 3 / 10 ^ 4 * (3 / 10 ^ 4)) by (apply Rmult_le_compat; lra). lra.
Qed.

Lemma cb0_range u : 0 <= u <= 1 -> 5 / 6 <= cb0 u.
Proof. intros H. unfold cb0. assert (0 <= u * (3 - 3 * u)) by nra. assert (0 <= u * u) by nra. assert (0 <= u * u * u) by nra. lra. Qed.
Lemma cb1_range u : 0 <= u <= 1 -> 1 / 6 <= cb1 u.
Proof. intros H. unfold cb1. assert (0 <= u * u * (1 - u)) by (apply Rmult_le_pos; nra). assert (0 <= u * u) by nra. nra. Qed.

(** with exact logarithms, the switch matters only in the first part of a segment *)
Lemma clear_when a b c d t :
  log_safe (m3mul (m3tr (seR (snd a))) (seR (snd b))) -> log_safe (m3mul (m3tr (seR (snd b))) (seR (snd c))) ->
  log_safe (m3mul (m3tr (seR (snd c))) (seR (snd d))) -> fst b <= t <= fst c -> fst b < fst c ->
  t = fst b \/ 13 / 100 * (fst c - fst b) <= t - fst b \/ m3mul (m3tr (seR (snd c))) (seR (snd d)) = m3id -> clear_of_switch a b c d t.
Proof.
  intros S0 S1 S2 Ht Hbc Hc. unfold clear_of_switch, reg3. set (u := (t - fst b) / (fst c - fst b)).
  assert (Hu : 0 <= u <= 1).
  { unfold u. split; [apply Rdiv_le_0_compat; lra|]. apply (Rmult_le_reg_r (fst c - fst b)); [lra|]. unfold Rdiv. rewrite Rmult_assoc, Rinv_l by lra. lra. }
  pose proof (log_safe_angle (se3mul (Inv_se3 (snd a)) (snd b)) S0) as A0.
  pose proof (log_safe_angle (se3mul (Inv_se3 (snd b)) (snd c)) S1) as A1.
  pose proof (log_safe_angle (se3mul (Inv_se3 (snd c)) (snd d)) S2) as A2.
  split; [|split].
  - destruct A0 as [A0|A0]; [left; exact A0|right; left]. pose proof (cb0_range u Hu). rewrite Rabs_right by lra. unfold seg. nra.
  - destruct A1 as [A1|A1]; [left; exact A1|right; left]. pose proof (cb1_range u Hu). rewrite Rabs_right by lra. unfold seg. nra.
  - destruct Hc as [Hc|[Hc|Hc]].
    + right; right. unfold u. rewrite Hc. unfold cb2, Rdiv. ring.
    + destruct A2 as [A2|A2]; [left; exact A2|right; left].
      assert (13 / 100 <= u).
      { unfold u. apply (Rmult_le_reg_r (fst c - fst b)); [lra|]. unfold Rdiv at 2. rewrite Rmult_assoc, Rinv_l by lra. lra. }
      assert (Q : 13 / 100 * (13 / 100) * (13 / 100) <= u * u * u) by (apply Rmult_le_compat; [lra|lra|apply Rmult_le_compat; lra|lra]).
      unfold cb2. rewrite Rabs_right by lra. unfold seg.
      assert (1 / 6 * (13 / 100 * (13 / 100) * (13 / 100)) * (3 / 10 ^ 4) < 1 / 6 * (u * u * u) * v3norm (fst (log_se3 (se3mul (Inv_se3 (snd c)) (snd d))))).
      { apply Rle_lt_trans with (1 / 6 * (u * u * u) * (3 / 10 ^ 4)); [apply Rmult_le_compat_r; lra|apply Rmult_lt_compat_l; lra]. }
      lra.
    + left. destruct A2 as [A2|A2]; [exact A2|]. exfalso.
      assert (E : fst (log_se3 (se3mul (Inv_se3 (snd c)) (snd d))) = v3zero).
      { unfold log_se3. cbn [se3mul Inv_se3 seR]. rewrite Hc, log_id.
        destruct (Rltb_spec (v3norm v3zero) (1 / 10 ^ 10)); reflexivity. }
      rewrite E, norm_v3zero in A2. lra.
Qed.

(** the position's true derivative when only the third factor is below the switch *)
Lemma near_formula p0 o0 o1 o2 t1 DT t : DT <> 0 -> let u := (t - t1) / DT in
  regular (cb0 u) (fst o0) -> regular (cb1 u) (fst o1) -> Rabs (cb2 u) * v3norm (fst o2) < 1 / 10 ^ 7 ->
  let W := skew_x (fst o2) in
  v3_derive (fun s => m4t (interp_pose p0 o0 o1 o2 ((s - t1) / DT))) t
    (v3sub (m4t (interp_vel p0 o0 o1 o2 DT u))
       (m3v (m3mul (seR p0) (m3mul (seR (exp_at (cb0 u) o0)) (seR (exp_at (cb1 u) o1))))
            (v3scal (cb2dot DT u * (cb2 u * cb2 u * cb2 u) / 6) (m3v (m3mul W (m3mul W W)) (snd o2))))).
Proof.
  intros HD u R0 R1 R2 W. destruct (basis_derive t1 DT t HD) as ((B0 & _) & (B1 & _) & (B2 & _)). cbv zeta in B0, B1, B2.
  pose proof (exp_at_derive _ _ _ o0 B0 R0) as D0. pose proof (exp_at_derive _ _ _ o1 B1 R1) as D1.
  pose proof (exp_at_small_derive _ _ _ o2 B2 R2) as D2. cbv beta zeta in D0, D1, D2. fold u W in D0, D1, D2.
  pose proof (m4d_left (m4of p0) _ _ _ (m4d_mul _ _ _ _ _ (m4d_mul _ _ _ _ _ D0 D1) D2)) as D. cbv beta in D.
  apply (m4_derive_ext _ (fun s => interp_pose p0 o0 o1 o2 ((s - t1) / DT))) in D; [|intros s; symmetry; apply interp_pose_assoc].
  destruct D as (_ & D & _). eapply v3_derive_eq; [exact D|]. clear D D0 D1 D2. cbv beta. fold u.
  unfold interp_vel. cbv zeta. rewrite (exp_at_small (cb2 u) o2 R2).
  set (A0 := m4of (exp_at (cb0 u) o0)). set (A1 := m4of (exp_at (cb1 u) o1)).
  change (seR (exp_at (cb0 u) o0)) with (m4R A0). change (seR (exp_at (cb1 u) o1)) with (m4R A1).
  set (d0 := m4mul (m4scal (cb0dot DT u) (hat_se3 o0)) A0). set (d1 := m4mul (m4scal (cb1dot DT u) (hat_se3 o1)) A1).
  set (A2 := poly o2 _ _ _ _ _).
  set (x := M4 _ _ 0). set (y := m4mul (m4scal (cb2dot DT u) (hat_se3 o2)) A2).
  assert (E : x = m4add y (m4scal (-1) (M4 (m3scal (cb2dot DT u * (cb2 u * cb2 u) / 2) (m3mul W (m3mul W W)))
                 (v3scal (cb2dot DT u * (cb2 u * cb2 u * cb2 u) / 6) (m3v (m3mul W (m3mul W W)) (snd o2))) 0))).
  { unfold x, y, A2. clear. unfold poly, hat_se3. cbn [m4mul m4scal m4add m4R m4t m4c]. fold W. generalize W. intros M.
    apply m4_ext; [apply m3_ext|apply v3_ext|]; simpl; field. }
  rewrite E. clear E. set (q := v3scal (cb2dot DT u * (cb2 u * cb2 u * cb2 u) / 6) _). set (Q := m3scal _ (m3mul W _)).
  clearbody q Q y x A2 d0 d1 A0 A1. clear.
  assert (G : forall a b : m4, m4t (m4mul (m4of p0) (m4add a (m4mul b (m4add y (m4scal (-1) (M4 Q q 0)))))) =
    v3sub (m4t (m4mul (m4of p0) (m4add a (m4mul b y)))) (m3v (m3mul (seR p0) (m4R b)) q)).
  { intros a b. apply v3_ext; simpl; ring. }
  rewrite G. f_equal. f_equal. f_equal. rewrite m4mul_add_l. reflexivity.
Qed.

Lemma skew_norm w x : v3norm (m3v (skew_x w) x) <= v3norm w * v3norm x.
Proof.
  unfold v3norm at 1. rewrite <- (sqrt_Rsqr (v3norm w * v3norm x)) by (apply Rmult_le_pos; apply v3norm_nonneg).
  apply sqrt_le_1_alt. unfold Rsqr. replace (v3norm w * v3norm x * (v3norm w * v3norm x)) with ((v3norm w * v3norm w) * (v3norm x * v3norm x)) by ring.
  rewrite !v3norm_sq. destruct w as [a b c], x as [p q r]. unfold v3dot; simpl.
  pose proof (Rle_0_sqr (a * p + b * q + c * r)) as Sq. unfold Rsqr in Sq.
  apply Rminus_le. match goal with |- ?x <= 0 => replace x with (- ((a * p + b * q + c * r) * (a * p + b * q + c * r))) by ring end. lra.
Qed.

Lemma cb2_range u : 0 <= u <= 1 -> 0 <= cb2 u.
Proof. intros H. unfold cb2. assert (0 <= u * u) by nra. assert (0 <= u * u * u) by nra. lra. Qed.

(** just after a knot the reported velocity is off by at most 1e-22 segment lengths per segment duration *)
Lemma velocity_near l a b c d t Rf pf old ok R p w v :
  by_time l -> around t l a b c d -> fst b < t -> pose_curve l Rf pf ->
  let u := (t - fst b) / (fst c - fst b) in let o2 := seg (snd c) (snd d) in
  is_rot (seR (snd a)) -> regular (cb0 u) (fst (seg (snd a) (snd b))) -> regular (cb1 u) (fst (seg (snd b) (snd c))) ->
  cb2 u * v3norm (fst o2) < 1 / 10 ^ 7 ->
  get_velocity l t old = Ok (ok, (R, p), (w, v)) ->
  exists D, v3_derive pf t D /\ v3norm (v3sub v D) <= 1 / 10 ^ 22 * (v3norm (snd o2) / (fst c - fst b)).
Proof.
  intros Hs Ha Hb Hp u o2 Hrot R0 R1 R2 Hv. rewrite (get_velocity_around l t old a b c d Hs Ha) in Hv.
  apply ok_inj in Hv. apply pair_inj in Hv as (Hv & Hw). apply pair_inj in Hv as (<- & Hv). apply pair_inj in Hv as (<- & <-). apply pair_inj in Hw as (<- & <-).
  assert (Ht : fst b <= t < fst c) by (destruct Ha as (? & ? & _ & Ha); lra).
  assert (Hu : 0 <= u <= 1).
  { unfold u. split; [apply Rdiv_le_0_compat; lra|]. apply (Rmult_le_reg_r (fst c - fst b)); [lra|]. unfold Rdiv. rewrite Rmult_assoc, Rinv_l by lra. lra. }
  pose proof (cb2_range u Hu) as Hc2.
  assert (HD : fst c - fst b <> 0) by lra.
  pose proof (near_formula (snd a) _ _ o2 (fst b) (fst c - fst b) t HD R0 R1) as F. cbv zeta in F. fold u in F.
  specialize (F ltac:(rewrite Rabs_right by lra; exact R2)).
  eexists. split.
  - eapply v3_derive_ext_loc; [|exact F]. eapply filter_imp; [|exact (around_near l t a b c d Ha Hb)].
    intros s Hl. destruct (Hp s) as (ok' & E). rewrite (get_pose_around l s a b c d Hs Hl) in E.
    apply ok_inj in E. apply pair_inj in E as (_ & E). apply pair_inj in E as (_ & <-). reflexivity.
  - match goal with |- v3norm (v3sub (m4t (seg_vel a b c d t)) (v3sub _ (m3v ?M ?x))) <= _ =>
      replace (v3sub (m4t (seg_vel a b c d t)) (v3sub (m4t (interp_vel (snd a) (seg (snd a) (snd b)) (seg (snd b) (snd c)) o2 (fst c - fst b) u)) (m3v M x)))
        with (m3v M x); [assert (HM : is_rot M)|] end.
    { repeat apply is_rot_mul; auto; apply exp_at_rot; auto. }
    2: { change (seg_vel a b c d t) with (interp_vel (snd a) (seg (snd a) (snd b)) (seg (snd b) (snd c)) o2 (fst c - fst b) u).
         generalize (m4t (interp_vel (snd a) (seg (snd a) (snd b)) (seg (snd b) (snd c)) o2 (fst c - fst b) u)). intros x. apply v3_ext; simpl; ring. }
    rewrite norm_rot by exact HM. clear HM F. rewrite v3norm_scal, !m3v_mul.
    set (n := v3norm (fst o2)) in *. set (m := v3norm (snd o2)).
    assert (Hn : 0 <= n) by apply v3norm_nonneg. assert (Hm : 0 <= m) by apply v3norm_nonneg.
    set (B := cb2 u) in *.
    assert (K : v3norm (m3v (skew_x (fst o2)) (m3v (skew_x (fst o2)) (m3v (skew_x (fst o2)) (snd o2)))) <= n * n * n * m).
    { eapply Rle_trans; [apply skew_norm|]. fold n. replace (n * n * n * m) with (n * (n * (n * m))) by ring.
      apply Rmult_le_compat_l; [auto|]. eapply Rle_trans; [apply skew_norm|]. fold n. apply Rmult_le_compat_l; [auto|]. apply skew_norm. }
    set (DT := fst c - fst b) in *. assert (PD : 0 < DT) by (unfold DT; lra).
    assert (Hb2 : 0 <= cb2dot DT u <= / (2 * DT)).
    { unfold cb2dot. assert (0 <= u * u <= 1) by nra. assert (0 < 1 / (6 * DT)) by (apply Rdiv_lt_0_compat; lra).
      split; [apply Rmult_le_pos; lra|]. replace (/ (2 * DT)) with (1 / (6 * DT) * 3) by (field; lra). apply Rmult_le_compat_l; lra. }
    assert (HB3 : 0 <= B * B * B) by (apply Rmult_le_pos; [apply Rmult_le_pos|]; auto).
    rewrite Rabs_right by (apply Rle_ge; apply Rmult_le_pos; [apply Rmult_le_pos; lra|lra]).
    assert (X : B * n * (B * n) * (B * n) <= 1 / 10 ^ 7 * (1 / 10 ^ 7) * (1 / 10 ^ 7)).
    { assert (0 <= B * n) by (apply Rmult_le_pos; auto).
      apply Rmult_le_compat; try lra; [apply Rmult_le_pos; auto|]. apply Rmult_le_compat; lra. }
    eapply Rle_trans; [apply Rmult_le_compat_l; [apply Rmult_le_pos; [apply Rmult_le_pos; lra|lra]|exact K]|].
    replace (cb2dot DT u * (B * B * B) / 6 * (n * n * n * m)) with (cb2dot DT u * ((B * n * (B * n) * (B * n)) / 6 * m)) by field.
    assert (P0 : 0 <= B * n * (B * n) * (B * n)) by (assert (0 <= B * n) by (apply Rmult_le_pos; auto); apply Rmult_le_pos; [apply Rmult_le_pos|]; auto).
    apply Rle_trans with (/ (2 * DT) * ((1 / 10 ^ 7 * (1 / 10 ^ 7) * (1 / 10 ^ 7)) / 6 * m)).
    + apply Rmult_le_compat; [lra|apply Rmult_le_pos; lra|lra|apply Rmult_le_compat_r; lra].
    + replace (/ (2 * DT) * (1 / 10 ^ 7 * (1 / 10 ^ 7) * (1 / 10 ^ 7) / 6 * m)) with (1 / 12 * (1 / 10 ^ 21) * (m / DT)) by (field; lra).
      apply Rmult_le_compat_r; [apply Rdiv_le_0_compat; lra|lra].
Qed.
