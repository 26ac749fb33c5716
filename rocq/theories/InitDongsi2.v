From Coq Require Import Reals List Arith Bool Lia Lra.
From Verif Require Import RBool Outcome GeoModel GeoSpec GeoProofs Lin ImuModel ImuSpec DbModel DbSpec InitModel InitSpec InitDongsi.
Import ListNotations.
Open Scope R_scope.


Lemma m3det_adj A v : m3v (adj3 A) (m3v A v) = v3scal (m3det A) v.
Proof. destruct A, v; unfold m3v, adj3, m3det, v3scal; simpl; f_equal; ring. Qed.

(** for a symmetric D and a multiplier that is not an eigenvalue: root iff the solution has norm g *)
Lemma dongsi_root D d g l v : 0 < g -> m3tr D = D -> m3det (shifted D l) <> 0 -> m3v (shifted D l) v = d ->
  (horner (compute_dongsi_coeff D d g) l = 0 <-> v3norm v = g).
Proof.
  intros Hg Hs Hdet Hv. rewrite dongsi_poly by lra.
  assert (Ad : m3v (adj3 (shifted D l)) d = v3scal (m3det (shifted D l)) v) by (rewrite <- Hv; apply m3det_adj).
  rewrite Ad. set (dt := m3det (shifted D l)) in *.
  assert (E : v3dot d (m3v (adj3 (shifted D l)) (v3scal dt v)) = dt * dt * v3dot v v).
  { rewrite m3v_scal. assert (Sw : forall a b, v3dot a (m3v (adj3 (shifted D l)) b) = v3dot (m3v (adj3 (shifted D l)) a) b).
    { intros a b. destruct D as [a0 a1 a2 a3 a4 a5 a6 a7 a8], a, b. injection Hs as E1 E2 _ E3 _ _. subst.
      unfold v3dot, m3v, adj3, shifted, m3sub, m3scal, m3id. simpl. ring. }
    replace (v3dot d (v3scal dt (m3v (adj3 (shifted D l)) v))) with (dt * v3dot d (m3v (adj3 (shifted D l)) v))
      by (unfold v3dot, v3scal; simpl; ring).
    rewrite Sw, Ad. unfold v3dot, v3scal; simpl; ring. }
  rewrite E.
  assert (Hn : v3norm v * v3norm v = v3dot v v) by (unfold v3norm; apply sqrt_sqrt; unfold v3dot; nra).
  assert (Hp : 0 <= v3norm v) by apply sqrt_pos.
  replace (dt * dt - dt * dt * v3dot v v / (g * g)) with (dt * dt * (1 - v3dot v v / (g * g))) by (field; lra).
  split; intros H.
  - apply Rmult_integral in H. destruct H as [H|H]; [exfalso; apply Hdet; nra|].
    assert (v3dot v v = g * g) by (apply (Rmult_eq_reg_r (/ (g * g))); [rewrite Rinv_r by nra; unfold Rdiv in H; lra|apply Rinv_neq_0_compat; nra]).
    nra.
  - rewrite <- Hn, H. field. lra.
Qed.

(** real eigenvalues of the companion matrix are the real roots *)
Lemma companion_root c0 c1 c2 c3 c4 c5 c6 l : c0 = 1 ->
  let c := [c0; c1; c2; c3; c4; c5; c6] in
  ((exists u, ~ (forall i, (i < 6)%nat -> u i = 0) /\
     forall j, (j < 6)%nat -> sumn 6 (fun i => u i * companion c i j) = l * u j) <-> horner c l = 0).
Proof.
  intros -> c. unfold horner, c. cbn [fold_left]. split.
  - intros (u & Hu & E).
    pose proof (E 0%nat ltac:(lia)) as E0. pose proof (E 1%nat ltac:(lia)) as E1. pose proof (E 2%nat ltac:(lia)) as E2.
    pose proof (E 3%nat ltac:(lia)) as E3. pose proof (E 4%nat ltac:(lia)) as E4. pose proof (E 5%nat ltac:(lia)) as E5.
    unfold companion, c in *. simpl in E0, E1, E2, E3, E4, E5.
    assert (A1 : u 1%nat = l * u 0%nat) by lra. assert (A2 : u 2%nat = l * u 1%nat) by lra. assert (A3 : u 3%nat = l * u 2%nat) by lra.
    assert (A4 : u 4%nat = l * u 3%nat) by lra. assert (A5 : u 5%nat = l * u 4%nat) by lra.
    assert (H0 : u 0%nat <> 0).
    { intros Z. apply Hu. intros i Hi. rewrite Z in A1. rewrite A1 in A2. rewrite A2 in A3. rewrite A3 in A4. rewrite A4 in A5.
      destruct i as [|[|[|[|[|[|i]]]]]]; try lia; try rewrite Z; try rewrite A1; try rewrite A2; try rewrite A3; try rewrite A4; try rewrite A5; ring. }
    rewrite A5, A4, A3, A2, A1 in E5.
    apply (Rmult_eq_reg_l (u 0%nat)); auto. ring_simplify. ring_simplify in E5. lra.
  - intros H. exists (fun i => l ^ i). split.
    + intros Z. specialize (Z 0%nat ltac:(lia)). simpl in Z. lra.
    + intros j Hj. unfold companion, c. destruct j as [|[|[|[|[|[|j]]]]]]; try lia; simpl; try ring.
      apply Rminus_diag_uniq. ring_simplify. ring_simplify in H. lra.
Qed.
