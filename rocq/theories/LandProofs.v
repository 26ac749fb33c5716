(** Proofs of C34. *)
From Coq Require Import Reals Lra Psatz List.
From Verif Require Import RBool Outcome GeoModel GeoSpec GeoProofs ExpProofs EulerProofs LandModel LandSpec.
Import ListNotations.
Open Scope R_scope.

Lemma v3norm_pos p : p <> v3zero -> 0 < v3norm p.
Proof.
  intros N. unfold v3norm. apply sqrt_lt_R0. unfold v3dot.
  destruct (Req_dec (vx p) 0) as [X|X]; [destruct (Req_dec (vy p) 0) as [Y|Y]; [destruct (Req_dec (vz p) 0) as [Z|Z]|]|].
  - exfalso. apply N. apply v3_ext; assumption.
  - pose proof (Rlt_0_sqr _ Z). pose proof (Rle_0_sqr (vx p)). pose proof (Rle_0_sqr (vy p)). unfold Rsqr in *. lra.
  - pose proof (Rlt_0_sqr _ Y). pose proof (Rle_0_sqr (vx p)). pose proof (Rle_0_sqr (vz p)). unfold Rsqr in *. lra.
  - pose proof (Rlt_0_sqr _ X). pose proof (Rle_0_sqr (vy p)). pose proof (Rle_0_sqr (vz p)). unfold Rsqr in *. lra.
Qed.
Lemma full_inv_round p : p <> v3zero -> full_inv_xyz (full_inv_of p) = p.
Proof.
  intros N. pose proof (v3norm_pos p N) as P. set (n := v3norm p) in *.
  assert (S1 : n * n = vx p * vx p + vy p * vy p + vz p * vz p).
  { unfold n, v3norm. rewrite sqrt_sqrt; [reflexivity|]. unfold v3dot. pose proof (Rle_0_sqr (vx p)); pose proof (Rle_0_sqr (vy p)); pose proof (Rle_0_sqr (vz p)); unfold Rsqr in *; lra. }
  assert (B : -1 <= 1 / n * vz p <= 1).
  { assert (Q : vz p * vz p <= n * n) by (rewrite S1; nra). assert (- n <= vz p <= n) by (split; nra).
    replace (1 / n * vz p) with (vz p / n) by (field; lra). split; [apply (Rmult_le_reg_r n); [lra|]; field_simplify; lra|apply (Rmult_le_reg_r n); [lra|]; field_simplify; lra]. }
  unfold full_inv_xyz, full_inv_of. cbv zeta. fold n. cbn [vx vy vz].
  rewrite cos_acos, sin_acos by exact B.
  assert (E : sqrt (1 - (1 / n * vz p)²) = sqrt (vx p * vx p + vy p * vy p) / n).
  { replace (1 - (1 / n * vz p)²) with ((vx p * vx p + vy p * vy p) / (n * n)).
    - rewrite sqrt_div_alt by nra. f_equal. apply sqrt_square. lra.
    - unfold Rsqr. replace (vx p * vx p + vy p * vy p) with (n * n - vz p * vz p) by lra. field. lra. }
  rewrite E.
  destruct (Req_dec (vx p) 0) as [X|X]; [destruct (Req_dec (vy p) 0) as [Y|Y]|].
  - rewrite X, Y. replace (0 * 0 + 0 * 0) with 0 by ring. rewrite sqrt_0. apply v3_ext; cbn; try field_simplify; lra.
  - destruct (atan2_polar (vy p) (vx p)) as [A C]; [auto|]. set (h := sqrt (vx p * vx p + vy p * vy p)) in *.
    apply v3_ext; cbn [vx vy vz].
    + transitivity (h * cos (atan2 (vy p) (vx p))); [field; lra|symmetry; exact A].
    + transitivity (h * sin (atan2 (vy p) (vx p))); [field; lra|symmetry; exact C].
    + field. lra.
  - destruct (atan2_polar (vy p) (vx p)) as [A C]; [auto|]. set (h := sqrt (vx p * vx p + vy p * vy p)) in *.
    apply v3_ext; cbn [vx vy vz].
    + transitivity (h * cos (atan2 (vy p) (vx p))); [field; lra|symmetry; exact A].
    + transitivity (h * sin (atan2 (vy p) (vx p))); [field; lra|symmetry; exact C].
    + field. lra.
Qed.
Lemma msckf_round p : vz p <> 0 -> msckf_xyz (msckf_of p) = p.
Proof. intros N. apply v3_ext; unfold msckf_xyz, msckf_of; cbn [vx vy vz]; field; auto. Qed.
Lemma msckf_round' p : vz p <> 0 -> msckf_of (msckf_xyz p) = p.
Proof. intros N. apply v3_ext; unfold msckf_xyz, msckf_of; cbn [vx vy vz]; field; auto. Qed.
Lemma single_round p : vz p <> 0 -> v3scal (1 / (1 / vz p)) (v3scal (1 / vz p) p) = p.
Proof. intros N. apply v3_ext; cbn [v3scal vx vy vz]; field; auto. Qed.
Lemma v3of_list p : v3of (v3list p) = Ok p. Proof. destruct p; reflexivity. Qed.

Lemma land_round l p : expressible (l_rep l) p -> exists l', set_from_xyz l p false = Ok l' /\ get_xyz l' false = Ok p /\ l_fej l' = l_fej l /\ l_rep l' = l_rep l.
Proof.
  unfold set_from_xyz. destruct (l_rep l) eqn:E; intros H; cbn in H; try contradiction; (eexists; split; [reflexivity|]);
  unfold get_xyz; cbn [set_lv l_rep l_val l_uv0 l_fej]; rewrite ?E, ?v3of_list; cbn [obind]; (split; [f_equal|auto]); auto using full_inv_round, msckf_round, single_round.
Qed.
Lemma land_round_fej l p : expressible (l_rep l) p -> l_rep l <> AnchMsckf -> l_rep l <> AnchSingle ->
  exists l', set_from_xyz l p true = Ok l' /\ get_xyz l' true = Ok p /\ get_xyz l' false = get_xyz l false.
Proof.
  unfold set_from_xyz. destruct (l_rep l) eqn:E; intros H N1 N2; cbn in H; try contradiction; try congruence; (eexists; split; [reflexivity|]);
  unfold get_xyz; cbn [set_lv l_rep l_val l_uv0 l_fej]; rewrite ?E, ?v3of_list; cbn [obind]; (split; [f_equal|reflexivity]); auto using full_inv_round, msckf_round, single_round.
Qed.
(** MSCKF inverse depth and single depth: the first estimate is ignored by get_xyz *)
Lemma land_fej_ignored l p q : l_rep l = AnchMsckf \/ l_rep l = AnchSingle -> vz p <> 0 ->
  exists l1 l2, set_from_xyz l p false = Ok l1 /\ set_from_xyz l1 q true = Ok l2 /\ get_xyz l2 true = Ok p.
Proof.
  destruct l as [r v f u uf]. cbn [l_rep]. intros [-> | ->] N; do 2 eexists; (split; [reflexivity|]; split; [reflexivity|]);
  unfold get_xyz; cbn [set_lv l_rep l_val l_uv0 l_fej]; rewrite ?v3of_list; cbn [obind]; f_equal; auto using msckf_round, single_round.
Qed.
