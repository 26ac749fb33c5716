(** Proofs of C32 and C33. *)
From Coq Require Import Reals Lra Lia Psatz.
From Coquelicot Require Import Coquelicot.
From Verif Require Import RBool Lin CamModel CamSpec GeoModel JacSo3 Calc3.
Open Scope R_scope.

Lemma sq_r (z : vec) : sqrt (z 0%nat * z 0%nat + z 1%nat * z 1%nat) * sqrt (z 0%nat * z 0%nat + z 1%nat * z 1%nat) = z 0%nat * z 0%nat + z 1%nat * z 1%nat.
Proof. apply sqrt_sqrt. pose proof (Rle_0_sqr (z 0%nat)). pose proof (Rle_0_sqr (z 1%nat)). unfold Rsqr in *. lra. Qed.

Lemma rt_distort_poly d z i : rt_distort d z i =
  let r2 := z 0%nat * z 0%nat + z 1%nat * z 1%nat in
  match i with
  | O => d 0%nat * (z 0%nat * (1 + d 4%nat * r2 + d 5%nat * (r2 * r2)) + 2 * d 6%nat * z 0%nat * z 1%nat + d 7%nat * (r2 + 2 * z 0%nat * z 0%nat)) + d 2%nat
  | _ => d 1%nat * (z 1%nat * (1 + d 4%nat * r2 + d 5%nat * (r2 * r2)) + d 6%nat * (r2 + 2 * z 1%nat * z 1%nat) + 2 * d 7%nat * z 0%nat * z 1%nat) + d 3%nat
  end.
Proof. unfold rt_distort, vec2. cbv zeta. rewrite sq_r. reflexivity. Qed.

Ltac idx8 H := let a := fresh in
  pose proof (H 0%nat ltac:(lia)); pose proof (H 1%nat ltac:(lia)); pose proof (H 2%nat ltac:(lia)); pose proof (H 3%nat ltac:(lia));
  pose proof (H 4%nat ltac:(lia)); pose proof (H 5%nat ltac:(lia)); pose proof (H 6%nat ltac:(lia)); pose proof (H 7%nat ltac:(lia)).

Ltac dtac := repeat lazymatch goal with
  | |- is_derive (fun t => @?a t + @?b t) _ _ => apply (der_plus a b)
  | |- is_derive (fun t => @?a t - @?b t) _ _ => apply (der_minus a b)
  | |- is_derive (fun t => @?a t * @?b t) _ _ => apply (der_mult a b)
  | |- is_derive (fun t => ?c) _ _ => first [apply (der_const c)|eassumption]
  end.

Lemma rt_jac d z : pixel_jacobians rt_distort d z (rt_dzn d z) (rt_dzeta d z).
Proof.
  intros dc zc t d' z' Ed Ez Hd Hz i Hi.
  idx8 Hd. pose proof (Hz 0%nat ltac:(lia)) as Z0. pose proof (Hz 1%nat ltac:(lia)) as Z1.
  eapply is_derive_ext. { intros s. symmetry. apply rt_distort_poly. }
  destruct i as [|[|i]]; [| |lia]; cbv zeta.
  all: eapply is_derive_eq; [dtac|]; cbv beta; rewrite ?Ed, ?Ez; unfold mvec, rt_dzn, rt_dzeta, mat22, mat2, row8; cbv zeta; rewrite sq_r; cbn [sumn]; ring.
Qed.

(** *** fisheye *)
Lemma der_pow (f : R -> R) (x a : R) (n : nat) : is_derive f x a -> is_derive (fun t => f t ^ S n) x (INR (S n) * f x ^ n * a).
Proof. intros H. eapply is_derive_eq; [apply (is_derive_pow f (S n) x a H)|]. simpl pred. ring. Qed.
Lemma der_sqrt (f : R -> R) (x a : R) : 0 < f x -> is_derive f x a -> is_derive (fun t => sqrt (f t)) x (a / (2 * sqrt (f x))).
Proof.
  intros P H. eapply is_derive_eq; [apply (is_derive_comp (K:=R_AbsRing) (V:=R_NormedModule) sqrt f x); [|exact H]|].
  - auto_derive; [exact P|]. reflexivity.
  - unfold scal; simpl; unfold mult; simpl. field. apply Rgt_not_eq. apply sqrt_lt_R0. exact P.
Qed.
Lemma der_atan (f : R -> R) (x a : R) : is_derive f x a -> is_derive (fun t => atan (f t)) x (a / (1 + f x * f x)).
Proof.
  intros H. eapply is_derive_eq; [apply (is_derive_comp (K:=R_AbsRing) (V:=R_NormedModule) atan f x); [|exact H]|].
  - apply is_derive_Reals. apply derivable_pt_lim_atan.
  - unfold scal; simpl; unfold mult; simpl. field_simplify; [reflexivity| |]; pose proof (Rle_0_sqr (f x)); unfold Rsqr in *; nra.
Qed.
Lemma der_r (zc : R -> vec) t (z' : vec) : 0 < radius (zc t) -> vec_derive 2 zc t z' ->
  is_derive (fun s => radius (zc s)) t ((zc t 0%nat * z' 0%nat + zc t 1%nat * z' 1%nat) / radius (zc t)).
Proof.
  intros P Hz. pose proof (Hz 0%nat ltac:(lia)) as Z0. pose proof (Hz 1%nat ltac:(lia)) as Z1. unfold radius in *.
  assert (Q : 0 < zc t 0%nat * zc t 0%nat + zc t 1%nat * zc t 1%nat).
  { destruct (Rle_or_lt (zc t 0%nat * zc t 0%nat + zc t 1%nat * zc t 1%nat) 0) as [L|L]; [|exact L]. rewrite sqrt_neg_0 in P by exact L. lra. }
  eapply is_derive_eq; [apply der_sqrt; [exact Q|dtac]|]. cbv beta. field. lra.
Qed.
Lemma locally_gt (f : R -> R) (x a c : R) : is_derive f x a -> c < f x -> locally x (fun t => c < f t).
Proof.
  intros H L. assert (C : continuous f x) by (apply (ex_derive_continuous (K:=R_AbsRing) (V:=R_NormedModule)); exists a; exact H).
  apply (C (fun y => c < y)). apply (open_gt c (f x) L).
Qed.
Lemma locally_lt (f : R -> R) (x a c : R) : is_derive f x a -> f x < c -> locally x (fun t => f t < c).
Proof.
  intros H L. assert (C : continuous f x) by (apply (ex_derive_continuous (K:=R_AbsRing) (V:=R_NormedModule)); exists a; exact H).
  apply (C (fun y => y < c)). apply (open_lt c (f x) L).
Qed.

Definition dthd (d : vec) (th : R) : R := 1 + 3 * d 4%nat * th ^ 2 + 5 * d 5%nat * th ^ 4 + 7 * d 6%nat * th ^ 6 + 9 * d 7%nat * th ^ 8.
Lemma der_thd (dc : R -> vec) (th : R -> R) t (d' : vec) th' : vec_derive 8 dc t d' -> is_derive th t th' ->
  is_derive (fun s => eq_thd (dc s) (th s)) t
    (dthd (dc t) (th t) * th' + (d' 4%nat * th t ^ 3 + d' 5%nat * th t ^ 5 + d' 6%nat * th t ^ 7 + d' 7%nat * th t ^ 9)).
Proof.
  intros Hd Ht. pose proof (Hd 4%nat ltac:(lia)). pose proof (Hd 5%nat ltac:(lia)). pose proof (Hd 6%nat ltac:(lia)). pose proof (Hd 7%nat ltac:(lia)).
  pose proof (der_pow th t th' 2 Ht). pose proof (der_pow th t th' 4 Ht). pose proof (der_pow th t th' 6 Ht). pose proof (der_pow th t th' 8 Ht).
  unfold eq_thd. eapply is_derive_eq.
  - apply der_plus; [apply der_plus; [apply der_plus; [apply der_plus; [exact Ht|]|]|]|]; (apply der_mult; [eassumption|]); eassumption.
  - cbv beta. unfold dthd. generalize (th t) (dc t 4%nat) (dc t 5%nat) (dc t 6%nat) (dc t 7%nat). intros. cbn [INR]. ring.
Qed.
Lemma eq_jac d z : 1 / 100000000 < radius z -> pixel_jacobians eq_distort d z (eq_dzn d z) (eq_dzeta d z).
Proof.
  intros P dc zc t d' z' Ed Ez Hd Hz.
  assert (Rt : radius (zc t) = radius z) by (unfold radius; rewrite !Ez; reflexivity).
  assert (P' : 0 < radius (zc t)) by (rewrite Rt; lra).
  pose proof (der_r zc t z' P' Hz) as DR.
  assert (L : locally t (fun s => 1 / 100000000 < radius (zc s))) by (eapply locally_gt; [exact DR|rewrite Rt; exact P]).
  pose proof (Hd 0%nat ltac:(lia)) as D0. pose proof (Hd 1%nat ltac:(lia)) as D1. pose proof (Hd 2%nat ltac:(lia)) as D2. pose proof (Hd 3%nat ltac:(lia)) as D3.
  pose proof (Hz 0%nat ltac:(lia)) as Z0. pose proof (Hz 1%nat ltac:(lia)) as Z1.
  pose proof (der_thd _ _ _ _ _ Hd (der_atan _ _ _ DR)) as DT.
  intros i Hi.
  eapply (is_derive_ext_loc (fun s => match i with
      | O => dc s 0%nat * (zc s 0%nat * (eq_thd (dc s) (atan (radius (zc s))) / radius (zc s))) + dc s 2%nat
      | _ => dc s 1%nat * (zc s 1%nat * (eq_thd (dc s) (atan (radius (zc s))) / radius (zc s))) + dc s 3%nat end)).
  { eapply filter_imp; [|exact L]. intros s Ls. unfold eq_distort, vec2, eq_cdist, eq_invr. cbv zeta. fold (radius (zc s)).
    pose proof Ls as Lt. apply Rltb_true in Lt. rewrite Lt. generalize (eq_thd (dc s) (atan (radius (zc s)))). intros v. destruct i; match goal with |- @eq _ ?a ?b => change (@eq R a b) end; field; lra. }
  assert (NZ : radius z * radius z + 1 <> 0) by (pose proof (Rle_0_sqr (radius z)); unfold Rsqr in *; lra).
  assert (LT : Rltb (1 / 100000000) (radius z) = true) by (apply Rltb_true; exact P).
  assert (Et : eq_thd (dc t) (atan (radius (zc t))) = eq_thd d (atan (radius z))) by (unfold eq_thd; rewrite Rt, !Ed; reflexivity).
  assert (Edt : dthd (dc t) (atan (radius (zc t))) = dthd d (atan (radius z))) by (unfold dthd; rewrite Rt, !Ed; reflexivity).
  cbv beta in DT. rewrite Edt in DT.
  destruct i as [|[|i]]; [| |lia].
  - eapply is_derive_eq; [apply der_plus; [apply der_mult; [exact D0|apply der_mult; [exact Z0|apply der_div; [lra|exact DT|exact DR]]]|exact D2]|].
    cbv beta. rewrite Et, Rt, ?Ed, ?Ez. unfold mvec, eq_dzn, eq_dzeta, mmul, madd, mat22, mat2, row8, vec2, eq_cdist, eq_invr; cbv zeta; fold (radius z); rewrite LT; cbn [sumn].
    fold (dthd d (atan (radius z))).
    generalize dependent (radius z). intros r; intros. generalize (eq_thd d (atan r)) (dthd d (atan r)) (atan r ^ 3) (atan r ^ 5) (atan r ^ 7) (atan r ^ 9). intros. field. lra.
  - eapply is_derive_eq; [apply der_plus; [apply der_mult; [exact D1|apply der_mult; [exact Z1|apply der_div; [lra|exact DT|exact DR]]]|exact D3]|].
    cbv beta. rewrite Et, Rt, ?Ed, ?Ez. unfold mvec, eq_dzn, eq_dzeta, mmul, madd, mat22, mat2, row8, vec2, eq_cdist, eq_invr; cbv zeta; fold (radius z); rewrite LT; cbn [sumn].
    fold (dthd d (atan (radius z))).
    generalize dependent (radius z). intros r; intros. generalize (eq_thd d (atan r)) (dthd d (atan r)) (atan r ^ 3) (atan r ^ 5) (atan r ^ 7) (atan r ^ 9). intros. field. lra.
Qed.

(** inside the small disc the true derivative is the pinhole one, and the returned Jacobian is not *)
Lemma eq_center d z : forall dc zc t d' z', (forall i, dc t i = d i) -> (forall i, zc t i = z i) ->
  vec_derive 8 dc t d' -> vec_derive 2 zc t z' -> z 0%nat = 0 -> z 1%nat = 0 ->
  vec_derive 2 (fun s => eq_distort (dc s) (zc s)) t (fun i => mvec 2 (mat22 (d 0%nat) 0 0 (d 1%nat)) z' i + mvec 8 (mat2 (row8 0 0 1 0 0 0 0 0) (row8 0 0 0 1 0 0 0 0)) d' i).
Proof.
  intros dc zc t d' z' Ed Ez Hd Hz E0 E1.
  idx8 Hd. pose proof (Hz 0%nat ltac:(lia)) as Z0. pose proof (Hz 1%nat ltac:(lia)) as Z1.
  set (g := fun s => zc s 0%nat * zc s 0%nat + zc s 1%nat * zc s 1%nat).
  assert (DG : is_derive g t (z' 0%nat * zc t 0%nat + zc t 0%nat * z' 0%nat + (z' 1%nat * zc t 1%nat + zc t 1%nat * z' 1%nat))) by (unfold g; dtac).
  assert (L : locally t (fun s => g s < 1 / 100000000 * (1 / 100000000))).
  { eapply locally_lt; [exact DG|]. unfold g. rewrite !Ez, E0, E1. lra. }
  intros i Hi.
  eapply (is_derive_ext_loc (fun s => match i with O => dc s 0%nat * zc s 0%nat + dc s 2%nat | _ => dc s 1%nat * zc s 1%nat + dc s 3%nat end)).
  { eapply filter_imp; [|exact L]. intros s Ls. unfold eq_distort, vec2, eq_cdist. cbv zeta. fold (g s).
    assert (sqrt (g s) <= 1 / 100000000).
    { rewrite <- (sqrt_square (1 / 100000000)) by lra. apply sqrt_le_1_alt. lra. }
    replace (Rltb (1 / 100000000) (sqrt (g s))) with false by (symmetry; apply Rltb_false; lra). destruct i; match goal with |- @eq _ ?a ?b => change (@eq R a b) end; ring. }
  destruct i as [|[|i]]; [| |lia]; cbv zeta.
  all: eapply is_derive_eq; [dtac|]; cbv beta; rewrite ?Ed, ?Ez, ?E0, ?E1; unfold mvec, mat22, mat2, row8; cbn [sumn]; ring.
Qed.
Lemma eq_dzn_axis d i j : (i < 2)%nat -> (j < 2)%nat -> eq_dzn d (fun _ => 0) i j = 0.
Proof.
  intros Hi Hj. unfold eq_dzn. cbv zeta. replace (0 * 0 + 0 * 0) with 0 by ring. rewrite sqrt_0, atan_0.
  replace (eq_thd d 0) with 0 by (unfold eq_thd; ring). unfold mmul, madd, mat22, vec2. cbn [sumn].
  destruct i as [|[|i]]; [| |lia]; destruct j as [|[|j]]; try lia; ring.
Qed.

(** *** the specification determines both Jacobians *)
Definition unitv (k : nat) : vec := fun i => if Nat.eqb i k then 1 else 0.
Lemma mvec_unit n A k i : (k < n)%nat -> mvec n A (unitv k) i = A i k.
Proof.
  intros H. unfold mvec, unitv. rewrite (sumn_delta n k); [rewrite Nat.eqb_refl; ring|exact H|].
  intros j _ N. apply Nat.eqb_neq in N. rewrite N. ring.
Qed.
Lemma mvec_0 n A i : mvec n A (fun _ => 0) i = 0.
Proof. unfold mvec. apply sumn_zero. intros. ring. Qed.
Lemma line_derive n (d : vec) k : vec_derive n (fun s i => d i + s * unitv k i) 0 (unitv k).
Proof. intros i _. auto_derive; [auto|ring]. Qed.
Lemma const_derive n (d : vec) t : vec_derive n (fun _ i => d i) t (fun _ => 0).
Proof. intros i _. apply der_const. Qed.
Lemma jac_unique h d z Hz Hd Hz' Hd' : pixel_jacobians h d z Hz Hd -> pixel_jacobians h d z Hz' Hd' -> meq 2 2 Hz Hz' /\ meq 2 8 Hd Hd'.
Proof.
  intros A B. split; intros i k Hi Hk.
  - pose proof (A (fun _ i => d i) (fun s i => z i + s * unitv k i) 0 (fun _ => 0) (unitv k) ltac:(reflexivity) ltac:(intros; cbv beta; ring) (const_derive 8 d 0) (line_derive 2 z k) i Hi) as A1.
    pose proof (B (fun _ i => d i) (fun s i => z i + s * unitv k i) 0 (fun _ => 0) (unitv k) ltac:(reflexivity) ltac:(intros; cbv beta; ring) (const_derive 8 d 0) (line_derive 2 z k) i Hi) as B1.
    apply is_derive_unique in A1. apply is_derive_unique in B1. rewrite A1 in B1. rewrite !mvec_unit, !mvec_0 in B1 by exact Hk. lra.
  - pose proof (A (fun s i => d i + s * unitv k i) (fun _ i => z i) 0 (unitv k) (fun _ => 0) ltac:(intros; cbv beta; ring) ltac:(reflexivity) (line_derive 8 d k) (const_derive 2 z 0) i Hi) as A1.
    pose proof (B (fun s i => d i + s * unitv k i) (fun _ i => z i) 0 (unitv k) (fun _ => 0) ltac:(intros; cbv beta; ring) ltac:(reflexivity) (line_derive 8 d k) (const_derive 2 z 0) i Hi) as B1.
    apply is_derive_unique in A1. apply is_derive_unique in B1. rewrite A1 in B1. rewrite !mvec_unit, !mvec_0 in B1 by exact Hk. lra.
Qed.
Lemma eq_axis_true d : pixel_jacobians eq_distort d (fun _ => 0) (mat22 (d 0%nat) 0 0 (d 1%nat)) (mat2 (row8 0 0 1 0 0 0 0 0) (row8 0 0 0 1 0 0 0 0)).
Proof. intros dc zc t d' z' Ed Ez Hd Hz. apply (eq_center d (fun _ => 0)); auto. Qed.
Lemma eq_axis_wrong d : d 0%nat <> 0 -> ~ pixel_jacobians eq_distort d (fun _ => 0) (eq_dzn d (fun _ => 0)) (eq_dzeta d (fun _ => 0)).
Proof.
  intros N H. destruct (jac_unique _ _ _ _ _ _ _ H (eq_axis_true d)) as [E _]. specialize (E 0%nat 0%nat ltac:(lia) ltac:(lia)).
  rewrite eq_dzn_axis in E by lia. cbn in E. lra.
Qed.
