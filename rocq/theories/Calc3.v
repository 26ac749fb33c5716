(** Derivatives of vector- and matrix-valued curves: product rules used for the Jacobian
    properties (C35, C36, C59, C69, C70).  Mathematics only, no model of repository code. *)
From Coq Require Import Reals Lra Psatz Bool.
From Coquelicot Require Import Coquelicot.
From Verif Require Import RBool GeoModel GeoSpec GeoProofs ExpProofs Se3Proofs JacSo3.
From Verif Require Import TypesModel ManifoldSpec ManifoldProofs.
Open Scope R_scope.

(** entrywise derivative of a vector-valued curve *)
Definition v3_derive (f : R -> v3) (x : R) (D : v3) : Prop :=
  is_derive (fun t => vx (f t)) x (vx D) /\ is_derive (fun t => vy (f t)) x (vy D) /\
  is_derive (fun t => vz (f t)) x (vz D).

Lemma is_derive_eq (f : R -> R) (x l l' : R) : is_derive f x l -> l = l' -> is_derive f x l'.
Proof. intros H <-; exact H. Qed.

Lemma der_plus f g (x a b : R) : is_derive f x a -> is_derive g x b -> is_derive (fun t => f t + g t) x (a + b).
Proof. intros; apply (is_derive_plus (K:=R_AbsRing) (V:=R_NormedModule)); auto. Qed.
Lemma der_minus f g (x a b : R) : is_derive f x a -> is_derive g x b -> is_derive (fun t => f t - g t) x (a - b).
Proof. intros; apply (is_derive_minus (K:=R_AbsRing) (V:=R_NormedModule)); auto. Qed.
Lemma der_opp f (x a : R) : is_derive f x a -> is_derive (fun t => - f t) x (- a).
Proof. intros; apply (is_derive_opp (K:=R_AbsRing) (V:=R_NormedModule)); auto. Qed.
Lemma der_mult (f g : R -> R) x a b : is_derive f x a -> is_derive g x b -> is_derive (fun t => f t * g t) x (a * g x + f x * b).
Proof. intros; apply (is_derive_mult (K:=R_AbsRing)); auto. intros; apply Rmult_comm. Qed.
Lemma der_const (c x : R) : is_derive (fun _ => c) x 0.
Proof. apply (is_derive_const (K:=R_AbsRing) (V:=R_NormedModule)). Qed.
Lemma der_div (f g : R -> R) x a b : g x <> 0 -> is_derive f x a -> is_derive g x b ->
  is_derive (fun t => f t / g t) x ((a * g x - f x * b) / (g x * g x)).
Proof.
  intros Hg Hf H. eapply is_derive_eq; [exact (is_derive_div f g x a b Hf H Hg)|]. simpl. field. auto.
Qed.

Lemma v3_derive_eq f x D D' : v3_derive f x D -> D = D' -> v3_derive f x D'.
Proof. intros H <-; exact H. Qed.
Lemma m3_derive_eq f x D D' : m3_derive f x D -> D = D' -> m3_derive f x D'.
Proof. intros H <-; exact H. Qed.
Lemma v3_derive_ext f g x D : (forall t, f t = g t) -> v3_derive f x D -> v3_derive g x D.
Proof. intros E (A & B & C). split; [|split]; (eapply is_derive_ext; [|eassumption]); intros; cbv beta; rewrite E; reflexivity. Qed.
Lemma m3_derive_ext f g x D : (forall t, f t = g t) -> m3_derive f x D -> m3_derive g x D.
Proof.
  intros E (A0 & A1 & A2 & A3 & A4 & A5 & A6 & A7 & A8).
  split9; (eapply is_derive_ext; [|eassumption]); intros; cbv beta; rewrite E; reflexivity.
Qed.
Lemma v3_derive_ext_loc f g x D : locally x (fun t => f t = g t) -> v3_derive f x D -> v3_derive g x D.
Proof.
  intros E (A & B & C). split; [|split]; (eapply is_derive_ext_loc; [|eassumption]);
  (eapply filter_imp; [|exact E]); intros t H; cbv beta in *; rewrite H; reflexivity.
Qed.
Lemma m3_derive_ext_loc f g x D : locally x (fun t => f t = g t) -> m3_derive f x D -> m3_derive g x D.
Proof.
  intros E (A0 & A1 & A2 & A3 & A4 & A5 & A6 & A7 & A8).
  split9; (eapply is_derive_ext_loc; [|eassumption]);
  (eapply filter_imp; [|exact E]); intros t H; cbv beta in *; rewrite H; reflexivity.
Qed.

Lemma v3d_const (c : v3) x : v3_derive (fun _ => c) x v3zero.
Proof. split; [|split]; apply der_const. Qed.
Definition m3zero := M3 0 0 0 0 0 0 0 0 0.
Lemma m3d_const (c : m3) x : m3_derive (fun _ => c) x m3zero.
Proof. split9; apply der_const. Qed.
Lemma v3d_add f g x a b : v3_derive f x a -> v3_derive g x b -> v3_derive (fun t => v3add (f t) (g t)) x (v3add a b).
Proof. intros (A & B & C) (A' & B' & C'). split; [|split]; apply der_plus; auto. Qed.
Lemma v3d_sub f g x a b : v3_derive f x a -> v3_derive g x b -> v3_derive (fun t => v3sub (f t) (g t)) x (v3sub a b).
Proof. intros (A & B & C) (A' & B' & C'). split; [|split]; apply der_minus; auto. Qed.
Lemma v3d_neg f x a : v3_derive f x a -> v3_derive (fun t => v3neg (f t)) x (v3neg a).
Proof. intros (A & B & C). split; [|split]; apply der_opp; auto. Qed.
Lemma v3d_scal (c : R) f x a : v3_derive f x a -> v3_derive (fun t => v3scal c (f t)) x (v3scal c a).
Proof.
  intros (A & B & C). split; [|split]; cbn [v3scal vx vy vz];
  (eapply is_derive_eq; [apply der_mult; [apply der_const|eassumption]|]); cbv beta; ring.
Qed.
Lemma v3d_scalf (c : R -> R) f x c' a : is_derive c x c' -> v3_derive f x a ->
  v3_derive (fun t => v3scal (c t) (f t)) x (v3add (v3scal c' (f x)) (v3scal (c x) a)).
Proof.
  intros H (A & B & C). split; [|split]; cbn [v3scal v3add vx vy vz];
  (eapply is_derive_eq; [apply der_mult; eassumption|]); cbv beta; ring.
Qed.
Lemma m3d_add f g x a b : m3_derive f x a -> m3_derive g x b -> m3_derive (fun t => m3add (f t) (g t)) x (m3add a b).
Proof.
  intros (A0 & A1 & A2 & A3 & A4 & A5 & A6 & A7 & A8) (B0 & B1 & B2 & B3 & B4 & B5 & B6 & B7 & B8).
  split9; apply der_plus; auto.
Qed.
Lemma m3d_sub f g x a b : m3_derive f x a -> m3_derive g x b -> m3_derive (fun t => m3sub (f t) (g t)) x (m3sub a b).
Proof.
  intros (A0 & A1 & A2 & A3 & A4 & A5 & A6 & A7 & A8) (B0 & B1 & B2 & B3 & B4 & B5 & B6 & B7 & B8).
  split9; apply der_minus; auto.
Qed.
Lemma m3d_scal (c : R) f x a : m3_derive f x a -> m3_derive (fun t => m3scal c (f t)) x (m3scal c a).
Proof.
  intros (A0 & A1 & A2 & A3 & A4 & A5 & A6 & A7 & A8).
  split9; cbn [m3scal m00 m01 m02 m10 m11 m12 m20 m21 m22];
  (eapply is_derive_eq; [apply der_mult; [apply der_const|eassumption]|]); cbv beta; ring.
Qed.
Lemma m3d_scalf (c : R -> R) f x c' a : is_derive c x c' -> m3_derive f x a ->
  m3_derive (fun t => m3scal (c t) (f t)) x (m3add (m3scal c' (f x)) (m3scal (c x) a)).
Proof.
  intros H (A0 & A1 & A2 & A3 & A4 & A5 & A6 & A7 & A8).
  split9; cbn [m3scal m3add m00 m01 m02 m10 m11 m12 m20 m21 m22];
  (eapply is_derive_eq; [apply der_mult; eassumption|]); cbv beta; ring.
Qed.
Lemma m3d_tr f x a : m3_derive f x a -> m3_derive (fun t => m3tr (f t)) x (m3tr a).
Proof. intros (A0 & A1 & A2 & A3 & A4 & A5 & A6 & A7 & A8). split9; auto. Qed.
Lemma m3d_mul f g x a b : m3_derive f x a -> m3_derive g x b ->
  m3_derive (fun t => m3mul (f t) (g t)) x (m3add (m3mul a (g x)) (m3mul (f x) b)).
Proof.
  intros (A0 & A1 & A2 & A3 & A4 & A5 & A6 & A7 & A8) (B0 & B1 & B2 & B3 & B4 & B5 & B6 & B7 & B8).
  split9; cbn [m3mul m3add m00 m01 m02 m10 m11 m12 m20 m21 m22];
  (eapply is_derive_eq; [apply der_plus; [apply der_plus|]; apply der_mult; eassumption|]); cbv beta; ring.
Qed.
Lemma v3d_mv f g x a b : m3_derive f x a -> v3_derive g x b ->
  v3_derive (fun t => m3v (f t) (g t)) x (v3add (m3v a (g x)) (m3v (f x) b)).
Proof.
  intros (A0 & A1 & A2 & A3 & A4 & A5 & A6 & A7 & A8) (B0 & B1 & B2).
  split; [|split]; cbn [m3v v3add vx vy vz];
  (eapply is_derive_eq; [apply der_plus; [apply der_plus|]; apply der_mult; eassumption|]); cbv beta; ring.
Qed.
Lemma v3d_lin (A : m3) g x b : v3_derive g x b -> v3_derive (fun t => m3v A (g t)) x (m3v A b).
Proof.
  intros H. eapply v3_derive_eq; [exact (v3d_mv _ _ _ _ _ (m3d_const A x) H)|].
  apply v3_ext; simpl; ring.
Qed.
Lemma v3d_id (a d : v3) : v3_derive (fun s => v3add a (v3scal s d)) 0 d.
Proof. split; [|split]; cbn [v3add v3scal vx vy vz]; auto_derive; auto; ring. Qed.

(** ** the filter's error on an orientation, as a curve *)
Lemma cayley_derive (th : v3) : m3_derive (fun s => cayley (v3scal s th)) 0 (m3scal (-1) (skew_x th)).
Proof.
  unfold m3_derive, cayley, v3dot; cbn [v3scal skew_x m3scal m00 m01 m02 m10 m11 m12 m20 m21 m22 vx vy vz].
  split9; auto_derive; try (replace (0 * vx th * (0 * vx th) + 0 * vy th * (0 * vy th) + 0 * vz th * (0 * vz th)) with 0 by ring; lra);
  field; lra.
Qed.
Lemma cayley_0 th : cayley (v3scal 0 th) = m3id.
Proof. unfold cayley, v3dot; apply m3_ext; cbn [v3scal m3id m00 m01 m02 m10 m11 m12 m20 m21 m22 vx vy vz]; field; lra. Qed.

(** the rotation matrix of an updated orientation *)
Lemma update_rot d q : unit_q q -> quat_2_Rot (quat_multiply (small_quat d) q) = m3mul (cayley d) (quat_2_Rot q).
Proof. intros U. destruct (turned_update d q U) as (_ & _ & H). exact H. Qed.
Lemma update_unit d q : unit_q q -> unit_q (quat_multiply (small_quat d) q).
Proof. intros U. destruct (turned_update d q U) as (H & _ & _). exact H. Qed.
Lemma update_rot_derive th q : unit_q q ->
  m3_derive (fun s => quat_2_Rot (quat_multiply (small_quat (v3scal s th)) q)) 0
    (m3mul (m3scal (-1) (skew_x th)) (quat_2_Rot q)).
Proof.
  intros U. eapply m3_derive_ext. { intros t. symmetry. apply update_rot. exact U. }
  eapply m3_derive_eq; [apply m3d_mul; [apply cayley_derive|apply m3d_const]|].
  apply m3_ext; simpl; ring.
Qed.
Lemma update_rot_0 th q : unit_q q -> quat_2_Rot (quat_multiply (small_quat (v3scal 0 th)) q) = quat_2_Rot q.
Proof. intros U. rewrite update_rot, cayley_0 by auto. apply m3mul_id_l. Qed.

(** ** exponential map along a general curve *)
Lemma norm_derive (c : R -> v3) d : v3_derive c 0 d -> 0 < v3norm (c 0) ->
  is_derive (fun s => v3norm (c s)) 0 (v3dot (c 0) d / v3norm (c 0)).
Proof.
  intros (A & B & C) P. unfold v3norm at 1.
  assert (Q : 0 < v3dot (c 0) (c 0)) by (rewrite <- v3norm_sq; nra).
  assert (D : is_derive (fun s => v3dot (c s) (c s)) 0 (2 * v3dot (c 0) d)).
  { unfold v3dot. eapply is_derive_eq; [apply der_plus; [apply der_plus|]; apply der_mult; eassumption|]. cbv beta. ring. }
  eapply is_derive_eq; [exact (is_derive_sqrt _ _ _ D Q)|]. unfold v3norm. field.
  apply Rgt_not_eq, sqrt_lt_R0, Q.
Qed.

Lemma rod_derive_curve (c : R -> v3) d (a b : R -> R) (a' b' : R) : v3_derive c 0 d ->
  is_derive a 0 a' -> is_derive b 0 b' ->
  m3_derive (fun t => rodrigues (c t) (a t) (b t)) 0
    (m3add (m3add (m3scal a' (skew_x (c 0))) (m3scal (a 0) (skew_x d)))
      (m3add (m3scal b' (m3mul (skew_x (c 0)) (skew_x (c 0))))
             (m3scal (b 0) (m3add (m3mul (skew_x d) (skew_x (c 0))) (m3mul (skew_x (c 0)) (skew_x d)))))).
Proof.
  intros Hc Ha Hb.
  assert (S : m3_derive (fun t => skew_x (c t)) 0 (skew_x d)).
  { destruct Hc as (A & B & C).
    split9; cbn [skew_x m00 m01 m02 m10 m11 m12 m20 m21 m22]; try apply der_const; try (apply der_opp); auto. }
  eapply m3_derive_ext; [intros t; reflexivity|].
  unfold rodrigues.
  eapply m3_derive_eq.
  { apply m3d_add; [apply m3d_add; [apply m3d_const|apply m3d_scalf; [exact Ha|exact S]]|].
    apply m3d_mul; [apply m3d_scalf; [exact Hb|exact S]|exact S]. }
  apply m3_ext; simpl; ring.
Qed.

Lemma exp_so3_derive_curve (c : R -> v3) d : v3_derive c 0 d -> 1 / 10 ^ 7 < v3norm (c 0) ->
  let w := c 0 in
  let t := v3norm w in let n := v3dot w w in let m := v3dot w d in
  let A := sin t / t in let B := (1 - cos t) / (t * t) in
  m3_derive (fun s => exp_so3 (c s)) 0
    (m3add (m3add (m3scal ((1 - B * n - A) / n * m) (skew_x w)) (m3scal A (skew_x d)))
      (m3add (m3scal ((A - 2 * B) / n * m) (m3mul (skew_x w) (skew_x w)))
             (m3scal B (m3add (m3mul (skew_x d) (skew_x w)) (m3mul (skew_x w) (skew_x d)))))).
Proof.
  intros Hc H w t n m A B. assert (P : 0 < v3norm w) by (assert (0 < 1 / 10 ^ 7) by lra; unfold w; lra).
  assert (Pt : 0 < t) by exact P.
  assert (Sq : t * t = n) by apply v3norm_sq.
  pose proof (norm_derive c d Hc P) as Dt. fold w in Dt; fold t m in Dt. change (is_derive (fun s => v3norm (c s)) 0 (m / t)) in Dt.
  set (th := fun s => v3norm (c s)) in *.
  assert (Hth : forall s, th s = v3norm (c s)) by reflexivity.
  assert (T0 : th 0 = t) by reflexivity.
  change (is_derive th 0 (m / t)) in Dt.
  clearbody th.
  assert (Et : ex_derive th 0) by (eexists; exact Dt).
  pose proof (is_derive_unique _ _ _ Dt) as Ut.
  assert (Da : is_derive (fun s => sin (th s) / th s) 0 ((1 - B * n - A) / n * m)).
  { auto_derive. { repeat split; try exact Et; rewrite T0; lra. }
    rewrite T0. change (Derive (fun x => th x) 0) with (Derive th 0). rewrite Ut. unfold B, A; rewrite <- Sq. field. lra. }
  assert (Db : is_derive (fun s => (1 - cos (th s)) / (th s * th s)) 0 ((A - 2 * B) / n * m)).
  { auto_derive. { repeat split; try exact Et; rewrite T0; nra. }
    rewrite T0. change (Derive (fun x => th x) 0) with (Derive th 0). rewrite Ut. unfold B, A; rewrite <- Sq. field. lra. }
  pose proof (rod_derive_curve c d _ _ _ _ Hc Da Db) as HR. cbv beta in HR. rewrite T0 in HR. fold w in HR. fold t A B in HR.
  eapply m3_derive_ext_loc; [|exact HR].
  assert (Ct : continuous th 0) by exact (ex_derive_continuous th 0 Et).
  assert (O : locally (th 0) (fun y => 1 / 10 ^ 7 < y)).
  { apply open_gt. rewrite T0. exact H. }
  specialize (Ct _ O). unfold filtermap in Ct.
  eapply filter_imp; [|exact Ct]. intros s Hs. cbv beta in Hs. rewrite Hth in *. rewrite exp_so3_eq by lra. reflexivity.
Qed.

Lemma m3_derive_unique f x D D' : m3_derive f x D -> m3_derive f x D' -> D = D'.
Proof.
  intros (A0 & A1 & A2 & A3 & A4 & A5 & A6 & A7 & A8) (B0 & B1 & B2 & B3 & B4 & B5 & B6 & B7 & B8).
  apply m3_ext; (etransitivity; [symmetry; eapply is_derive_unique; eassumption|eapply is_derive_unique; eassumption]).
Qed.
Lemma v3_derive_unique f x D D' : v3_derive f x D -> v3_derive f x D' -> D = D'.
Proof.
  intros (A0 & A1 & A2) (B0 & B1 & B2).
  apply v3_ext; (etransitivity; [symmetry; eapply is_derive_unique; eassumption|eapply is_derive_unique; eassumption]).
Qed.

(** d/ds exp(c(s)) at 0 = skew(Jl(c 0) c'(0)) exp(c 0) *)
Lemma exp_so3_curve (c : R -> v3) d : v3_derive c 0 d -> 1 / 10 ^ 6 <= v3norm (c 0) ->
  m3_derive (fun s => exp_so3 (c s)) 0 (m3mul (skew_x (m3v (Jl_so3 (c 0)) d)) (exp_so3 (c 0))).
Proof.
  intros Hc H. pose proof (exp_so3_derive_curve c d Hc ltac:(lra)) as H1. cbv zeta in H1.
  pose proof (exp_so3_derive_raw (c 0) d ltac:(lra)) as H2. cbv zeta in H2.
  pose proof (Jl_so3_left_jacobian (c 0) d H) as H3.
  rewrite (m3_derive_unique _ _ _ _ H3 H2). exact H1.
Qed.

Definition cof (r : m3) : m3 :=
  M3 (m11 r * m22 r - m12 r * m21 r) (m12 r * m20 r - m10 r * m22 r) (m10 r * m21 r - m11 r * m20 r)
     (m02 r * m21 r - m01 r * m22 r) (m00 r * m22 r - m02 r * m20 r) (m01 r * m20 r - m00 r * m21 r)
     (m01 r * m12 r - m02 r * m11 r) (m02 r * m10 r - m00 r * m12 r) (m00 r * m11 r - m01 r * m10 r).
Lemma cof_rot r : is_rot r -> cof r = r.
Proof.
  intros H. destruct (is_rot_eqs r H) as (_ & _ & E).
  destruct E as (E0 & E1 & E2 & E3 & E4 & E5 & E6 & E7 & E8). unfold cof. apply m3_ext; simpl; lra.
Qed.
Lemma rot_skew r w : is_rot r -> m3mul r (skew_x w) = m3mul (skew_x (m3v r w)) r.
Proof.
  intros H. transitivity (m3mul (cof r) (skew_x w)). { rewrite cof_rot by auto. reflexivity. }
  apply m3_ext; simpl; ring.
Qed.
