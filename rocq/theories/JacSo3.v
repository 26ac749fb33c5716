(** Jl_so3 / Jr_so3: closed form and derivative characterisation. *)
From Coq Require Import Reals Lra Psatz Bool.
From Coquelicot Require Import Coquelicot.
From Verif Require Import RBool GeoModel GeoSpec GeoProofs ExpProofs Se3Proofs.
Open Scope R_scope.

Lemma Jl_so3_eq w : 1 / 10 ^ 6 <= v3norm w ->
  Jl_so3 w = rodrigues w ((1 - cos (v3norm w)) / (v3norm w * v3norm w))
                         ((1 - sin (v3norm w) / v3norm w) / (v3norm w * v3norm w)).
Proof.
  intros H. assert (P : 0 < v3norm w) by (assert (0 < 1 / 10 ^ 6) by lra; lra).
  unfold Jl_so3. destruct (Rltb_spec (v3norm w) (1 / 10 ^ 6)); [lra|].
  pose proof (v3norm_sq w) as S. unfold v3dot in S.
  set (t := v3norm w) in *.
  assert (Ez : vz w * vz w = t * t - vx w * vx w - vy w * vy w) by lra.
  assert (D : forall x, x * x / (t * t) = x / t * (x / t)) by (intros; field; lra).
  assert (Sum : vx w / t * (vx w / t) + vy w / t * (vy w / t) + vz w / t * (vz w / t) = 1).
  { rewrite <- !D. rewrite Ez. field. lra. }
  apply m3_ext;
  cbn [m3add m3id m3scal m3mul m3outer v3div skew_x m00 m01 m02 m10 m11 m12 m20 m21 m22 vx vy vz rodrigues].
  all: try (field; lra).
  all: set (a := vx w / t) in *; set (b := vy w / t) in *; set (c := vz w / t) in *.
  all: assert (Ex : vx w = a * t) by (unfold a; field; lra).
  all: assert (Ey : vy w = b * t) by (unfold b; field; lra).
  all: assert (Ec : vz w = c * t) by (unfold c; field; lra).
  all: rewrite ?Ex, ?Ey, ?Ec; field_simplify_eq; [|lra].
  - replace (a ^ 2) with (1 - b * b - c * c) by lra. ring.
  - replace (b ^ 2) with (1 - a * a - c * c) by lra. ring.
  - replace (c ^ 2) with (1 - a * a - b * b) by lra. ring.
Qed.


(** entrywise derivative of a matrix-valued curve *)
Definition m3_derive (f : R -> m3) (x : R) (D : m3) : Prop :=
  is_derive (fun t => m00 (f t)) x (m00 D) /\ is_derive (fun t => m01 (f t)) x (m01 D) /\
  is_derive (fun t => m02 (f t)) x (m02 D) /\ is_derive (fun t => m10 (f t)) x (m10 D) /\
  is_derive (fun t => m11 (f t)) x (m11 D) /\ is_derive (fun t => m12 (f t)) x (m12 D) /\
  is_derive (fun t => m20 (f t)) x (m20 D) /\ is_derive (fun t => m21 (f t)) x (m21 D) /\
  is_derive (fun t => m22 (f t)) x (m22 D).

Ltac split9 := split; [|split; [|split; [|split; [|split; [|split; [|split; [|split]]]]]]].

Section LeftJac.
Variables (w d : v3).
Let c (t : R) : v3 := v3add w (v3scal t d).
Let th (t : R) : R := v3norm (c t).

Lemma th_derive : 0 < v3norm w -> is_derive th 0 (v3dot w d / v3norm w).
Proof.
  intros P. unfold th, v3norm, v3dot, c; cbn [v3add v3scal vx vy vz].
  assert (Q : 0 < (vx w + 0 * vx d) * (vx w + 0 * vx d) + (vy w + 0 * vy d) * (vy w + 0 * vy d)
                  + (vz w + 0 * vz d) * (vz w + 0 * vz d)).
  { pose proof (v3norm_sq w) as S; unfold v3dot in S. rewrite !Rmult_0_l, !Rplus_0_r.
    rewrite <- S. nra. }
  auto_derive; auto.
  rewrite !Rmult_0_l, !Rplus_0_r. unfold v3norm, v3dot in P. field. lra.
Qed.
Lemma th_0 : th 0 = v3norm w.
Proof. unfold th, c. f_equal. apply v3_ext; simpl; ring. Qed.

Lemma rod_derive (a b : R -> R) (a' b' : R) :
  is_derive a 0 a' -> is_derive b 0 b' ->
  m3_derive (fun t => rodrigues (c t) (a t) (b t)) 0
    (m3add (m3add (m3scal a' (skew_x w)) (m3scal (a 0) (skew_x d)))
      (m3add (m3scal b' (m3mul (skew_x w) (skew_x w)))
             (m3scal (b 0) (m3add (m3mul (skew_x d) (skew_x w)) (m3mul (skew_x w) (skew_x d)))))).
Proof.
  intros Ha Hb. 
  assert (Ea : ex_derive a 0) by (eexists; eauto).
  assert (Eb : ex_derive b 0) by (eexists; eauto).
  apply is_derive_unique in Ha. apply is_derive_unique in Hb.
  unfold m3_derive, rodrigues, c;
  cbn [m3add m3id m3scal m3mul skew_x m00 m01 m02 m10 m11 m12 m20 m21 m22 v3add v3scal vx vy vz].
  split9; auto_derive; auto; change (Derive (fun x : R => a x) 0) with (Derive a 0); change (Derive (fun x : R => b x) 0) with (Derive b 0); rewrite ?Ha, ?Hb; ring.
Qed.

Lemma exp_so3_derive_raw : 1 / 10 ^ 7 < v3norm w ->
  let t := v3norm w in let n := v3dot w w in let m := v3dot w d in
  let A := sin t / t in let B := (1 - cos t) / (t * t) in
  m3_derive (fun s => exp_so3 (c s)) 0
    (m3add (m3add (m3scal ((1 - B * n - A) / n * m) (skew_x w)) (m3scal A (skew_x d)))
      (m3add (m3scal ((A - 2 * B) / n * m) (m3mul (skew_x w) (skew_x w)))
             (m3scal B (m3add (m3mul (skew_x d) (skew_x w)) (m3mul (skew_x w) (skew_x d)))))).
Proof.
  intros H t n m A B. assert (P : 0 < v3norm w) by (assert (0 < 1 / 10 ^ 7) by lra; lra).
  assert (Pt : 0 < t) by exact P.
  assert (Sq : t * t = n) by apply v3norm_sq.
  pose proof (th_derive P) as Dt. fold t m in Dt.
  assert (Et : ex_derive th 0) by (eexists; eauto).
  pose proof (is_derive_unique _ _ _ Dt) as Ut.
  assert (T0 : th 0 = t) by apply th_0.
  assert (Da : is_derive (fun s => sin (th s) / th s) 0 ((1 - B * n - A) / n * m)).
  { auto_derive. { rewrite T0; repeat split; auto; lra. }
    rewrite T0. change (Derive (fun x => th x) 0) with (Derive th 0). rewrite Ut. unfold B, A; rewrite <- Sq. field. lra. }
  assert (Db : is_derive (fun s => (1 - cos (th s)) / (th s * th s)) 0 ((A - 2 * B) / n * m)).
  { auto_derive. { rewrite T0; repeat split; auto; nra. }
    rewrite T0. change (Derive (fun x => th x) 0) with (Derive th 0). rewrite Ut. unfold B, A; rewrite <- Sq. field. lra. }
  pose proof (rod_derive _ _ _ _ Da Db) as HR. cbv beta in HR. rewrite T0 in HR. fold t A B in HR.
  assert (L : locally 0 (fun s => rodrigues (c s) (sin (th s) / th s) ((1 - cos (th s)) / (th s * th s)) = exp_so3 (c s))).
  { assert (Ct : continuous th 0) by exact (ex_derive_continuous th 0 Et).
    assert (O : locally (th 0) (fun y => 1 / 10 ^ 7 < y)).
    { apply open_gt. rewrite T0. exact H. }
    specialize (Ct _ O). unfold filtermap in Ct.
    eapply filter_imp; [|exact Ct]. intros s Hs. cbv beta in Hs. unfold th in *. rewrite exp_so3_eq by lra. reflexivity. }
  unfold m3_derive in *.
  destruct HR as (R0 & R1' & R2 & R3 & R4 & R5 & R6 & R7 & R8).
  split9; (eapply is_derive_ext_loc; [|eassumption]); (eapply filter_imp; [|exact L]);
    intros s Hs; cbv beta in Hs |- *; rewrite Hs; reflexivity.
Qed.
End LeftJac.

(** d/ds exp(w + s d) at 0 = skew(Jl(w) d) exp(w) *)
Lemma Jl_so3_left_jacobian w d : 1 / 10 ^ 6 <= v3norm w ->
  m3_derive (fun s => exp_so3 (v3add w (v3scal s d))) 0
            (m3mul (skew_x (m3v (Jl_so3 w) d)) (exp_so3 w)).
Proof.
  intros H. assert (P : 0 < v3norm w) by (assert (0 < 1 / 10 ^ 6) by lra; lra).
  pose proof (exp_so3_derive_raw w d ltac:(lra)) as HR. cbv zeta in HR.
  replace (m3mul (skew_x (m3v (Jl_so3 w) d)) (exp_so3 w)) with
   (let t := v3norm w in let n := v3dot w w in let m := v3dot w d in
  let A := sin t / t in let B := (1 - cos t) / (t * t) in
    (m3add (m3add (m3scal ((1 - B * n - A) / n * m) (skew_x w)) (m3scal A (skew_x d)))
      (m3add (m3scal ((A - 2 * B) / n * m) (m3mul (skew_x w) (skew_x w)))
             (m3scal B (m3add (m3mul (skew_x d) (skew_x w)) (m3mul (skew_x w) (skew_x d))))))); [exact HR|].
  clear HR. cbv zeta. rewrite Jl_so3_eq by auto. rewrite exp_so3_eq by lra.
  pose proof (v3norm_sq w) as Sq.
  assert (Rel := rod_coef_eq (v3norm w) ltac:(lra)).
  rewrite Sq in *. 
  set (A := sin (v3norm w) / v3norm w) in *. set (B := (1 - cos (v3norm w)) / v3dot w w) in *.
  assert (N : 0 < v3dot w w) by (rewrite <- Sq; nra).
  clearbody A B. clear Sq H P.
  assert (A2 : A ^ 2 = 2 * B - B * B * v3dot w w) by lra.
  unfold v3dot in *.
  destruct w as [x y z], d as [p q r].
  unfold rodrigues; apply m3_ext;
  cbn [m3add m3id m3scal m3mul m3v skew_x m00 m01 m02 m10 m11 m12 m20 m21 m22 vx vy vz] in *.
  all: field_simplify_eq; [|lra].
  all: rewrite ?A2; ring.
Qed.
