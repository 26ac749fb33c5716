From Coq Require Import Reals List Arith Bool Lia Lra.
From Verif Require Import RBool Outcome GeoModel GeoSpec GeoProofs Lin ImuModel ImuSpec DbModel DbSpec InitModel InitSpec.
Import ListNotations.
Open Scope R_scope.

Lemma dongsi_poly D d g l : g <> 0 ->
  horner (compute_dongsi_coeff D d g) l =
  m3det (shifted D l) * m3det (shifted D l) - v3dot d (m3v (adj3 (shifted D l)) (m3v (adj3 (shifted D l)) d)) / (g * g).
Proof.
  intros Hg. destruct D as [a b c e f h i j k], d as [x y z].
  unfold horner, compute_dongsi_coeff, shifted, adj3, m3det, m3sub, m3scal, m3id, m3v, v3dot. cbn [fold_left m00 m01 m02 m10 m11 m12 m20 m21 m22 vx vy vz].
  field. exact Hg.
Qed.
