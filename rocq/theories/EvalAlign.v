(** Optimality of the trajectory alignment. *)
From Coq Require Import Reals List Arith Bool Lia Lra.
From Verif Require Import RBool Outcome GeoModel GeoSpec GeoProofs EulerProofs InitModel InitSpec EvalModel EvalSpec EvalProofs EvalStats.
Import ListNotations.
Open Scope R_scope.

Definition frob (A B : m3) : R :=
  m00 A * m00 B + m01 A * m01 B + m02 A * m02 B + m10 A * m10 B + m11 A * m11 B + m12 A * m12 B + m20 A * m20 B + m21 A * m21 B + m22 A * m22 B.

Ltac m3simp := unfold m3mul, m3tr, m3v, m3add, m3sub, m3scal, m3outer, m3id, m3zero, m3trace, v3add, v3sub, v3scal, v3div, v3dot, v3neg, v3zero, frob, diag3 in *;
  cbn [m00 m01 m02 m10 m11 m12 m20 m21 m22 vx vy vz] in *.

Lemma orth_dot A u : orth A -> v3dot (m3v A u) (m3v A u) = v3dot u u.
Proof.
  intros [_ H]. replace (v3dot (m3v A u) (m3v A u)) with (v3dot u (m3v (m3mul (m3tr A) A) u)) by (destruct A, u; m3simp; ring).
  rewrite H, m3v_id. reflexivity.
Qed.
Lemma rot_orth A : is_rot A -> orth A.
Proof. intros (H1 & H2 & _). split; auto. Qed.

(** raw sums *)
Fixpoint ssum (f : v3 * v3 -> R) (l : list (v3 * v3)) : R := match l with [] => 0 | p :: l' => f p + ssum f l' end.
Definition sM (l : list (v3 * v3)) := v3sum (map snd l).
Definition sD (l : list (v3 * v3)) := v3sum (map fst l).
Definition sMM (l : list (v3 * v3)) := ssum (fun p => v3dot (snd p) (snd p)) l.
Definition sDD (l : list (v3 * v3)) := ssum (fun p => v3dot (fst p) (fst p)) l.
Definition sK (l : list (v3 * v3)) := m3sum (map (fun p => m3outer (snd p) (fst p)) l).

Lemma cost_raw Rm t s l : orth Rm ->
  cost Rm t s l = sMM l + s * s * sDD l + INR (length l) * v3dot t t - 2 * s * frob Rm (sK l) - 2 * v3dot t (sM l) + 2 * s * v3dot t (m3v Rm (sD l)).
Proof.
  intros O. unfold cost, sMM, sDD, sM, sD, sK, total. induction l as [|[d m] l IH].
  - simpl. m3simp. ring.
  - cbn [map fold_right ssum v3sum m3sum length fst snd]. rewrite IH, S_INR. unfold residual. cbn [fst snd].
    set (A := ssum _ l). set (B := ssum _ l). set (K := m3sum _). set (a := v3sum _). set (b := v3sum _). clearbody A B K a b.
    replace (v3dot (v3sub m (v3add (v3scal s (m3v Rm d)) t)) (v3sub m (v3add (v3scal s (m3v Rm d)) t))) with
      (v3dot m m + s * s * v3dot (m3v Rm d) (m3v Rm d) + v3dot t t - 2 * s * v3dot m (m3v Rm d) - 2 * v3dot t m + 2 * s * v3dot t (m3v Rm d))
      by (destruct Rm, d, m, t; m3simp; ring).
    rewrite orth_dot by exact O. destruct Rm, d, m, t, K, a, b; m3simp; ring.
Qed.

(** centered sums as the code computes them *)
Definition cM (l : list (v3 * v3)) := v3avg (map snd l).
Definition cD (l : list (v3 * v3)) := v3avg (map fst l).
Definition cK (l : list (v3 * v3)) := m3sum (map (fun p => m3outer (v3sub (snd p) (cM l)) (v3sub (fst p) (cD l))) l).
Definition cDD (l : list (v3 * v3)) := ssum (fun p => v3dot (v3sub (fst p) (cD l)) (v3sub (fst p) (cD l))) l.
Definition cMM (l : list (v3 * v3)) := ssum (fun p => v3dot (v3sub (snd p) (cM l)) (v3sub (snd p) (cM l))) l.

Lemma cK_raw mu nu l : m3sum (map (fun p => m3outer (v3sub (snd p) mu) (v3sub (fst p) nu)) l) =
  m3add (m3sub (m3sub (sK l) (m3outer mu (sD l))) (m3outer (sM l) nu)) (m3scal (INR (length l)) (m3outer mu nu)).
Proof.
  unfold sK, sD, sM. induction l as [|[d m] l IH].
  - apply m3_ext; simpl; m3simp; ring.
  - cbn [map m3sum v3sum length fst snd]. rewrite IH, S_INR. set (K := m3sum _). set (a := v3sum _). set (b := v3sum _). clearbody K a b.
    destruct mu, nu, d, m, K, a, b. m3simp. f_equal; ring.
Qed.
Lemma cDD_raw (pr : v3 * v3 -> v3) nu l : ssum (fun p => v3dot (v3sub (pr p) nu) (v3sub (pr p) nu)) l =
  ssum (fun p => v3dot (pr p) (pr p)) l - 2 * v3dot nu (v3sum (map pr l)) + INR (length l) * v3dot nu nu.
Proof.
  induction l as [|p l IH]; [simpl; m3simp; ring|]. cbn [map ssum v3sum length]. rewrite IH, S_INR. set (a := ssum _ l). set (b := v3sum _). clearbody a b.
  destruct (pr p), nu, b. m3simp. ring.
Qed.
Lemma avg_sum (l : list v3) : l <> [] -> v3sum l = v3scal (INR (length l)) (v3avg l).
Proof.
  intros H. assert (INR (length l) <> 0) by (apply not_0_INR; destruct l; simpl; [congruence|lia]).
  unfold v3avg. destruct (v3sum l). m3simp. f_equal; field; auto.
Qed.

Lemma cost_centered Rm t s l : orth Rm -> l <> [] ->
  let e := v3sub (v3sub (cM l) (v3scal s (m3v Rm (cD l)))) t in
  cost Rm t s l = cMM l + s * s * cDD l - 2 * s * frob Rm (cK l) + INR (length l) * v3dot e e.
Proof.
  intros O Ne e. rewrite cost_raw by exact O. unfold cMM, cDD, cK. rewrite (cDD_raw snd), (cDD_raw fst), cK_raw.
  fold (sMM l) (sDD l) (sM l) (sD l).
  assert (EM : sM l = v3scal (INR (length l)) (cM l)) by (unfold sM, cM; rewrite avg_sum, map_length; auto; destruct l; simpl; congruence).
  assert (ED : sD l = v3scal (INR (length l)) (cD l)) by (unfold sD, cD; rewrite avg_sum, map_length; auto; destruct l; simpl; congruence).
  unfold e. clear e. rewrite EM, ED. pose proof (orth_dot Rm (cD l) O) as OD.
  set (n := INR (length l)). set (K := sK l). set (a := sMM l). set (b := sDD l). set (mu := cM l) in *. set (nu := cD l) in *. clearbody n K a b mu nu.
  set (w := m3v Rm nu) in *.
  replace (frob Rm (m3add (m3sub (m3sub K (m3outer mu (v3scal n nu))) (m3outer (v3scal n mu) nu)) (m3scal n (m3outer mu nu)))) with
    (frob Rm K - n * v3dot mu w) by (unfold w; destruct Rm, K, mu, nu; m3simp; ring).
  replace (m3v Rm (v3scal n nu)) with (v3scal n w) by (unfold w; rewrite m3v_scal; reflexivity).
  replace (v3dot (v3sub (v3sub mu (v3scal s w)) t) (v3sub (v3sub mu (v3scal s w)) t)) with
    (v3dot mu mu + s * s * v3dot w w + v3dot t t - 2 * s * v3dot mu w - 2 * v3dot t mu + 2 * s * v3dot t w) by (clearbody w; destruct mu, w, t; m3simp; ring).
  rewrite OD. clearbody w. clear OD. destruct mu, nu, w, t. m3simp. ring.
Qed.

Lemma rotz_rot th : is_rot (rot_z th).
Proof.
  unfold rot_z. pose proof (sin2_cos2 th) as T. unfold Rsqr in T. split; [|split]; [apply m3_ext| apply m3_ext|]; unfold m3det; m3simp; nra.
Qed.
Lemma frob_rotz th K : frob (rot_z th) K = cos th * (m00 K + m11 K) + sin th * (m10 K - m01 K) + m22 K.
Proof. unfold rot_z. m3simp. ring. Qed.
Lemma cs_bound a b th : cos th * a + sin th * b <= sqrt (a * a + b * b).
Proof.
  apply Rsqr_incr_0_var; [|apply sqrt_pos]. unfold Rsqr.
  assert (P : 0 <= a * a + b * b) by (pose proof (Rle_0_sqr a); pose proof (Rle_0_sqr b); unfold Rsqr in *; lra).
  rewrite sqrt_sqrt by exact P. pose proof (sin2_cos2 th) as T. unfold Rsqr in T.
  pose proof (Rle_0_sqr (cos th * b - sin th * a)) as Q. unfold Rsqr in Q.
  assert (E : (a * a + b * b) * (sin th * sin th + cos th * cos th) = (cos th * a + sin th * b) * (cos th * a + sin th * b) + (cos th * b - sin th * a) * (cos th * b - sin th * a)) by ring.
  rewrite T in E. lra.
Qed.
Lemma yaw_opt K th : frob (rot_z th) K <= frob (rot_z (get_best_yaw (m3tr K))) K.
Proof.
  rewrite !frob_rotz. unfold get_best_yaw. cbn [m3tr m00 m01 m10 m11].
  set (a := m00 K + m11 K). set (b := m10 K - m01 K). pose proof (cs_bound a b th) as H.
  destruct (Req_dec a 0) as [Ea|Na]; [destruct (Req_dec b 0) as [Eb|Nb]|].
  - rewrite Ea, Eb. lra.
  - destruct (atan2_polar b a) as [P Q]; [auto|]. set (ph := atan2 b a) in *. clearbody ph.
    pose proof (sin2_cos2 ph) as T. unfold Rsqr in T. set (r := sqrt (a * a + b * b)) in *.
    assert (cos ph * a + sin ph * b = r) by (rewrite P, Q at 1; replace (cos ph * (r * cos ph) + sin ph * (r * sin ph)) with (r * (sin ph * sin ph + cos ph * cos ph)) by ring; rewrite T; ring). lra.
  - destruct (atan2_polar b a) as [P Q]; [auto|]. set (ph := atan2 b a) in *. clearbody ph.
    pose proof (sin2_cos2 ph) as T. unfold Rsqr in T. set (r := sqrt (a * a + b * b)) in *.
    assert (cos ph * a + sin ph * b = r) by (rewrite P, Q at 1; replace (cos ph * (r * cos ph) + sin ph * (r * sin ph)) with (r * (sin ph * sin ph + cos ph * cos ph)) by ring; rewrite T; ring). lra.
Qed.
