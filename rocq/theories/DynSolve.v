(** C86: the constrained least squares of the dynamic initializer. *)
From Coq Require Import Reals List Arith ZArith Bool Lia Lra.
From Verif Require Import RBool Outcome GeoModel GeoSpec GeoProofs Lin InitModel InitSpec InitProofs InitDongsi InitDongsi2 DynModel DynSpec DynProofs.
Import ListNotations.
Open Scope R_scope.

Lemma dot_trl M h u : v3dot (m3v (m3tr M) h) u = v3dot h (m3v M u).
Proof. unfold v3dot; simpl; ring. Qed.
Lemma dot_zero k x y : (forall i, (i < k)%nat -> x i * y i = 0) -> dot k x y = 0.
Proof. intros H. apply sumn_zero, H. Qed.
Lemma adj_quad D u : m3tr D = D -> v3dot (m3v D u) (m3v (adj3 D) (m3v (adj3 D) (m3v D u))) = m3det D * m3det D * v3dot u u.
Proof.
  intros S. assert (Ad : forall w, m3v (adj3 D) (m3v D w) = v3scal (m3det D) w) by (intros w; unfold adj3, m3det; apply v3_ext; simpl; ring).
  assert (T : m3tr (adj3 D) = adj3 D) by (destruct D; unfold m3tr, adj3 in *; simpl in *; injection S as S1 S2 S3 S4 S5 S6; subst; f_equal; ring).
  rewrite Ad, <- (dot_trl (adj3 D)), T, Ad. generalize (m3det D). intros k. unfold v3dot; simpl; ring.
Qed.
Section Solve.
Variables (L : alg) (g : R) (m n : nat) (A : mat) (b : vec).
Let A2 : mat := fun i j => A i (n + j)%nat.
Let inv := ya_inv L n (gram m A).
Let D : m3 := snd (fst (reduce L m n A b)).
Let d : v3 := snd (reduce L m n A b).
Hypothesis Hinv : inverse n (gram m A) inv.

Lemma residual_split f u i : residual m n A b f u i = mvec n A f i + mvec 3 A2 (vof3 u) i - b i.
Proof.
  unfold residual, mvec. rewrite sumn_add. f_equal. f_equal.
  - apply sumn_ext. intros j Hj. unfold join. destruct (Nat.ltb_spec j n); [reflexivity|lia].
  - apply sumn_ext. intros j Hj. unfold join. destruct (Nat.ltb_spec (n + j) n); [lia|]. replace (n + j - n)%nat with j by lia. reflexivity.
Qed.
Lemma dot_plus k x y z : dot k x (fun i => y i + z i) = dot k x y + dot k x z.
Proof. unfold dot. rewrite <- sumn_plus. apply sumn_ext. intros; ring. Qed.
Lemma dot_minus k x y z : dot k x (fun i => y i - z i) = dot k x y - dot k x z.
Proof. unfold dot. rewrite <- sumn_minus. apply sumn_ext. intros; ring. Qed.
Lemma dot_ext k x y z : (forall i, (i < k)%nat -> y i = z i) -> dot k x y = dot k x z.
Proof. intros H. apply sumn_ext. intros i Hi. rewrite H by exact Hi. reflexivity. Qed.
Lemma dot_comm k x y : dot k x y = dot k y x.
Proof. apply sumn_ext. intros; ring. Qed.
Lemma dot_mvec k q M x y : dot k x (mvec q M y) = dot q (fun j => dot k (fun i => M i j) x) y.
Proof.
  unfold dot, mvec. rewrite (sumn_ext k _ (fun i => sumn q (fun l => x i * (M i l * y l)))) by (intros; rewrite sumn_scal; reflexivity).
  rewrite sumn_swap. apply sumn_ext. intros j Hj. rewrite <- sumn_scal_r. apply sumn_ext. intros; ring.
Qed.
(** A1^T (mvec A2 u - b) *)
Definition rhs (u : v3) : vec := fun j => dot m (fun i => A i j) (fun i => b i - mvec 3 A2 (vof3 u) i).
Definition fopt (u : v3) : vec := mvec n inv (rhs u).
Lemma gram_mvec f j : mvec n (gram m A) f j = dot m (fun i => A i j) (mvec n A f).
Proof. unfold gram. rewrite mvec_mmul. reflexivity. Qed.
Lemma mvec_ext k M x y i : (forall l, (l < k)%nat -> x l = y l) -> mvec k M x i = mvec k M y i.
Proof. intros H. apply sumn_ext. intros l Hl. rewrite H by exact Hl. reflexivity. Qed.
Lemma mvec_minus k M x y i : mvec k M (fun l => x l - y l) i = mvec k M x i - mvec k M y i.
Proof. unfold mvec. rewrite <- sumn_minus. apply sumn_ext. intros; ring. Qed.
Lemma mvec_mid k x i : (i < k)%nat -> mvec k mid x i = x i.
Proof. intros H. pose proof (mmul_id_l k (fun a _ => x a) i 0 H) as E. exact E. Qed.
Lemma mvec_meq k M N x i : meq k k M N -> (i < k)%nat -> mvec k M x i = mvec k N x i.
Proof. intros H Hi. apply sumn_ext. intros l Hl. rewrite H by assumption. reflexivity. Qed.
Lemma fopt_normal u : normal m n A b (fopt u) u.
Proof.
  intros j Hj. rewrite (dot_ext m _ _ (fun i => mvec n A (fopt u) i - (b i - mvec 3 A2 (vof3 u) i))) by (intros; rewrite residual_split; ring).
  rewrite dot_minus, <- gram_mvec. unfold fopt. rewrite <- mvec_mmul. destruct Hinv as [H _]. rewrite (mvec_meq n _ mid _ j H Hj), mvec_mid by exact Hj. unfold rhs. ring.
Qed.
Lemma normal_unique f u : normal m n A b f u -> forall j, (j < n)%nat -> f j = fopt u j.
Proof.
  intros N j Hj. destruct Hinv as [_ H]. rewrite <- (mvec_mid n f j Hj), <- (mvec_meq n _ mid f j H Hj), mvec_mmul. unfold fopt, mvec at 1. unfold mvec at 2. apply sumn_ext. intros l Hl. f_equal.
  specialize (N l Hl). rewrite gram_mvec. unfold rhs. rewrite (dot_ext m _ (residual m n A b f u) (fun i => mvec n A f i - (b i - mvec 3 A2 (vof3 u) i))) in N by (intros; rewrite residual_split; ring).
  rewrite dot_minus in N. lra.
Qed.
Lemma residual_ext f f' u : (forall j, (j < n)%nat -> f j = f' j) -> forall i, residual m n A b f u i = residual m n A b f' u i.
Proof. intros H i. rewrite !residual_split. f_equal. f_equal. apply sumn_ext. intros l Hl. rewrite H by exact Hl. reflexivity. Qed.

(** what the code computes *)
Definition Temp : mat := mmul m (mtr A2) (msub mid (mmul n (mmul n A inv) (mtr A))).
Lemma reduce_D : D = m3_of (mmul m Temp A2). Proof. reflexivity. Qed.
Lemma reduce_d : d = v3_of (mvec m Temp b). Proof. reflexivity. Qed.
Lemma temp_vec y k : mvec m Temp y k = dot m (fun i => A2 i k) (fun i => y i - mvec n A (mvec n inv (fun j => dot m (fun q => A q j) y)) i).
Proof.
  unfold Temp. rewrite mvec_mmul. unfold mvec at 1. unfold dot at 1. apply sumn_ext. intros i Hi. unfold mtr at 1. f_equal. unfold mvec at 1, msub.
  rewrite (sumn_ext m _ (fun l => mid i l * y l - mmul n (mmul n A inv) (mtr A) i l * y l)) by (intros; ring). rewrite sumn_minus.
  fold (mvec m mid y i). rewrite mvec_mid by exact Hi. f_equal. fold (mvec m (mmul n (mmul n A inv) (mtr A)) y i). rewrite mvec_mmul, mvec_mmul. reflexivity.
Qed.
Lemma D_vec u k : (k < 3)%nat -> v3nth (m3v D u) k = mvec m Temp (mvec 3 A2 (vof3 u)) k.
Proof.
  intros Hk. rewrite reduce_D, <- mvec_mmul. destruct k as [|[|[|k]]]; [| | |lia]; unfold mvec, m3_of, m3v, vof3; cbn [sumn v3nth vx vy vz m00 m01 m02 m10 m11 m12 m20 m21 m22]; ring.
Qed.
Lemma d_vec k : (k < 3)%nat -> v3nth d k = mvec m Temp b k.
Proof. intros Hk. rewrite reduce_d. destruct k as [|[|[|k]]]; [| | |lia]; reflexivity. Qed.
Lemma v3nth_ext v w : (forall k, (k < 3)%nat -> v3nth v k = v3nth w k) -> v = w.
Proof. intros H. apply v3_ext; [apply (H 0%nat); lia|apply (H 1%nat); lia|apply (H 2%nat); lia]. Qed.
Lemma grad_nth f u k : (k < 3)%nat -> v3nth (grad_g m n A b f u) k = dot m (fun i => A2 i k) (residual m n A b f u).
Proof. intros Hk. destruct k as [|[|[|k]]]; [| | |lia]; reflexivity. Qed.
Lemma v3sub_nth v w k : v3nth (v3sub v w) k = v3nth v k - v3nth w k.
Proof. destruct k as [|[|k]]; reflexivity. Qed.
Lemma fopt_split u i : mvec n A (fopt u) i = mvec n A (mvec n inv (fun j => dot m (fun q => A q j) b)) i - mvec n A (mvec n inv (fun j => dot m (fun q => A q j) (mvec 3 A2 (vof3 u)))) i.
Proof.
  rewrite <- mvec_minus. apply mvec_ext. intros l _. unfold fopt. rewrite <- mvec_minus. apply mvec_ext. intros q _. unfold rhs. apply dot_minus.
Qed.
Lemma reduced_ok : reduced m n A b D d.
Proof.
  intros f u N. apply v3nth_ext. intros k Hk. rewrite v3sub_nth, D_vec, d_vec, grad_nth by exact Hk. rewrite !temp_vec, <- dot_minus. apply dot_ext. intros i _.
  rewrite (residual_ext f (fopt u) u (normal_unique f u N)), residual_split, fopt_split. ring.
Qed.
Lemma reduced_unique D' d' : reduced m n A b D' d' -> D' = D /\ d' = d.
Proof.
  intros H. assert (E : forall u, v3sub (m3v D' u) d' = v3sub (m3v D u) d).
  { intros u. rewrite <- (H _ u (fopt_normal u)), <- (reduced_ok _ u (fopt_normal u)). reflexivity. }
  pose proof (E v3zero) as E0. pose proof (E (V3 1 0 0)) as E1. pose proof (E (V3 0 1 0)) as E2. pose proof (E (V3 0 0 1)) as E3. clear E H.
  generalize dependent D. generalize dependent d. intros d0 D0 E0 E1 E2 E3. destruct D', D0, d', d0. unfold v3sub, m3v, v3zero in *; cbn in *. injection E0 as ? ? ?. injection E1 as ? ? ?. injection E2 as ? ? ?. injection E3 as ? ? ?.
  split; f_equal; lra.
Qed.
(** the least cost with gravity fixed is a quadratic of it *)
Lemma inv_sym : forall i j, (i < n)%nat -> (j < n)%nat -> inv i j = inv j i.
Proof.
  destruct Hinv as [H1 H2]. intros i j Hi Hj.
  assert (S : forall a c, gram m A a c = gram m A c a) by (intros; apply sumn_ext; intros; unfold mtr; ring).
  (* inv = inv G inv^T ... : inv^T is also an inverse *)
  assert (T : forall a c, (a < n)%nat -> (c < n)%nat -> mmul n (gram m A) (mtr inv) a c = mid a c).
  { intros a c Ha Hc. rewrite <- (mmul_ext n (mtr (gram m A)) (gram m A) (mtr inv) (mtr inv) a c); [|intros; unfold mtr; apply S|reflexivity].
    rewrite <- mmul_tr. rewrite H2 by assumption. unfold mid. rewrite Nat.eqb_sym. reflexivity. }
  transitivity (mmul n inv (mmul n (gram m A) (mtr inv)) i j).
  - rewrite <- (mmul_id_r n inv i j Hj). apply sumn_ext. intros l Hl. rewrite T by assumption. reflexivity.
  - rewrite <- mmul_assoc. change (inv j i) with (mtr inv i j). rewrite <- (mmul_id_l n (mtr inv) i j Hi). apply sumn_ext. intros l Hl. rewrite H2 by assumption. reflexivity.
Qed.
Lemma D_sym : m3tr D = D.
Proof.
  assert (Q : forall k l, (k < 3)%nat -> (l < 3)%nat -> mmul m Temp A2 k l = mmul m Temp A2 l k).
  { assert (E : forall k l, mmul m Temp A2 k l = dot m (fun i => A2 i k) (fun i => A2 i l) -
        sumn n (fun p => sumn n (fun q => dot m (fun i => A i p) (fun i => A2 i k) * inv p q * dot m (fun i => A i q) (fun i => A2 i l)))).
    { intros k l. change (mmul m Temp A2 k l) with (mvec m Temp (fun i => A2 i l) k). rewrite temp_vec, dot_minus. f_equal. rewrite dot_mvec. apply sumn_ext. intros p _.
      unfold mvec. rewrite <- sumn_scal. apply sumn_ext. intros q _. ring. }
    intros k l _ _. rewrite !E. f_equal; [apply dot_comm|]. rewrite sumn_swap. apply sumn_ext. intros p Hp. apply sumn_ext. intros q Hq. rewrite (inv_sym q p Hq Hp). ring. }
  rewrite reduce_D. unfold m3tr, m3_of. cbn [m00 m01 m02 m10 m11 m12 m20 m21 m22]. rewrite (Q 1 0)%nat, (Q 2 0)%nat, (Q 2 1)%nat by lia. reflexivity.
Qed.

(** the cost of another candidate *)
Lemma sq_shift k x y : sq_len k (fun i => x i + y i) = sq_len k x + 2 * dot k y x + sq_len k y.
Proof. unfold sq_len. rewrite dot_plus, (dot_comm k _ x), (dot_comm k _ y), !dot_plus, (dot_comm k x y). ring. Qed.
Lemma sq_nonneg k x : 0 <= sq_len k x.
Proof. apply sumn_nonneg. intros i _. nra. Qed.
Lemma dot3 x y : dot 3 x (vof3 y) = v3dot (v3_of x) y.
Proof. unfold dot, vof3, v3dot, v3_of. cbn [sumn v3nth vx vy vz]. ring. Qed.
Definition step (f : vec) (u : v3) : vec := fun i => mvec n A f i + mvec 3 A2 (vof3 u) i.
Lemma dot_scal_l k c x y : dot k (fun i => c * x i) y = c * dot k x y.
Proof. unfold dot. rewrite <- sumn_scal. apply sumn_ext. intros; ring. Qed.
(** |A1 f + A2 u|^2 >= u^T D u *)
Lemma step_ge f u : v3dot u (m3v D u) <= sq_len m (step f u).
Proof.
  (* f0: the best features for the pure gravity step *)
  set (f0 := fun j => - mvec n inv (fun j => dot m (fun q => A q j) (mvec 3 A2 (vof3 u))) j).
  assert (N0 : forall j, (j < n)%nat -> dot m (fun i => A i j) (step f0 u) = 0).
  { intros j Hj. unfold step. rewrite dot_plus, <- gram_mvec. unfold f0.
    assert (E : forall y, mvec n (gram m A) (fun j => - y j) j = - mvec n (gram m A) y j) by (intros y; unfold mvec; rewrite <- sumn_opp; apply sumn_ext; intros; ring).
    rewrite E, <- mvec_mmul. destruct Hinv as [H _]. rewrite (mvec_meq n _ mid _ j H Hj), mvec_mid by exact Hj. ring. }
  assert (Q : v3dot u (m3v D u) = sq_len m (step f0 u)).
  { unfold sq_len. assert (E : dot m (step f0 u) (step f0 u) = dot n (fun j => dot m (fun i => A i j) (step f0 u)) f0 + dot 3 (fun j => dot m (fun i => A2 i j) (step f0 u)) (vof3 u)).
    { unfold step at 2. rewrite dot_plus, !dot_mvec. reflexivity. }
    rewrite E, (dot_zero n) by (intros j Hj; rewrite N0 by exact Hj; ring). rewrite Rplus_0_l, dot3.
    assert (Z : v3_of (fun j => dot m (fun i => A2 i j) (step f0 u)) = m3v D u).
    { apply v3nth_ext. intros k Hk. rewrite D_vec by exact Hk. rewrite temp_vec. transitivity (dot m (fun i => A2 i k) (step f0 u)); [destruct k as [|[|[|k]]]; [| | |lia]; reflexivity|].
      apply dot_ext. intros i _. unfold step, f0. unfold mvec at 1. rewrite (sumn_ext n _ (fun l => - (A i l * mvec n inv (fun j => dot m (fun q => A q j) (mvec 3 A2 (vof3 u))) l))) by (intros; ring).
      rewrite sumn_opp. fold (mvec n A (mvec n inv (fun j => dot m (fun q => A q j) (mvec 3 A2 (vof3 u)))) i). ring. }
    rewrite Z. unfold v3dot; ring. }
  rewrite Q. assert (E : forall i, step f u i = step f0 u i + mvec n A (fun j => f j - f0 j) i) by (intros i; unfold step; rewrite mvec_minus; ring).
  assert (S : sq_len m (step f u) = sq_len m (fun i => step f0 u i + mvec n A (fun j => f j - f0 j) i)) by (apply sumn_ext; intros i _; rewrite (E i); reflexivity).
  rewrite S, sq_shift. rewrite (dot_comm m (mvec n A _)), dot_mvec, (dot_zero n) by (intros j Hj; rewrite N0 by exact Hj; ring).
  pose proof (sq_nonneg m (mvec n A (fun j => f j - f0 j))). lra.
Qed.
Lemma v3norm_sq v : v3norm v * v3norm v = v3dot v v.
Proof. unfold v3norm. apply sqrt_sqrt. unfold v3dot. nra. Qed.
Lemma kkt_min f u l : normal m n A b f u -> grad_g m n A b f u = v3scal l u -> (forall w, 0 <= v3dot w (m3v (shifted D l) w)) -> minimum m n A b f u.
Proof.
  intros N G Ps f' u' Hn. set (df := fun j => f' j - f j). set (du := v3sub u' u).
  assert (E : forall i, residual m n A b f' u' i = residual m n A b f u i + step df du i).
  { intros i. rewrite !residual_split. unfold step, df. rewrite mvec_minus.
    assert (Eu : mvec 3 A2 (vof3 u') i = mvec 3 A2 (vof3 u) i + mvec 3 A2 (vof3 du) i) by (unfold mvec, vof3, du; cbn [sumn v3nth v3sub vx vy vz]; ring). rewrite Eu. ring. }
  assert (S : sq_len m (residual m n A b f' u') = sq_len m (fun i => residual m n A b f u i + step df du i)) by (apply sumn_ext; intros i _; rewrite (E i); reflexivity).
  rewrite S, sq_shift. set (r := residual m n A b f u) in *.
  assert (X : dot m (step df du) r = l * v3dot u du).
  { rewrite dot_comm. unfold step. rewrite dot_plus, !dot_mvec. rewrite (dot_zero n) by (intros j Hj; unfold r; rewrite (N j Hj); ring). rewrite Rplus_0_l, dot3.
    assert (Z : v3_of (fun j => dot m (fun i => A2 i j) r) = grad_g m n A b f u) by reflexivity. rewrite Z, G. unfold v3dot; simpl; ring. }
  assert (Hu : 2 * v3dot u du = - v3dot du du).
  { pose proof (v3norm_sq u) as H1. pose proof (v3norm_sq u') as H2. rewrite Hn in H2. unfold du. unfold v3dot, v3sub in *; simpl in *. lra. }
  pose proof (step_ge df du) as Ge. pose proof (Ps du) as P.
  assert (Sh : v3dot du (m3v (shifted D l) du) = v3dot du (m3v D du) - l * v3dot du du) by (unfold shifted, v3dot; simpl; ring).
  rewrite Sh in P. rewrite X. replace (2 * (l * v3dot u du)) with (l * (2 * v3dot u du)) by ring. rewrite Hu. lra.
Qed.

(** ** the code *)
Hypotheses (Hg : 0 < g) (H3 : inv3_ok L).
Lemma pd3_det M : m3tr M = M -> pd3 M -> m3det M <> 0.
Proof.
  intros S P E. pose proof (H3 M S P) as I. assert (Dm : m3det (m3mul M (ya_inv3 L M)) = m3det M * m3det (ya_inv3 L M)) by (generalize (ya_inv3 L M); clear; intros N; unfold m3det; simpl; ring).
  rewrite I, E in Dm. unfold m3det, m3id in Dm; simpl in Dm. lra.
Qed.
Lemma shifted_sym l : m3tr (shifted D l) = shifted D l.
Proof. pose proof D_sym as S. destruct D. unfold m3tr, shifted in *. simpl in *. injection S as S1 S2 S3 S4 S5 S6. rewrite ?S1, ?S2, ?S3. unfold m3sub, m3scal, m3id; simpl. f_equal; lra. Qed.
Lemma grav_eq l : pd3 (shifted D l) -> m3v (shifted D l) (grav_for L D d l) = d.
Proof. intros P. unfold grav_for. fold (shifted D l). rewrite <- m3v_mul, H3 by (exact P || apply shifted_sym). apply v3_ext; simpl; ring. Qed.
Hypothesis He : eigs_ok L.
Lemma dongsi_shape : exists c1 c2 c3 c4 c5 c6, compute_dongsi_coeff D d g = [1; c1; c2; c3; c4; c5; c6].
Proof. unfold compute_dongsi_coeff. eauto 10. Qed.
Lemma grav_len ev l : ya_eigs L (companion (compute_dongsi_coeff D d g)) = Some ev -> In (l, 0) ev -> pd3 (shifted D l) -> v3norm (grav_for L D d l) = g.
Proof.
  intros Ev Hin P. apply (dongsi_root D d g l _ Hg D_sym (pd3_det _ (shifted_sym l) P) (grav_eq l P)). destruct dongsi_shape as (c1 & c2 & c3 & c4 & c5 & c6 & Ec).
  destruct (He _ ev l Ev Hin) as (w & W1 & W2). rewrite Ec in *. apply (companion_root 1 c1 c2 c3 c4 c5 c6 l eq_refl). exists w. auto.
Qed.
Definition cand (l : R) : R := Rabs (v3norm (grav_for L D d l) - g).
Definition pickl := fun (acc : option (R * R)) (v : R * R) => if Reqb (snd v) 0 then
      let cost := Rabs (v3norm (grav_for L D d (fst v)) - g) in
      match acc with None => Some (fst v, cost) | Some (l, c) => if Rltb cost c then Some (fst v, cost) else acc end
    else acc.
Lemma pickl_fold : forall ev acc, (forall l c, acc = Some (l, c) -> c = cand l) ->
  match fold_left pickl ev acc with
  | None => acc = None /\ forall v, In v ev -> snd v <> 0
  | Some (l, c) => c = cand l /\ (In (l, 0) ev \/ acc = Some (l, c)) /\ (forall l', In (l', 0) ev -> cand l <= cand l') /\ (forall l' c', acc = Some (l', c') -> cand l <= cand l')
  end.
Proof.
  induction ev as [|v ev IH]; intros acc H; cbn [fold_left].
  - destruct acc as [[l c]|]; [|split; [reflexivity|intros v []]]. split; [apply (H l c eq_refl)|]. split; [right; reflexivity|]. split; [intros l' []|]. intros l' c' E. injection E as -> ->. lra.
  - set (acc' := pickl acc v).
    assert (H' : forall l c, acc' = Some (l, c) -> c = cand l).
    { intros l c. unfold acc', pickl. destruct (Reqb (snd v) 0); [|apply H]. destruct acc as [[l0 c0]|]; [destruct (Rltb _ c0); [|apply H]|]; intros E; injection E as <- <-; reflexivity. }
    specialize (IH acc' H'). destruct (fold_left pickl ev acc') as [[l c]|].
    + destruct IH as (I1 & I2 & I3 & I4). split; [exact I1|].
      assert (V : forall l', v = (l', 0) -> cand l <= cand l').
      { intros l' ->. unfold acc', pickl in I4. cbn [fst snd] in I4. destruct (Reqb_spec 0 0) as [_|N]; [|exfalso; apply N; reflexivity]. cbv zeta in I4. fold (cand l') in I4.
        destruct acc as [[l0 c0]|]; [destruct (Rltb_spec (cand l') c0)|]; try (eapply I4; reflexivity). specialize (I4 l0 c0 eq_refl). rewrite (H l0 c0 eq_refl) in *. lra. }
      split; [|split].
      * destruct I2 as [I2|I2]; [left; right; exact I2|]. unfold acc', pickl in I2. destruct (Reqb_spec (snd v) 0) as [Z|Z]; [|right; exact I2]. destruct v as [v1 v2]. cbn [fst snd] in *. subst v2. cbv zeta in I2.
        destruct acc as [[l0 c0]|]; [destruct (Rltb _ c0); [|right; exact I2]|]; injection I2 as -> _; left; left; reflexivity.
      * intros l' [E|E]; [apply V, E|apply I3, E].
      * intros l' c' ->. unfold acc', pickl in I4. destruct (Reqb (snd v) 0); [|apply (I4 l' c' eq_refl)]. cbv zeta in I4. fold (cand (fst v)) in I4. destruct (Rltb_spec (cand (fst v)) c'); [|apply (I4 l' c' eq_refl)].
        specialize (I4 _ _ eq_refl). rewrite (H l' c' eq_refl) in *. lra.
    + destruct IH as [I1 I2]. unfold acc', pickl in I1. destruct (Reqb_spec (snd v) 0) as [Z|Z].
      * exfalso. cbv zeta in I1. destruct acc as [[l0 c0]|]; [destruct (Rltb _ c0)|]; discriminate.
      * split; [exact I1|]. intros w [<-|Hw]; [exact Z|apply I2, Hw].
Qed.
Lemma best_spec ev : match best_lambda L D d g ev with
  | None => forall v, In v ev -> snd v <> 0
  | Some l => In (l, 0) ev /\ forall l', In (l', 0) ev -> cand l <= cand l' end.
Proof.
  unfold best_lambda. fold pickl. pose proof (pickl_fold ev None) as H. destruct (fold_left pickl ev None) as [[l c]|]; cbn [option_map fst].
  - destruct H as (_ & H2 & H3' & _); [discriminate|]. split; [|exact H3']. destruct H2 as [H2|H2]; [exact H2|discriminate].
  - apply H. discriminate.
Qed.
Lemma solve_eq : solve L g m n A b = let C := companion (compute_dongsi_coeff D d g) in
  if negb (Nat.eqb (ya_rank L C) 6) then None else
  match ya_eigs L C with None => None | Some ev => match best_lambda L D d g ev with None => None | Some l =>
    let gr := grav_for L D d l in if Rltb (1 / 1000) (cand l) then None
    else Some (fun i => - mvec 3 (mmul m (mmul n inv (mtr A)) A2) (vof3 gr) i + mvec m (mmul n inv (mtr A)) b i, gr) end end.
Proof. reflexivity. Qed.
Lemma fv_opt u i : - mvec 3 (mmul m (mmul n inv (mtr A)) A2) (vof3 u) i + mvec m (mmul n inv (mtr A)) b i = fopt u i.
Proof. rewrite mvec_mmul, !mvec_mmul. unfold fopt. rewrite (mvec_ext n inv (rhs u) (fun l => mvec m (mtr A) b l - mvec m (mtr A) (mvec 3 A2 (vof3 u)) l)) by (intros; apply dot_minus). rewrite mvec_minus. ring. Qed.
Lemma normal_ext f f' u : (forall j, (j < n)%nat -> f j = f' j) -> normal m n A b f u -> normal m n A b f' u.
Proof. intros H N j Hj. rewrite <- (N j Hj). apply dot_ext. intros i _. symmetry. apply residual_ext, H. Qed.

Lemma solution_thm x gr : solve L g m n A b = Some (x, gr) ->
  exists D0 d0 ev l, reduced m n A b D0 d0 /\ ya_eigs L (companion (compute_dongsi_coeff D0 d0 g)) = Some ev /\ In (l, 0) ev /\
    gr = m3v (ya_inv3 L (shifted D0 l)) d0 /\ normal m n A b x gr /\ Rabs (v3norm gr - g) <= 1 / 1000 /\
    (pd3 (shifted D0 l) -> v3norm gr = g /\ grad_g m n A b x gr = v3scal l gr /\ minimum m n A b x gr).
Proof.
  rewrite solve_eq. cbv zeta. destruct (negb _); [discriminate|]. destruct (ya_eigs L _) as [ev|] eqn:Ev; [|discriminate]. pose proof (best_spec ev) as B. destruct (best_lambda L D d g ev) as [l|]; [|discriminate]. destruct B as [B1 B2].
  destruct (Rltb_spec (1 / 1000) (cand l)) as [|Lc]; [discriminate|]. intros E. injection E as Ex Egr. exists D, d, ev, l. split; [exact reduced_ok|]. split; [exact Ev|]. split; [exact B1|]. split; [symmetry; exact Egr|].
  assert (N : normal m n A b x gr).
  { apply (normal_ext (fopt gr)); [|apply fopt_normal]. intros j _. rewrite <- Ex, <- Egr, <- fv_opt. reflexivity. }
  split; [exact N|]. split; [rewrite <- Egr; apply Rnot_lt_le; intros Z; apply Rlt_not_le in Z; unfold cand in Lc; lra|]. intros P.
  assert (G : grad_g m n A b x gr = v3scal l gr).
  { rewrite (reduced_ok x gr N). pose proof (grav_eq l P) as G. rewrite Egr in G. rewrite <- G. unfold shifted. generalize D. intros D1. apply v3_ext; simpl; ring. }
  split; [rewrite <- Egr; apply (grav_len ev l Ev B1 P)|]. split; [exact G|]. apply (kkt_min x gr l N G). intros w.
  destruct (Req_dec (v3dot w w) 0) as [Z|Z].
  - assert (w = v3zero) as -> by (unfold v3dot in Z; apply v3_ext; simpl; nra). unfold v3dot; simpl. lra.
  - left. apply P. intros ->. apply Z. unfold v3dot; simpl; ring.
Qed.
Lemma found_thm D0 d0 ev l : reduced m n A b D0 d0 -> ya_rank L (companion (compute_dongsi_coeff D0 d0 g)) = 6%nat ->
  ya_eigs L (companion (compute_dongsi_coeff D0 d0 g)) = Some ev -> In (l, 0) ev -> pd3 (shifted D0 l) ->
  exists x gr, solve L g m n A b = Some (x, gr) /\ v3norm gr = g.
Proof.
  intros Rd Rk Ev Hl P. destruct (reduced_unique _ _ Rd) as [-> ->]. rewrite solve_eq. cbv zeta. rewrite Rk, Ev. cbn [Nat.eqb negb]. pose proof (best_spec ev) as B. destruct (best_lambda L D d g ev) as [k|].
  - destruct B as [B1 B2]. specialize (B2 l Hl). unfold cand in B2 at 2. rewrite (grav_len ev l Ev Hl P) in B2. replace (g - g) with 0 in B2 by ring. rewrite Rabs_R0 in B2.
    pose proof (Rabs_pos (v3norm (grav_for L D d k) - g)) as Hp. fold (cand k) in Hp. destruct (Rltb_spec (1 / 1000) (cand k)); [lra|]. eexists; eexists. split; [reflexivity|].
    assert (Z : cand k = 0) by lra. unfold cand in Z. destruct (Req_dec (v3norm (grav_for L D d k) - g) 0) as [Q|Q]; [lra|apply Rabs_no_R0 in Q; contradiction].
  - exfalso. apply (B (l, 0) Hl). reflexivity.
Qed.
Hypothesis Hr : rank_ok L.
Lemma exact_thm f u : (forall i, (i < m)%nat -> residual m n A b f u i = 0) -> v3norm u = g -> solve L g m n A b = None.
Proof.
  intros Z Hu. rewrite solve_eq. cbv zeta. destruct (Nat.eqb_spec (ya_rank L (companion (compute_dongsi_coeff D d g))) 6) as [Rk|]; [|reflexivity]. exfalso.
  assert (Gz : forall k, dot m (fun i => A i k) (residual m n A b f u) = 0) by (intros k; unfold dot; apply sumn_zero; intros i Hi; rewrite Z by exact Hi; ring).
  assert (E : m3v D u = d).
  { pose proof (reduced_ok f u (fun j _ => Gz j)) as R. unfold grad_g in R. rewrite !Gz in R. destruct (m3v D u), d. unfold v3sub in R; cbn in R. injection R as ? ? ?. f_equal; lra. }
  destruct dongsi_shape as (c1 & c2 & c3 & c4 & c5 & c6 & Ec).
  assert (H0 : horner (compute_dongsi_coeff D d g) 0 = 0).
  { rewrite dongsi_poly by lra. replace (shifted D 0) with D by (unfold shifted; destruct D; unfold m3sub, m3scal, m3id; simpl; f_equal; ring).
    rewrite <- E, adj_quad, <- v3norm_sq, Hu by apply D_sym. field. lra. }
  rewrite Ec in *. apply (companion_root 1 c1 c2 c3 c4 c5 c6 0 eq_refl) in H0. destruct H0 as (w & W1 & W2). apply W1, (Hr _ w Rk). intros j Hj. rewrite (W2 j Hj). ring.
Qed.
End Solve.
