(** Two linear measurements with the same H^T H and H^T r and the same white noise give the same
    Kalman update. *)
From Coq Require Import Reals List Arith Lia Lra Bool.
From Verif Require Import RBool Outcome Lin GivensModel GivensSpec GivensProofs StateModel StateSpec PdInv StateLin StateEkf.
Import ListNotations.
Open Scope R_scope.

Lemma quad_scale n P t x : quad n P (fun i => t * x i) = t * t * quad n P x.
Proof.
  unfold quad. rewrite <- sumn_scal. apply sumn_ext; intros i _. rewrite <- sumn_scal.
  apply sumn_ext; intros j _. ring.
Qed.

Lemma dot_scale_l n t x y : dot n (fun i => t * x i) y = t * dot n x y.
Proof. unfold dot. rewrite <- sumn_scal. apply sumn_ext; intros; ring. Qed.

Lemma dot_zero n x : dot n x x = 0 -> veq n x (fun _ => 0).
Proof.
  intros H. destruct (vnz_dec n x) as [E|E]; auto. pose proof (dot_sq_pos n x E). lra.
Qed.

Lemma psd_kernel n P w : spsd n P -> quad n P w = 0 -> veq n (mvec n P w) (fun _ => 0).
Proof.
  intros [HS HP] Hq. apply dot_zero. set (v := mvec n P w). set (d := dot n v v). set (a := quad n P v).
  assert (Ha : 0 <= a) by apply HP.
  assert (X : forall t, 0 <= t * t * a - 2 * (t * d)).
  { intros t. pose proof (HP (fun i => t * v i - w i)) as H. rewrite quad_sub in H by auto.
    rewrite quad_scale, dot_scale_l, Hq in H. fold v d a in H. lra. }
  destruct (Req_dec a 0) as [E|E].
  - pose proof (X 1). pose proof (X (-1)). rewrite E in *. lra.
  - pose proof (X (d / a)) as Y. assert (Z : d / a * (d / a) * a = d * d / a) by (field; auto).
    rewrite Z in Y. assert (Z2 : d / a * d = d * d / a) by (field; auto). rewrite Z2 in Y.
    assert (Z3 : 0 <= - (d * d / a)) by lra.
    assert (0 < / a) by (apply Rinv_0_lt_compat; lra).
    assert (0 <= d * d) by nra. unfold Rdiv in *. assert (d * d * / a <= 0) by lra.
    assert (d * d = 0).
    { destruct (Rle_lt_or_eq_dec 0 (d * d)) as [L|L]; auto. pose proof (Rmult_lt_0_compat _ _ L H). lra. }
    destruct (Rmult_integral _ _ H2); auto.
Qed.

(** mvec is linear *)
Lemma mvec_minus n A x y i : mvec n A (fun k => x k - y k) i = mvec n A x i - mvec n A y i.
Proof. unfold mvec. rewrite <- sumn_minus. apply sumn_ext; intros; ring. Qed.

Lemma mvec_madd n A B x i : mvec n (madd A B) x i = mvec n A x i + mvec n B x i.
Proof. unfold mvec, madd. rewrite <- sumn_plus. apply sumn_ext; intros; ring. Qed.

Lemma mvec_scal_id n s x i : (i < n)%nat -> mvec n (mscal s mid) x i = s * x i.
Proof.
  intros Hi. rewrite <- (mid_mvec n x i Hi). unfold mvec. rewrite <- sumn_scal.
  apply sumn_ext; intros; unfold mscal; ring.
Qed.

Lemma info_unique n L P s z1 z2 : spsd n P -> psd n L -> 0 < s ->
  (forall i, (i < n)%nat -> mvec n L (mvec n P z1) i + s * z1 i = mvec n L (mvec n P z2) i + s * z2 i) ->
  veq n z1 z2.
Proof.
  intros HP HL Hs H. set (w := fun i => z1 i - z2 i).
  assert (Hw : forall i, (i < n)%nat -> mvec n L (mvec n P w) i + s * w i = 0).
  { intros i Hi. rewrite (mvec_ext n L L _ (fun k => mvec n P z1 k - mvec n P z2 k)).
    - rewrite mvec_minus. unfold w. pose proof (H i Hi). lra.
    - auto.
    - intros k Hk. unfold w. apply mvec_minus. }
  assert (E : quad n L (mvec n P w) + s * quad n P w = 0).
  { rewrite !quad_dot.
    assert (D : dot n w (mvec n P w) = dot n (mvec n P w) w) by apply dot_comm. rewrite D.
    unfold dot. rewrite <- sumn_scal, <- sumn_plus. apply sumn_zero. intros i Hi.
    pose proof (Hw i Hi). replace (s * (mvec n P w i * w i)) with (mvec n P w i * (s * w i)) by ring.
    rewrite <- Rmult_plus_distr_l, H0. ring. }
  pose proof (HL (mvec n P w)). pose proof (proj2 HP w).
  assert (Q0 : quad n P w = 0) by nra.
  pose proof (psd_kernel n P w HP Q0) as K.
  intros i Hi. pose proof (Hw i Hi) as X.
  rewrite (mvec_ext n L L _ (fun _ => 0)) in X; [|auto|exact K].
  unfold mvec in X at 1. rewrite sumn_zero in X; [|intros; ring].
  assert (w i = 0) by nra. unfold w in *. lra.
Qed.

Lemma sym_scal_id m s : sym m (mscal s mid).
Proof. intros i j _ _. unfold mscal, mtr, mid. rewrite Nat.eqb_sym. reflexivity. Qed.

Lemma quad_scal_id m s x : quad m (mscal s mid) x = s * dot m x x.
Proof.
  rewrite quad_dot. unfold dot. rewrite <- sumn_scal. apply sumn_ext. intros i Hi.
  rewrite mvec_scal_id by auto. ring.
Qed.
Lemma pd_scal_id m s : 0 < s -> pd m (mscal s mid).
Proof. intros Hs x Hx. rewrite quad_scal_id. apply Rmult_lt_0_compat; auto. apply dot_sq_pos; auto. Qed.
Lemma psd_gram r c A : psd c (mmul r (mtr A) A).
Proof. intros x. rewrite quad_gram. unfold dot. apply sumn_nonneg. intros; nra. Qed.

(** information form of P H^T S^-1 r *)
Lemma gain_info n m H P s y (r : vec) :
  (forall i, (i < m)%nat -> mvec m (madd (congr n H P) (mscal s mid)) y i = r i) ->
  forall i, mvec n (mmul m (mtr H) H) (mvec n P (mvec m (mtr H) y)) i + s * mvec m (mtr H) y i
            = mvec m (mtr H) r i.
Proof.
  intros E i. rewrite mvec_mmul.
  assert (L : forall f g : vec, mvec m (mtr H) (fun k => f k + s * g k) i
                               = mvec m (mtr H) f i + s * mvec m (mtr H) g i).
  { intros f g. unfold mvec. rewrite <- sumn_scal, <- sumn_plus. apply sumn_ext. intros; ring. }
  rewrite (mvec_ext m (mtr H) (mtr H) r (fun k => mvec n H (mvec n P (mvec m (mtr H) y)) k + s * y k)).
  - symmetry. exact (L (mvec n H (mvec n P (mvec m (mtr H) y))) y).
  - auto.
  - intros k Hk. rewrite <- (E k Hk), mvec_madd, mvec_scal_id by auto. f_equal.
    unfold congr. rewrite !mvec_mmul. reflexivity.
Qed.

Lemma same_update n m1 m2 H1 H2 P s (r1 r2 : vec) :
  spsd n P -> 0 < s ->
  meq n n (mmul m1 (mtr H1) H1) (mmul m2 (mtr H2) H2) ->
  veq n (mvec m1 (mtr H1) r1) (mvec m2 (mtr H2) r2) ->
  let S1 := madd (congr n H1 P) (mscal s mid) in
  let S2 := madd (congr n H2 P) (mscal s mid) in
  veq n (mvec n P (mvec m1 (mtr H1) (mvec m1 (pdinv m1 S1) r1)))
        (mvec n P (mvec m2 (mtr H2) (mvec m2 (pdinv m2 S2) r2))).
Proof.
  intros HP Hs HH Hr S1 S2.
  assert (X : forall m H, sym m (madd (congr n H P) (mscal s mid)) /\ pd m (madd (congr n H P) (mscal s mid))).
  { intros m H. apply innov_spd; auto. apply sym_scal_id. apply pd_scal_id; auto. }
  assert (Y : forall m H (r : vec) i, (i < m)%nat ->
     mvec m (madd (congr n H P) (mscal s mid)) (mvec m (pdinv m (madd (congr n H P) (mscal s mid))) r) i = r i).
  { intros m H r i Hi. destruct (X m H) as [A B]. rewrite <- mvec_mmul.
    rewrite (mvec_ext m _ mid _ r); [apply mid_mvec; auto| |intros ? ?; auto].
    intros l Hl. apply pdinv_r; auto. }
  assert (Z : veq n (mvec m1 (mtr H1) (mvec m1 (pdinv m1 S1) r1)) (mvec m2 (mtr H2) (mvec m2 (pdinv m2 S2) r2))).
  { apply (info_unique n (mmul m1 (mtr H1) H1) P s); auto.
    - apply psd_gram.
    - intros i Hi. rewrite (gain_info n m1 H1 P s _ r1) by (intros; apply Y; auto).
      rewrite (mvec_ext n _ (mmul m2 (mtr H2) H2) _ (mvec n P (mvec m2 (mtr H2) (mvec m2 (pdinv m2 S2) r2))) i);
        [|intros; apply HH; auto|intros ? ?; auto].
      rewrite (gain_info n m2 H2 P s _ r2) by (intros; apply Y; auto). apply Hr; auto. }
  intros i Hi. apply mvec_ext; auto.
Qed.

(** the covariance reduction P H^T S^-1 H P: columns are updates with r = H P e_j *)
Lemma same_update_cov n m1 m2 H1 H2 P s :
  spsd n P -> 0 < s ->
  meq n n (mmul m1 (mtr H1) H1) (mmul m2 (mtr H2) H2) ->
  let S1 := madd (congr n H1 P) (mscal s mid) in
  let S2 := madd (congr n H2 P) (mscal s mid) in
  meq n n (mmul n P (mmul m1 (mtr H1) (mmul m1 (pdinv m1 S1) (mmul n H1 P))))
          (mmul n P (mmul m2 (mtr H2) (mmul m2 (pdinv m2 S2) (mmul n H2 P)))).
Proof.
  intros HP Hs HH S1 S2 i j Hi Hj.
  apply (same_update n m1 m2 H1 H2 P s (fun k => mmul n H1 P k j) (fun k => mmul n H2 P k j)); auto.
  intros k Hk.
  transitivity (mmul m1 (mtr H1) (mmul n H1 P) k j); [reflexivity|].
  transitivity (mmul m2 (mtr H2) (mmul n H2 P) k j); [|reflexivity].
  rewrite <- !mmul_assoc. apply mmul_ext; auto.
Qed.
