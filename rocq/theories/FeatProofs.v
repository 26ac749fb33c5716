(** Lemmas for C37: linear triangulation. *)
From Coq Require Import Reals Lra Lia Psatz List Bool Arith.
From Coquelicot Require Import Coquelicot.
From Verif Require Import RBool Outcome GeoModel GeoSpec GeoProofs Calc3 HelpRep HelpThms FeatModel FeatSpec.
Import ListNotations.
Open Scope R_scope.

Definition vm (w : view) : meas := (w_R w, w_p w, (w_u w, w_v w)).
Lemma cam_views_meas cs c ts : forall m, match cam_views cs c m ts with Ok ws => cam_meas cs c ts = Some (map vm ws) | _ => cam_meas cs c ts = None end.
Proof.
  induction ts as [|[t [u v]] ts IH]; intros m; cbn [cam_views cam_meas]; [reflexivity|].
  destruct (cs c t) as [[M p]|]; cbn [look obind]; [|reflexivity]. specialize (IH (S m)). destruct (cam_views cs c (S m) ts) as [l| |]; cbn [obind]; rewrite IH; reflexivity.
Qed.
Lemma views_meas cs f : match views_of cs f with Ok ws => all_meas cs f = Some (map vm ws) | _ => all_meas cs f = None end.
Proof.
  induction f as [|[c ts] f IH]; cbn [views_of all_meas]; [reflexivity|]. pose proof (cam_views_meas cs c ts 0) as H.
  destruct (cam_views cs c 0 ts) as [a| |]; cbn [obind]; rewrite H; [|reflexivity|reflexivity].
  destruct (views_of cs f) as [b| |]; cbn [obind]; rewrite IH; [rewrite map_app|..]; reflexivity.
Qed.
Lemma cam_views_in cs c ts : forall m ws w, cam_views cs c m ts = Ok ws -> In w ws -> w_cam w = c /\ (m <= w_idx w)%nat /\
  exists t, nth_error ts (w_idx w - m) = Some (t, (w_u w, w_v w)) /\ cs c t = Some (w_R w, w_p w).
Proof.
  induction ts as [|[t [u v]] ts IH]; intros m ws w E I; cbn [cam_views] in E; [injection E as <-; destruct I|].
  destruct (cs c t) as [[M p]|] eqn:Ec; cbn [look obind] in E; [|discriminate]. destruct (cam_views cs c (S m) ts) as [l| |] eqn:El; cbn [obind] in E; try discriminate.
  injection E as <-. destruct I as [<-|I].
  - cbn. split; [reflexivity|]. split; [lia|]. exists t. rewrite Nat.sub_diag. auto.
  - destruct (IH _ _ _ El I) as (A & B & t' & C & D). split; [exact A|]. split; [lia|]. exists t'. split; [|exact D].
    replace (w_idx w - m)%nat with (S (w_idx w - S m)) by lia. exact C.
Qed.
Lemma views_in cs f : forall ws w, views_of cs f = Ok ws -> In w ws -> exists ts t, In (w_cam w, ts) f /\ nth_error ts (w_idx w) = Some (t, (w_u w, w_v w)) /\ cs (w_cam w) t = Some (w_R w, w_p w).
Proof.
  induction f as [|[c ts] f IH]; intros ws w E I; cbn [views_of] in E; [injection E as <-; destruct I|].
  destruct (cam_views cs c 0 ts) as [a| |] eqn:Ea; cbn [obind] in E; try discriminate. destruct (views_of cs f) as [b| |]; cbn [obind] in E; try discriminate. injection E as <-.
  apply in_app_or in I. destruct I as [I|I].
  - destruct (cam_views_in _ _ _ _ _ _ Ea I) as (A & _ & t & C & D). rewrite Nat.sub_0_r in C. exists ts, t. rewrite A. split; [left; reflexivity|]. auto.
  - destruct (IH b w eq_refl I) as (ts' & t & A & B & C). exists ts', t. split; [right; exact A|]. auto.
Qed.
Lemma cam_meas_has cs c ts l t uv M p : cam_meas cs c ts = Some l -> In (t, uv) ts -> cs c t = Some (M, p) -> In (M, p, uv) l.
Proof.
  revert l. induction ts as [|[t' uv'] ts IH]; intros l E I Ec; [destruct I|]. cbn [cam_meas] in E.
  destruct (cs c t') as [[M' p']|] eqn:Ec'; [|discriminate]. destruct (cam_meas cs c ts) as [r|]; [|discriminate]. injection E as <-.
  destruct I as [I|I]; [injection I as -> ->; rewrite Ec in Ec'; injection Ec' as -> ->; left; reflexivity|right; eauto].
Qed.
Lemma all_meas_has cs f ms c ts t uv M p : all_meas cs f = Some ms -> In (c, ts) f -> In (t, uv) ts -> cs c t = Some (M, p) -> In (M, p, uv) ms.
Proof.
  revert ms. induction f as [|[c' ts'] f IH]; intros ms E I J Ec; [destruct I|]. cbn [all_meas] in E.
  destruct (cam_meas cs c' ts') as [a|] eqn:Ea; [|discriminate]. destruct (all_meas cs f) as [b|] eqn:Eb; [|discriminate]. injection E as <-. apply in_or_app.
  destruct I as [I|I]; [injection I as -> ->; left; eapply cam_meas_has; eauto|right; eauto].
Qed.

(** *** the anchor *)
Lemma most_spec f : forall c0 n0, let r := fold_left (fun a (x : nat * list (R * (R * R))) => if (snd a <? length (snd x))%nat then (fst x, length (snd x)) else a) f (c0, n0) in
  (n0 <= snd r)%nat /\ (forall c ts, In (c, ts) f -> (length ts <= snd r)%nat) /\ (r = (c0, n0) \/ exists ts, In (fst r, ts) f /\ length ts = snd r /\ (n0 < snd r)%nat).
Proof.
  induction f as [|[c ts] f IH]; intros c0 n0; cbn [fold_left].
  - cbn. split; [lia|]. split; [intros ? ? []|left; reflexivity].
  - cbn [fst snd]. destruct (Nat.ltb_spec n0 (length ts)) as [L|L].
    + destruct (IH c (length ts)) as (A & B & C). cbv zeta. split; [lia|]. split; [intros c' ts' [I|I]; [injection I as <- <-; exact A|eapply B; eauto]|].
      right. destruct C as [C|(ts' & C1 & C2 & C3)]; [rewrite C; cbn; exists ts; split; [left; reflexivity|]; auto|exists ts'; split; [right; exact C1|]; split; [exact C2|lia]].
    + destruct (IH c0 n0) as (A & B & C). cbv zeta. split; [lia|]. split; [intros c' ts' [I|I]; [injection I as <- <-; lia|eapply B; eauto]|].
      destruct C as [C|(ts' & C1 & C2 & C3)]; [left; exact C|right; exists ts'; split; [right; exact C1|]; auto].
Qed.
Lemma last_of_ok {A} (l : list A) a : last_of l = Ok a -> exists r, l = r ++ [a].
Proof. unfold last_of. destruct (rev l) as [|x r] eqn:E; [discriminate|]. intros H. injection H as <-. exists (rev r). rewrite <- (rev_involutive l), E. reflexivity. Qed.
Lemma find_In (f : obs) c x : find (fun x => Nat.eqb (fst x) c) f = Some x -> In (c, snd x) f.
Proof. intros H. apply find_some in H. destruct H as [I E]. apply Nat.eqb_eq in E. destruct x as [c' ts]. cbn in *. subst. exact I. Qed.
Lemma anchor_spec f c t uv ai : anchor_of f = Ok (c, t, uv, ai) -> exists ts r, In (c, ts) f /\ ts = r ++ [(t, uv)] /\ ai = length r /\ (NoDup (map fst f) -> forall c' ts', In (c', ts') f -> (length ts' <= length ts)%nat).
Proof.
  unfold anchor_of, times_of. intros H. destruct (find _ f) as [[c' ts]|] eqn:F; cbn [look obind] in H; [|discriminate]. cbn [snd] in H.
  destruct (last_of ts) as [[t' uv']| |] eqn:L; cbn [obind] in H; try discriminate. injection H as <- <- <- <-.
  apply last_of_ok in L. destruct L as [r ->]. apply find_In in F. cbn [snd] in F. exists (r ++ [(t', uv')]), r. split; [exact F|]. split; [reflexivity|]. split; [rewrite app_length; cbn; lia|].
  intros ND c2 ts2 I. destruct (most_spec f 0 0) as (_ & B & C). fold (most_meas f) in B, C. specialize (B _ _ I).
  destruct C as [C|(ts3 & C1 & C2 & _)].
  { rewrite C in B. cbn in B. lia. }
  { assert (ts3 = r ++ [(t', uv')]); [|subst ts3; lia].
    clear -ND F C1. revert F C1. generalize (fst (most_meas f)). intros c F C1. induction f as [|[a l] f IH]; [destruct F|]. cbn in ND. inversion ND as [|? ? N ND']; subst.
    destruct F as [F|F], C1 as [C1|C1].
    + congruence.
    + injection F as E1 E2. exfalso. apply N. rewrite E1. apply (in_map fst) in C1. exact C1.
    + injection C1 as E1 E2. exfalso. apply N. rewrite E1. apply (in_map fst) in F. exact F.
    + auto. }
Qed.

(** *** geometry *)
Lemma dot_rot M a b : is_rot M -> v3dot (m3v M a) (m3v M b) = v3dot a b.
Proof.
  intros (_ & H & _). assert (K : v3dot (m3v M a) (m3v M b) = v3dot a (m3v (m3tr M) (m3v M b))) by (destruct M, a, b; unfold v3dot; cbn; ring).
  rewrite K, <- m3v_mul, H, m3v_id. reflexivity.
Qed.
Lemma dot_pos a : 0 <= v3dot a a. Proof. destruct a. unfold v3dot. cbn. nra. Qed.
Lemma dot_zero a : v3dot a a = 0 -> a = v3zero.
Proof. destruct a as [x y z]. unfold v3dot. cbn. intros H. assert (x = 0) by nra. assert (y = 0) by nra. assert (z = 0) by nra. subst. reflexivity. Qed.
Lemma norm_sq a : v3norm a * v3norm a = v3dot a a. Proof. unfold v3norm. apply sqrt_sqrt, dot_pos. Qed.
Lemma ray_len w : is_rot (w_R w) -> 1 <= v3dot (ray (vm w)) (ray (vm w)).
Proof. intros H. cbn. rewrite dot_rot by (apply is_rot_tr; exact H). unfold v3dot. cbn. nra. Qed.
Lemma ray_norm w : is_rot (w_R w) -> 0 < v3norm (ray (vm w)).
Proof. intros H. pose proof (ray_len w H). unfold v3norm. apply sqrt_lt_R0. lra. Qed.
Lemma bearing_ray RA w : is_rot RA -> bearing RA w = v3scal (/ v3norm (ray (vm w))) (m3v RA (ray (vm w))).
Proof.
  intros H. unfold bearing, rel_R. cbv zeta. rewrite m3tr_mul, m3tr_tr, m3v_mul. fold (ray (vm w)).
  change (m3v (m3tr (w_R w)) {| vx := w_u w; vy := w_v w; vz := 1 |}) with (ray (vm w)).
  assert (N : v3norm (m3v RA (ray (vm w))) = v3norm (ray (vm w))) by (unfold v3norm; rewrite dot_rot by exact H; reflexivity). rewrite N.
  destruct (m3v RA (ray (vm w))). unfold v3div, v3scal. cbn. f_equal; unfold Rdiv; ring.
Qed.
Lemma cross_scal_l k a b : v3cross (v3scal k a) b = v3scal k (v3cross a b). Proof. destruct a, b. apply v3_ext; cbn; ring. Qed.
Lemma dot_scal k a b : v3dot (v3scal k a) (v3scal k b) = k * k * v3dot a b. Proof. destruct a, b. unfold v3dot. cbn. ring. Qed.
(** squared norm of bearing x direction, in the global frame *)
Lemma bx RA w y : is_rot RA -> is_rot (w_R w) ->
  v3dot (v3cross (bearing RA w) (m3v RA y)) (v3cross (bearing RA w) (m3v RA y)) = v3dot (v3cross (ray (vm w)) y) (v3cross (ray (vm w)) y) / v3dot (ray (vm w)) (ray (vm w)).
Proof.
  intros HA HW. rewrite bearing_ray by exact HA. rewrite cross_scal_l, dot_scal, <- rot_cross, dot_rot by exact HA. rewrite <- (norm_sq (ray (vm w))). pose proof (ray_norm w HW). field. lra.
Qed.
Lemma rel_p_diff RA pA w P : v3sub (m3v RA (v3sub P pA)) (rel_p RA pA w) = m3v RA (v3sub P (w_p w)).
Proof. unfold rel_p. rewrite <- m3v_sub. f_equal. destruct P, pA, (w_p w). apply v3_ext; cbn; ring. Qed.

Definition Aw (RA : m3) (w : view) : m3 := m3mul (m3tr (skew_x (bearing RA w))) (skew_x (bearing RA w)).
Lemma Aw_quad RA w x y : v3dot x (m3v (Aw RA w) y) = v3dot (v3cross (bearing RA w) x) (v3cross (bearing RA w) y).
Proof. unfold Aw. rewrite m3v_mul. rewrite <- !skew_cross. set (B := skew_x (bearing RA w)). destruct B, x, y. unfold v3dot. cbn. ring. Qed.
Lemma m3v_addm A B x : m3v (m3add A B) x = v3add (m3v A x) (m3v B x). Proof. destruct A, B, x. apply v3_ext; cbn; ring. Qed.
Lemma dot_add a b c : v3dot a (v3add b c) = v3dot a b + v3dot a c. Proof. destruct a, b, c. unfold v3dot. cbn. ring. Qed.
Lemma dot_sym a b : v3dot a b = v3dot b a. Proof. destruct a, b. unfold v3dot. cbn. ring. Qed.

Lemma tri_fold RA pA ws : forall s, symm (fst s) ->
  let r := fold_left (tri_step RA pA) ws s in symm (fst r) /\
  (forall x, v3dot x (m3v (fst r) x) = v3dot x (m3v (fst s) x) + rsum (map (fun w => v3dot (v3cross (bearing RA w) x) (v3cross (bearing RA w) x)) ws)) /\
  (forall x, v3dot x (m3v (fst r) x) - 2 * v3dot x (snd r) + rsum (map (fun w => v3dot (rel_p RA pA w) (m3v (Aw RA w) (rel_p RA pA w))) ws) =
     v3dot x (m3v (fst s) x) - 2 * v3dot x (snd s) + rsum (map (fun w => let d := v3cross (bearing RA w) (v3sub x (rel_p RA pA w)) in v3dot d d) ws)) /\
  (forall x, m3v (fst s) x = snd s -> (forall w, In w ws -> v3cross (bearing RA w) (v3sub x (rel_p RA pA w)) = v3zero) -> m3v (fst r) x = snd r).
Proof.
  induction ws as [|w ws IH]; intros s HS; cbn [fold_left map]; cbv zeta.
  - unfold rsum. cbn [fold_right]. split; [exact HS|]. split; [intros; ring|]. split; [intros; ring|auto].
  - assert (HS' : symm (fst (tri_step RA pA s w))).
    { intros x y. unfold tri_step. cbv zeta. cbn [fst]. fold (Aw RA w). rewrite !m3v_addm, !dot_add, (HS x y), !Aw_quad. rewrite (dot_sym (v3cross (bearing RA w) x)). reflexivity. }
    destruct (IH (tri_step RA pA s w) HS') as (I1 & I2 & I3 & I4). cbv zeta in I1, I2, I3, I4. split; [exact I1|]. split; [|split].
    + intros x. rewrite I2. unfold tri_step at 1. cbv zeta. cbn [fst]. fold (Aw RA w). rewrite m3v_addm, dot_add, Aw_quad. unfold rsum. cbn [fold_right]. ring.
    + intros x. unfold rsum in *. cbn [fold_right] in *. specialize (I3 x). change (fst (tri_step RA pA s w)) with (m3add (fst s) (Aw RA w)) in I3. change (snd (tri_step RA pA s w)) with (v3add (snd s) (m3v (Aw RA w) (rel_p RA pA w))) in I3.
      rewrite m3v_addm, !dot_add, !Aw_quad in I3. rewrite Aw_quad.
      assert (E : forall a b, v3dot (v3cross (bearing RA w) (v3sub a b)) (v3cross (bearing RA w) (v3sub a b)) = v3dot (v3cross (bearing RA w) a) (v3cross (bearing RA w) a) - 2 * v3dot (v3cross (bearing RA w) a) (v3cross (bearing RA w) b) + v3dot (v3cross (bearing RA w) b) (v3cross (bearing RA w) b)).
      { intros [] []. destruct (bearing RA w). unfold v3dot. cbn. ring. }
      cbv zeta. rewrite E. lra.
    + intros x E H. apply I4; [|intros w' I; apply H; right; exact I]. unfold tri_step. cbv zeta. cbn [fst snd]. fold (Aw RA w). rewrite m3v_addm, E. f_equal.
      assert (Z : m3v (Aw RA w) (v3sub x (rel_p RA pA w)) = v3zero) by (unfold Aw; rewrite m3v_mul, skew_cross, H by (left; reflexivity); generalize (skew_x (bearing RA w)); intros []; apply v3_ext; cbn; ring).
      rewrite m3v_sub in Z. generalize Z. generalize (m3v (Aw RA w) x) (m3v (Aw RA w) (rel_p RA pA w)). intros [] [] Y. unfold v3sub, v3zero in Y. cbn in Y. injection Y as Y1 Y2 Y3. apply v3_ext; cbn; lra.
Qed.
Lemma tri_sys RA pA ws : let r := tri_system RA pA ws in symm (fst r) /\
  (forall x, v3dot x (m3v (fst r) x) = rsum (map (fun w => v3dot (v3cross (bearing RA w) x) (v3cross (bearing RA w) x)) ws)) /\
  (exists k, forall x, v3dot x (m3v (fst r) x) - 2 * v3dot x (snd r) + k = rsum (map (fun w => let d := v3cross (bearing RA w) (v3sub x (rel_p RA pA w)) in v3dot d d) ws)) /\
  (forall x, (forall w, In w ws -> v3cross (bearing RA w) (v3sub x (rel_p RA pA w)) = v3zero) -> m3v (fst r) x = snd r).
Proof.
  cbv zeta. unfold tri_system. destruct (tri_fold RA pA ws (M3 0 0 0 0 0 0 0 0 0, v3zero)) as (A & B & C & D).
  - intros [] []. unfold v3dot. cbn. ring.
  - cbv zeta in *. split; [exact A|]. split; [intros x; rewrite B; destruct x; unfold v3dot; cbn; ring|]. split.
    + eexists. intros x. rewrite C. destruct x as [a b c]. cbn [fst snd]. unfold v3dot at 1 2. cbn. ring.
    + intros x H. apply D; [destruct x; apply v3_ext; cbn; ring|exact H].
Qed.

(** positive definite symmetric 3x3 matrices are nonsingular *)
Lemma pd_det A : symm A -> (forall x, x <> v3zero -> 0 < v3dot x (m3v A x)) -> m3det A <> 0.
Proof.
  intros HS HP. destruct A as [a b c b' d e c' e' f].
  pose proof (HS (V3 1 0 0) (V3 0 1 0)) as S1. pose proof (HS (V3 1 0 0) (V3 0 0 1)) as S2. pose proof (HS (V3 0 1 0) (V3 0 0 1)) as S3.
  unfold v3dot in S1, S2, S3. cbn in S1, S2, S3. assert (b' = b) by lra. assert (c' = c) by lra. assert (e' = e) by lra. subst b' c' e'. clear S1 S2 S3 HS.
  assert (P1 : 0 < a). { specialize (HP (V3 1 0 0)). unfold v3dot in HP. cbn in HP. assert (V3 1 0 0 <> v3zero) by (intros H; injection H; lra). specialize (HP H). lra. }
  assert (P2 : 0 < a * d - b * b).
  { specialize (HP (V3 (- b) a 0)). unfold v3dot in HP. cbn in HP. assert (H : V3 (- b) a 0 <> v3zero) by (intros H; injection H; lra). specialize (HP H). assert (0 < a * (a * d - b * b)) by lra. nra. }
  assert (P3 : 0 < (a * d - b * b) * m3det (M3 a b c b d e c e f)).
  { set (x := b * e - c * d). set (y := b * c - a * e). set (z := a * d - b * b). specialize (HP (V3 x y z)). assert (H : V3 x y z <> v3zero) by (intros H; injection H; unfold z; lra). specialize (HP H).
    unfold v3dot in HP. cbn in HP. unfold m3det. cbn. unfold x, y, z in *. nra. }
  intros H. rewrite H in P3. lra.
Qed.
Lemma rsum_nonneg {A} (g : A -> R) l : (forall a, 0 <= g a) -> 0 <= rsum (map g l).
Proof. intros H. induction l as [|a l IH]; cbn; [lra|]. unfold rsum in IH. specialize (H a). lra. Qed.
Lemma rsum_zero {A} (g : A -> R) l : (forall a, 0 <= g a) -> rsum (map g l) = 0 -> forall a, In a l -> g a = 0.
Proof.
  intros H. induction l as [|a l IH]; intros E b I; [destruct I|]. cbn in E. unfold rsum in IH. pose proof (H a). pose proof (rsum_nonneg g l H) as N. unfold rsum in N.
  destruct I as [<-|I]; [lra|]. apply IH; [lra|exact I].
Qed.
Lemma rsum_ext {A} (g h : A -> R) l : (forall a, In a l -> g a = h a) -> rsum (map g l) = rsum (map h l).
Proof. intros H. induction l as [|a l IH]; [reflexivity|]. cbn. unfold rsum in IH. rewrite H by (left; reflexivity). rewrite IH by (intros; apply H; right; assumption). reflexivity. Qed.

Lemma ray_parallel a b y : v3cross a y = v3zero -> v3cross b y = v3zero -> y <> v3zero -> v3cross a b = v3zero.
Proof.
  destruct a as [a1 a2 a3], b as [b1 b2 b3], y as [y1 y2 y3]. unfold v3cross, v3zero. cbn. intros Ha Hb N. injection Ha as A1 A2 A3. injection Hb as B1 B2 B3.
  assert (K : y1 <> 0 \/ y2 <> 0 \/ y3 <> 0). { destruct (Req_dec y1 0); [|auto]. destruct (Req_dec y2 0); [|auto]. destruct (Req_dec y3 0); [|auto]. subst. congruence. }
  destruct K as [K|[K|K]].
  - assert (a2 = a1 * y2 / y1) by (field_simplify_eq; [lra|exact K]). assert (a3 = a1 * y3 / y1) by (field_simplify_eq; [lra|exact K]).
    assert (b2 = b1 * y2 / y1) by (field_simplify_eq; [lra|exact K]). assert (b3 = b1 * y3 / y1) by (field_simplify_eq; [lra|exact K]). subst. f_equal; field; exact K.
  - assert (a1 = a2 * y1 / y2) by (field_simplify_eq; [lra|exact K]). assert (a3 = a2 * y3 / y2) by (field_simplify_eq; [lra|exact K]).
    assert (b1 = b2 * y1 / y2) by (field_simplify_eq; [lra|exact K]). assert (b3 = b2 * y3 / y2) by (field_simplify_eq; [lra|exact K]). subst. f_equal; field; exact K.
  - assert (a1 = a3 * y1 / y3) by (field_simplify_eq; [lra|exact K]). assert (a2 = a3 * y2 / y3) by (field_simplify_eq; [lra|exact K]).
    assert (b1 = b3 * y1 / y3) by (field_simplify_eq; [lra|exact K]). assert (b2 = b3 * y2 / y3) by (field_simplify_eq; [lra|exact K]). subst. f_equal; field; exact K.
Qed.
Lemma tri_pd RA pA ws : is_rot RA -> (forall w, In w ws -> is_rot (w_R w)) -> two_rays (map vm ws) ->
  forall x, x <> v3zero -> 0 < v3dot x (m3v (fst (tri_system RA pA ws)) x).
Proof.
  intros HA HW (m1 & m2 & I1 & I2 & N) x X. destruct (tri_sys RA pA ws) as (_ & Q & _). cbv zeta in Q. rewrite Q.
  assert (GE : forall w, 0 <= v3dot (v3cross (bearing RA w) x) (v3cross (bearing RA w) x)) by (intros; apply dot_pos).
  pose proof (rsum_nonneg _ ws GE) as NN. destruct NN as [NN|NN]; [exact NN|exfalso].
  symmetry in NN. pose proof (rsum_zero _ ws GE NN) as Z. cbv beta in Z.
  apply in_map_iff in I1. destruct I1 as (w1 & <- & J1). apply in_map_iff in I2. destruct I2 as (w2 & <- & J2).
  assert (ZZ : forall w, In w ws -> v3cross (ray (vm w)) (m3v (m3tr RA) x) = v3zero).
  { intros w J. specialize (Z w J). rewrite <- (rot_back RA x HA) in Z. rewrite bx in Z by auto. pose proof (ray_len w (HW w J)).
    apply dot_zero. apply Rmult_eq_reg_r with (/ v3dot (ray (vm w)) (ray (vm w))); [unfold Rdiv in Z; lra|apply Rinv_neq_0_compat; lra]. }
  apply N. apply (ray_parallel _ _ (m3v (m3tr RA) x)); [apply ZZ; exact J1|apply ZZ; exact J2|].
  intros E. apply X. rewrite <- (rot_back RA x HA), E. destruct RA. apply v3_ext; cbn; ring.
Qed.

(** the ray through a visible point *)
Lemma ray_point w P : is_rot (w_R w) -> appears P (vm w) -> exists k, k <> 0 /\ v3sub P (w_p w) = v3scal k (ray (vm w)).
Proof.
  intros H (Z & U & V). exists (vz (m3v (w_R w) (v3sub P (w_p w)))). split; [exact Z|]. cbn [ray vm].
  rewrite <- (rot_forth (w_R w) (v3sub P (w_p w)) H) at 1. set (q := m3v (w_R w) (v3sub P (w_p w))) in *.
  assert (E : q = v3scal (vz q) (V3 (w_u w) (w_v w) 1)) by (rewrite U, V; clearbody q; destruct q; cbn in *; apply v3_ext; cbn; field; exact Z).
  rewrite E at 1. apply m3v_scal.
Qed.
Lemma cross_self a : v3cross a a = v3zero. Proof. destruct a. apply v3_ext; cbn; ring. Qed.
Lemma ray_cross_point RA pA w P : is_rot RA -> is_rot (w_R w) -> appears P (vm w) -> v3cross (bearing RA w) (v3sub (m3v RA (v3sub P pA)) (rel_p RA pA w)) = v3zero.
Proof.
  intros HA HW AP. destruct (ray_point w P HW AP) as (k & _ & E). rewrite rel_p_diff, E, bearing_ray by exact HA.
  rewrite cross_scal_l, <- rot_cross by exact HA. assert (Z : v3cross (ray (vm w)) (v3scal k (ray (vm w))) = v3zero) by (destruct (ray (vm w)); apply v3_ext; cbn; ring). rewrite Z.
  destruct RA. apply v3_ext; cbn; ring.
Qed.
