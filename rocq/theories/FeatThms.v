(** Proofs of C37 and C38. *)
From Coq Require Import Reals Lra Lia Psatz List Bool Arith.
From Coquelicot Require Import Coquelicot.
From Verif Require Import RBool Outcome GeoModel GeoSpec GeoProofs JacSo3 Calc3 HelpRep HelpThms FeatModel FeatSpec FeatProofs.
Import ListNotations.
Open Scope R_scope.

Lemma views_rot cs f ws : rotations cs -> views_of cs f = Ok ws -> forall w, In w ws -> is_rot (w_R w).
Proof. intros H E w I. destruct (views_in cs f ws w E I) as (ts & t & _ & _ & C). apply (H _ _ _ _ C). Qed.
Lemma cross_scal k l a b : v3cross (v3scal k a) (v3scal l b) = v3scal (k * l) (v3cross a b). Proof. destruct a, b. apply v3_ext; cbn; ring. Qed.
Lemma v3sub_0 a b : v3sub a b = v3zero -> a = b.
Proof. destruct a, b. unfold v3sub, v3zero. cbn. intros H. injection H as H1 H2 H3. apply v3_ext; cbn; lra. Qed.

Lemma tri_split solve svals o cs f r : triangulate solve svals o cs f = Ok r -> exists c t uv ai RA pA ws, anchor_of f = Ok (c, t, uv, ai) /\ cs c t = Some (RA, pA) /\ views_of cs f = Ok ws /\
  tr_cam r = c /\ tr_time r = t /\ let s := tri_system RA pA ws in let pf := solve (fst s) (snd s) in
  tr_pos r = if bad_cond o (svals (fst s)) || Rltb (vz pf) (fo_min o) || Rltb (fo_max o) (vz pf) then None else Some (pf, v3add (m3v (m3tr RA) pf) pA).
Proof.
  unfold triangulate. destruct (anchor_of f) as [[[[c t] uv] ai]| |]; cbn [obind]; try discriminate.
  destruct (cs c t) as [[RA pA]|] eqn:Ec; cbn [look obind]; [|discriminate]. destruct (views_of cs f) as [ws| |]; cbn [obind]; try discriminate.
  intros H. injection H as <-. exists c, t, uv, ai, RA, pA, ws. cbn [tr_cam tr_time tr_pos]. auto 10.
Qed.
Lemma back_global RA pA P : is_rot RA -> v3add (m3v (m3tr RA) (m3v RA (v3sub P pA))) pA = P.
Proof. intros H. rewrite rot_forth by exact H. destruct P, pA. apply v3_ext; cbn; ring. Qed.

Lemma tri_range solve svals o cs f r pf pg : triangulate solve svals o cs f = Ok r -> tr_pos r = Some (pf, pg) ->
  fo_min o <= vz pf <= fo_max o /\ exists RA pA, cs (tr_cam r) (tr_time r) = Some (RA, pA) /\ pg = v3add (m3v (m3tr RA) pf) pA.
Proof.
  intros E P. destruct (tri_split _ _ _ _ _ _ E) as (c & t & uv & ai & RA & pA & ws & E1 & E2 & E3 & E4 & E5 & E6). cbv zeta in E6. rewrite P in E6.
  destruct (bad_cond o _); cbn [orb] in E6; [discriminate|]. destruct (Rltb_spec (vz (solve (fst (tri_system RA pA ws)) (snd (tri_system RA pA ws)))) (fo_min o)); cbn [orb] in E6; [discriminate|].
  destruct (Rltb_spec (fo_max o) (vz (solve (fst (tri_system RA pA ws)) (snd (tri_system RA pA ws))))); [discriminate|]. injection E6 as -> ->. split; [lra|]. exists RA, pA. rewrite E4, E5. auto.
Qed.
Lemma tri_anchor f c t uv ai : anchor_of f = Ok (c, t, uv, ai) -> NoDup (map fst f) -> exists ts r, In (c, ts) f /\ ts = r ++ [(t, uv)] /\ forall c' ts', In (c', ts') f -> (length ts' <= length ts)%nat.
Proof. intros H ND. destruct (anchor_spec f c t uv ai H) as (ts & r & A & B & _ & D). exists ts, r. split; [exact A|]. split; [exact B|]. exact (D ND). Qed.

Section Sys.
Variables (RA : m3) (pA : v3) (ws : list view).
Hypotheses (HA : is_rot RA) (HW : forall w, In w ws -> is_rot (w_R w)).
Let ms := map vm ws.
Lemma sys_normal : normal_matrix RA ms (fst (tri_system RA pA ws)).
Proof.
  destruct (tri_sys RA pA ws) as (S1 & Q & _). cbv zeta in *. split; [exact S1|]. intros y. rewrite Q. unfold ms. rewrite map_map. apply rsum_ext. intros w I. cbv zeta. apply bx; auto.
Qed.
Lemma sys_cost : exists k, forall P', let x := m3v RA (v3sub P' pA) in
  v3dot x (m3v (fst (tri_system RA pA ws)) x) - 2 * v3dot x (snd (tri_system RA pA ws)) + k = ray_cost ms P'.
Proof.
  destruct (tri_sys RA pA ws) as (_ & _ & (k & K) & _). cbv zeta in *. exists k. intros P'. rewrite K. unfold ray_cost, ms. rewrite map_map. apply rsum_ext. intros w I. rewrite rel_p_diff.
  rewrite bx by auto. reflexivity.
Qed.
Lemma sys_det : two_rays ms -> m3det (fst (tri_system RA pA ws)) <> 0.
Proof. intros T. apply pd_det; [apply (tri_sys RA pA ws)|]. apply tri_pd; auto. Qed.
Lemma sys_least solve : solves solve -> two_rays ms -> let pf := solve (fst (tri_system RA pA ws)) (snd (tri_system RA pA ws)) in
  forall P', ray_cost ms (v3add (m3v (m3tr RA) pf) pA) <= ray_cost ms P'.
Proof.
  intros SO T pf P'. pose proof (SO _ (snd (tri_system RA pA ws)) (sys_det T)) as E. fold pf in E.
  destruct sys_cost as (k & K). cbv zeta in K.
  assert (X : m3v RA (v3sub (v3add (m3v (m3tr RA) pf) pA) pA) = pf).
  { assert (Y : v3sub (v3add (m3v (m3tr RA) pf) pA) pA = m3v (m3tr RA) pf) by (destruct (m3v (m3tr RA) pf), pA; apply v3_ext; cbn; ring). rewrite Y. apply rot_back. exact HA. }
  rewrite <- !K, X. set (y := m3v RA (v3sub P' pA)). set (A := fst (tri_system RA pA ws)) in *. rewrite <- E.
  assert (SY : symm A) by (apply (tri_sys RA pA ws)).
  assert (D : 0 <= v3dot (v3sub y pf) (m3v A (v3sub y pf))).
  { destruct (tri_sys RA pA ws) as (_ & Q & _). cbv zeta in Q. unfold A. rewrite Q. apply rsum_nonneg. intros. apply dot_pos. }
  assert (D2 : v3dot (v3sub y pf) (m3v A (v3sub y pf)) = v3dot y (m3v A y) - v3dot y (m3v A pf) - v3dot pf (m3v A y) + v3dot pf (m3v A pf)).
  { rewrite m3v_sub. generalize (m3v A y) (m3v A pf). destruct y, pf. intros [] []. unfold v3dot. cbn. ring. }
  rewrite (SY pf y) in D2. lra.
Qed.
Lemma sys_exact0 solve P : solves solve -> two_rays ms -> (forall w, In w ws -> v3cross (bearing RA w) (v3sub (m3v RA (v3sub P pA)) (rel_p RA pA w)) = v3zero) -> solve (fst (tri_system RA pA ws)) (snd (tri_system RA pA ws)) = m3v RA (v3sub P pA).
Proof.
  intros SO T AP. destruct (tri_sys RA pA ws) as (SY & Q & _ & EX). cbv zeta in *. set (A := fst (tri_system RA pA ws)) in *.
  pose proof (SO A (snd (tri_system RA pA ws)) (sys_det T)) as E. set (pf := solve A (snd (tri_system RA pA ws))) in *.
  assert (E2 : m3v A (m3v RA (v3sub P pA)) = snd (tri_system RA pA ws)).
  { apply EX. exact AP. }
  set (x := m3v RA (v3sub P pA)) in *. destruct (Req_dec (v3dot (v3sub pf x) (v3sub pf x)) 0) as [Z|Z]; [apply v3sub_0, dot_zero, Z|exfalso].
  pose proof (tri_pd RA pA ws HA HW T (v3sub pf x)) as PD. assert (N : v3sub pf x <> v3zero) by (intros H; apply Z; rewrite H; unfold v3dot; cbn; ring).
  specialize (PD N). fold A in PD. rewrite m3v_sub, E, E2 in PD. revert PD. generalize (snd (tri_system RA pA ws)) (v3sub pf x). intros [] []. unfold v3dot. cbn. lra.
Qed.
Lemma sys_exact solve P : solves solve -> two_rays ms -> (forall m, In m ms -> appears P m) -> solve (fst (tri_system RA pA ws)) (snd (tri_system RA pA ws)) = m3v RA (v3sub P pA).
Proof. intros SO T AP. apply sys_exact0; [exact SO|exact T|]. intros w I. apply ray_cross_point; auto. apply AP. apply (in_map vm). exact I. Qed.
End Sys.

Lemma normal_unique RA ms A B : is_rot RA -> normal_matrix RA ms A -> normal_matrix RA ms B -> A = B.
Proof.
  intros HR (SA & QA) (SB & QB). assert (Q : forall x, v3dot x (m3v A x) = v3dot x (m3v B x)) by (intros x; rewrite <- (rot_back RA x HR), QA, QB; reflexivity).
  pose proof (Q (V3 1 0 0)) as Q1. pose proof (Q (V3 0 1 0)) as Q2. pose proof (Q (V3 0 0 1)) as Q3. pose proof (Q (V3 1 1 0)) as Q4. pose proof (Q (V3 1 0 1)) as Q5. pose proof (Q (V3 0 1 1)) as Q6.
  pose proof (SA (V3 1 0 0) (V3 0 1 0)) as A1. pose proof (SA (V3 1 0 0) (V3 0 0 1)) as A2. pose proof (SA (V3 0 1 0) (V3 0 0 1)) as A3.
  pose proof (SB (V3 1 0 0) (V3 0 1 0)) as B1. pose proof (SB (V3 1 0 0) (V3 0 0 1)) as B2. pose proof (SB (V3 0 1 0) (V3 0 0 1)) as B3.
  clear -Q1 Q2 Q3 Q4 Q5 Q6 A1 A2 A3 B1 B2 B3. destruct A, B. unfold v3dot in *. cbn in *. apply m3_ext; cbn; lra.
Qed.

(** rays of a common point *)
Lemma centre_rays ws P : (forall w, In w ws -> is_rot (w_R w)) -> (forall m, In m (map vm ws) -> appears P m) ->
  (exists m1 m2, In m1 (map vm ws) /\ In m2 (map vm ws) /\ v3cross (v3sub P (centre m1)) (v3sub P (centre m2)) <> v3zero) -> two_rays (map vm ws).
Proof.
  intros HW AP (m1 & m2 & I1 & I2 & N). exists m1, m2. split; [exact I1|]. split; [exact I2|]. intros Z. apply N.
  apply in_map_iff in I1. destruct I1 as (w1 & <- & J1). apply in_map_iff in I2. destruct I2 as (w2 & <- & J2).
  destruct (ray_point w1 P (HW _ J1) (AP _ (in_map vm _ _ J1))) as (k1 & _ & E1). destruct (ray_point w2 P (HW _ J2) (AP _ (in_map vm _ _ J2))) as (k2 & _ & E2).
  cbn [centre vm]. rewrite E1, E2, cross_scal, Z. apply v3_ext; cbn; ring.
Qed.

Lemma tri_exact solve svals o cs f r ms P : triangulate solve svals o cs f = Ok r -> rotations cs -> solves solve -> all_meas cs f = Some ms ->
  (forall m, In m ms -> appears P m) -> (exists m1 m2, In m1 ms /\ In m2 ms /\ v3cross (v3sub P (centre m1)) (v3sub P (centre m2)) <> v3zero) ->
  exists RA pA, cs (tr_cam r) (tr_time r) = Some (RA, pA) /\ let pa := m3v RA (v3sub P pA) in
  (forall pf pg, tr_pos r = Some (pf, pg) -> pf = pa /\ pg = P) /\
  (tr_pos r = None <-> vz pa < fo_min o \/ fo_max o < vz pa \/ exists A, normal_matrix RA ms A /\ bad_cond o (svals A) = true).
Proof.
  intros E RO SO AM AP TW. destruct (tri_split _ _ _ _ _ _ E) as (c & t & uv & ai & RA & pA & ws & E1 & E2 & E3 & E4 & E5 & E6). cbv zeta in E6.
  pose proof (views_meas cs f) as VM. rewrite E3 in VM. rewrite AM in VM. injection VM as ->. pose proof (RO _ _ _ _ E2) as HA. pose proof (views_rot cs f ws RO E3) as HW.
  pose proof (centre_rays ws P HW AP TW) as TR. rewrite (sys_exact RA pA ws HA HW solve P SO TR AP) in E6.
  exists RA, pA. rewrite E4, E5. split; [exact E2|]. cbv zeta. split.
  - intros pf pg H. rewrite H in E6. destruct (_ || _)%bool; [discriminate|]. injection E6 as -> ->. split; [reflexivity|]. apply back_global. exact HA.
  - rewrite E6. destruct (bad_cond o (svals (fst (tri_system RA pA ws)))) eqn:B; cbn [orb].
    + split; [intros _; right; right; eexists; split; [apply (sys_normal RA pA ws HA HW)|exact B]|reflexivity].
    + destruct (Rltb_spec (vz (m3v RA (v3sub P pA))) (fo_min o)); cbn [orb]; [split; [auto|reflexivity]|]. destruct (Rltb_spec (fo_max o) (vz (m3v RA (v3sub P pA)))); [split; [auto|reflexivity]|].
      split; [discriminate|]. intros [K|[K|(A & NA & K)]]; [lra|lra|]. rewrite (normal_unique RA _ _ _ HA NA (sys_normal RA pA ws HA HW)) in K. congruence.
Qed.
Lemma tri_least solve svals o cs f r ms pf pg : triangulate solve svals o cs f = Ok r -> rotations cs -> solves solve -> all_meas cs f = Some ms -> two_rays ms ->
  tr_pos r = Some (pf, pg) -> forall P', ray_cost ms pg <= ray_cost ms P'.
Proof.
  intros E RO SO AM TW H. destruct (tri_split _ _ _ _ _ _ E) as (c & t & uv & ai & RA & pA & ws & E1 & E2 & E3 & E4 & E5 & E6). cbv zeta in E6.
  pose proof (views_meas cs f) as VM. rewrite E3 in VM. rewrite AM in VM. injection VM as ->. pose proof (RO _ _ _ _ E2) as HA. pose proof (views_rot cs f ws RO E3) as HW.
  rewrite H in E6. destruct (_ || _)%bool; [discriminate|]. injection E6 as -> ->. apply (sys_least RA pA ws HA HW solve SO TW).
Qed.

(** *** one-dimensional triangulation *)
Lemma keys_unique {A} (f : list (nat * A)) c a b : NoDup (map fst f) -> In (c, a) f -> In (c, b) f -> a = b.
Proof.
  induction f as [|[k l] f IH]; intros ND F G; [destruct F|]. cbn in ND. inversion ND as [|? ? N ND']; subst. destruct F as [F|F], G as [G|G].
  - congruence.
  - injection F as E1 E2. exfalso. apply N. rewrite E1. apply (in_map fst) in G. exact G.
  - injection G as E1 E2. exfalso. apply N. rewrite E1. apply (in_map fst) in F. exact F.
  - auto.
Qed.
Definition other (ac ai : nat) (w : view) : bool := negb (Nat.eqb (w_cam w) ac && Nat.eqb (w_idx w) ai).
Lemma skew_dot a b c d : v3dot (m3v (skew_x a) b) (m3v (skew_x c) d) = v3dot (v3cross a b) (v3cross c d). Proof. rewrite !skew_cross. reflexivity. Qed.
Lemma tri1_fold RA pA bA ac ai d ws : (forall w, In w ws -> v3cross (bearing RA w) (v3sub (v3scal d bA) (rel_p RA pA w)) = v3zero) -> forall s, snd s = d * fst s ->
  let r := fold_left (tri1_step RA pA bA ac ai) ws s in snd r = d * fst r /\ fst s <= fst r /\
  (forall w, In w ws -> other ac ai w = true -> v3cross (bearing RA w) bA <> v3zero -> fst s < fst r).
Proof.
  induction ws as [|w ws IH]; intros H s E; cbn [fold_left]; [cbv zeta; split; [exact E|]; split; [lra|intros ? []]|].
  assert (P : snd (tri1_step RA pA bA ac ai s w) = d * fst (tri1_step RA pA bA ac ai s w) /\ fst s <= fst (tri1_step RA pA bA ac ai s w) /\
    (other ac ai w = true -> v3cross (bearing RA w) bA <> v3zero -> fst s < fst (tri1_step RA pA bA ac ai s w))).
  { unfold tri1_step, other. destruct (Nat.eqb (w_cam w) ac && Nat.eqb (w_idx w) ai)%bool; cbn [negb]; [split; [exact E|]; split; [lra|discriminate]|]. cbn [fst snd]. rewrite !skew_dot.
    assert (Y : v3cross (bearing RA w) (rel_p RA pA w) = v3scal d (v3cross (bearing RA w) bA)).
    { symmetry. apply v3sub_0. rewrite <- (H w (or_introl eq_refl)). generalize (bearing RA w) (rel_p RA pA w). intros [] []. destruct bA. apply v3_ext; cbn; ring. }
    rewrite Y, E. pose proof (dot_pos (v3cross (bearing RA w) bA)) as DP. split; [generalize (v3cross (bearing RA w) bA); intros []; unfold v3dot; cbn; ring|]. split; [lra|].
    intros _ N. destruct DP as [DP|DP]; [lra|]. exfalso. apply N, dot_zero. symmetry. exact DP. }
  destruct P as (P1 & P2 & P3). destruct (IH (fun w I => H w (or_intror I)) _ P1) as (A & B & C). cbv zeta in *. split; [exact A|]. split; [lra|].
  intros w' [<-|I] O N; [specialize (P3 O N); lra|specialize (C w' I O N); lra].
Qed.
Lemma tri1_exact o cs f r ms P : triangulate_1d o cs f = Ok r -> rotations cs -> NoDup (map fst f) -> all_meas cs f = Some ms -> (forall m, In m ms -> appears P m) ->
  forall RA pA, cs (tr_cam r) (tr_time r) = Some (RA, pA) -> (exists m, In m ms /\ v3cross (v3sub P (centre m)) (v3sub P pA) <> v3zero) ->
  let pa := m3v RA (v3sub P pA) in tr_pos r = if Rltb (vz pa) (fo_min o) || Rltb (fo_max o) (vz pa) then None else Some (pa, P).
Proof.
  intros E RO ND AM AP RA pA EC (m & IM & NC) pa. unfold triangulate_1d in E. destruct (anchor_of f) as [[[[c t] [u v]] ai]| |] eqn:EA; cbn [obind] in E; try discriminate.
  destruct (cs c t) as [[RA' pA']|] eqn:Ec; cbn [look obind] in E; [|discriminate]. destruct (views_of cs f) as [ws| |] eqn:EV; cbn [obind] in E; try discriminate.
  assert (X : tr_cam r = c /\ tr_time r = t) by (revert E; cbv zeta; destruct (Reqb _ 0); intros E; injection E as <-; split; reflexivity).
  destruct X as [X1 X2]. rewrite X1, X2, Ec in EC. injection EC as -> ->. pose proof (RO _ _ _ _ Ec) as HA. pose proof (views_rot cs f ws RO EV) as HW.
  pose proof (views_meas cs f) as VM. rewrite EV, AM in VM. injection VM as ->.
  destruct (anchor_spec f c t (u, v) ai EA) as (ts & r0 & I1 & I2 & I3 & _). cbn [fst snd] in E. set (b0 := V3 u v 1) in *. set (bA := v3div b0 (v3norm b0)) in *.
  assert (NB : 0 < v3norm b0) by (unfold v3norm; apply sqrt_lt_R0; unfold v3dot, b0; cbn; nra).
  assert (APA : appears P (RA, pA, (u, v))).
  { apply AP. apply (all_meas_has cs f _ c ts t (u, v) RA pA AM I1); [rewrite I2; apply in_or_app; right; left; reflexivity|exact Ec]. }
  destruct APA as (Z & U & V). fold pa in Z, U, V. set (d := vz pa * v3norm b0).
  assert (PA : pa = v3scal d bA).
  { unfold d, bA, b0 in *. rewrite U, V in *. set (n := v3norm _) in *. clearbody n. unfold v3div. destruct pa as [a b z]. cbn in *. apply v3_ext; cbn; field; lra. }
  destruct (tri1_fold RA pA bA c ai d ws) with (s := (0, 0)) as (F1 & F2 & F3).
  { intros w I. rewrite <- PA. apply ray_cross_point; auto. apply AP. apply (in_map vm). exact I. }
  { cbn. ring. }
  cbv zeta in *. cbn [fst snd] in F2, F3. apply in_map_iff in IM. destruct IM as (w & <- & IW). cbn [centre vm] in NC.
  assert (OT : other c ai w = true).
  { unfold other. destruct (Nat.eqb_spec (w_cam w) c) as [E1|]; [|reflexivity]. destruct (Nat.eqb_spec (w_idx w) ai) as [E2|]; [|reflexivity]. exfalso.
    destruct (views_in cs f ws w EV IW) as (ts' & t' & J1 & J2 & J3). rewrite E1 in J1, J3. rewrite E2 in J2. rewrite (keys_unique f c ts' ts ND J1 I1) in J2.
    rewrite I2, I3, nth_error_app2, Nat.sub_diag in J2 by lia. cbn in J2. injection J2 as <- _. rewrite Ec in J3. injection J3 as _ J3. apply NC. rewrite <- J3. apply cross_self. }
  assert (NX : v3cross (bearing RA w) bA <> v3zero).
  { intros K. apply NC. destruct (ray_point w P (HW w IW) (AP _ (in_map vm _ _ IW))) as (k & K0 & K1).
    assert (L : v3cross (m3v RA (v3sub P (w_p w))) pa = v3zero).
    { rewrite PA, K1, m3v_scal. rewrite bearing_ray in K by exact HA. set (q := m3v RA (ray (vm w))) in *. pose proof (ray_norm w (HW w IW)) as RN. set (n := v3norm (ray (vm w))) in *.
      assert (M : v3cross q bA = v3zero).
      { rewrite cross_scal_l in K. clearbody q n. revert K. destruct (v3cross q bA) as [a b e]. unfold v3scal, v3zero. cbn. intros K. injection K as K2 K3 K4.
        assert (IN : / n <> 0) by (apply Rinv_neq_0_compat; lra). apply v3_ext; cbn; nra. }
      rewrite cross_scal, M. apply v3_ext; cbn; ring. }
    unfold pa in L. rewrite <- rot_cross in L by exact HA. rewrite <- (rot_forth RA (v3cross (v3sub P (w_p w)) (v3sub P pA)) HA), L. destruct RA. apply v3_ext; cbn; ring. }
  specialize (F3 w IW OT NX). set (s := fold_left (tri1_step RA pA bA c ai) ws (0, 0)) in *.
  destruct (Reqb_spec (fst s) 0) as [Q|Q]; [lra|]. assert (D : snd s / fst s = d) by (rewrite F1; field; exact Q). rewrite D, <- PA in E. injection E as <-. cbn [tr_pos].
  change (v3add (m3v (m3tr RA) pa) pA) with (v3add (m3v (m3tr RA) (m3v RA (v3sub P pA))) pA). rewrite back_global by exact HA. reflexivity.
Qed.
