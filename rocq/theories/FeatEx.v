(** Concrete cases for C37 and C38. *)
From Coq Require Import Reals Lra Lia Psatz List Bool Arith.
From Verif Require Import RBool Outcome GeoModel GeoSpec GeoProofs HelpRep HelpThms FeatModel FeatSpec FeatProofs FeatThms FeatGn.
Import ListNotations.
Open Scope R_scope.

Definition dflt (lam0 : R) : fopts := mkFopts 5 lam0 10000000000 (1 / 1000000) (1 / 1000000) 10 (1 / 10) 60 40 10000.

(** Cramer's rule *)
Definition cramer (A : m3) (b : v3) : v3 :=
  let d := m3det A in
  V3 (m3det (M3 (vx b) (m01 A) (m02 A) (vy b) (m11 A) (m12 A) (vz b) (m21 A) (m22 A)) / d)
     (m3det (M3 (m00 A) (vx b) (m02 A) (m10 A) (vy b) (m12 A) (m20 A) (vz b) (m22 A)) / d)
     (m3det (M3 (m00 A) (m01 A) (vx b) (m10 A) (m11 A) (vy b) (m20 A) (m21 A) (vz b)) / d).
Lemma cramer_solves : solves cramer.
Proof.
  intros A b D. unfold cramer. cbv zeta. destruct A, b. unfold m3det in *. cbn in *. apply v3_ext; cbn; field; exact D.
Qed.
(** reflection taking e1 to p / |p| *)
Definition reflect (p : v3) : m3 :=
  let u := v3sub (v3div p (v3norm p)) (V3 1 0 0) in
  if Reqb (v3dot u u) 0 then m3id else m3sub m3id (m3scal (2 / v3dot u u) (m3outer u u)).
Lemma reflect_house : house reflect.
Proof.
  intros p N. assert (D : 0 < v3dot p p) by (destruct (dot_pos p) as [D|D]; [exact D|exfalso; apply N, dot_zero; symmetry; exact D]).
  assert (NP : 0 < v3norm p) by (apply sqrt_lt_R0; exact D). assert (N2 : v3norm p * v3norm p = v3dot p p) by (apply sqrt_sqrt; lra).
  unfold reflect. cbv zeta. set (e := v3div p (v3norm p)).
  assert (E1 : v3dot e e = 1) by (transitivity (v3dot p p / (v3norm p * v3norm p)); [unfold e, v3div, v3dot; destruct p; cbn; field; lra|rewrite N2; field; lra]).
  assert (EP : e = v3scal (/ v3norm p) p) by (unfold e, v3div; destruct p; apply v3_ext; cbn; field; lra).
  destruct (Reqb_spec (v3dot (v3sub e (V3 1 0 0)) (v3sub e (V3 1 0 0))) 0) as [Z|Z].
  - apply dot_zero, v3sub_0 in Z. do 2 (split; [apply m3_ext; cbn; ring|]). exists (/ v3norm p). rewrite <- EP, Z. apply v3_ext; cbn; ring.
  - assert (ID : m3mul (m3sub m3id (m3scal (2 / v3dot (v3sub e (V3 1 0 0)) (v3sub e (V3 1 0 0))) (m3outer (v3sub e (V3 1 0 0)) (v3sub e (V3 1 0 0)))))
       (m3tr (m3sub m3id (m3scal (2 / v3dot (v3sub e (V3 1 0 0)) (v3sub e (V3 1 0 0))) (m3outer (v3sub e (V3 1 0 0)) (v3sub e (V3 1 0 0)))))) = m3id).
    { set (u := v3sub e (V3 1 0 0)) in *. clearbody u. unfold v3dot in Z |- *. destruct u as [a b c]. cbn in Z |- *. apply m3_ext; cbn; field; exact Z. }
    split; [exact ID|]. split.
    + rewrite <- ID at 3. set (u := v3sub e (V3 1 0 0)). generalize (2 / v3dot u u). intros k. destruct u. apply m3_ext; cbn; ring.
    + exists (/ v3norm p). rewrite <- EP. clear -E1 Z. destruct e as [a b c]. unfold v3dot in *. cbn in *.
      assert (Q : (a - 1) * (a - 1) + (b - 0) * (b - 0) + (c - 0) * (c - 0) = 2 * (1 - a)) by nra. rewrite Q in *. assert (A : 1 - a <> 0) by lra. apply v3_ext; cbn; field_simplify_eq; try exact A; try nra.
Qed.

(** the point (0, 0, 2) seen from the origin and from (1, 0, 0) *)
Definition ex_cs : clones := fun _ t => Some (m3id, V3 t 0 0).
Definition ex_obs : obs := [(0%nat, [(1, (-1 / 2, 0)); (0, (0, 0))])].
Definition ex_P : v3 := V3 0 0 2.
Definition ex_ms : list meas := [(m3id, V3 1 0 0, (-1 / 2, 0)); (m3id, V3 0 0 0, (0, 0))].
Lemma id_rot : is_rot m3id. Proof. apply is_rot_id. Qed.
Lemma tri_example solve svals : exists r, triangulate solve svals (dflt (1 / 1000)) ex_cs ex_obs = Ok r /\ tr_cam r = 0%nat /\ tr_time r = 0 /\ rotations ex_cs /\ all_meas ex_cs ex_obs = Some ex_ms /\
  (forall m, In m ex_ms -> appears ex_P m) /\ (exists m1 m2, In m1 ex_ms /\ In m2 ex_ms /\ v3cross (v3sub ex_P (centre m1)) (v3sub ex_P (centre m2)) <> v3zero) /\ NoDup (map fst ex_obs) /\
  (exists r1, triangulate_1d (dflt (1 / 1000)) ex_cs ex_obs = Ok r1).
Proof.
  eexists. split; [reflexivity|]. split; [reflexivity|]. split; [reflexivity|].
  split; [intros c t M p E; injection E as <- _; apply id_rot|]. split; [reflexivity|]. split.
  { intros m [<-|[<-|[]]]; unfold appears, ex_P; cbn; repeat split; try lra; field; lra. }
  split. { exists (m3id, V3 1 0 0, (-1 / 2, 0)), (m3id, V3 0 0 0, (0, 0)). split; [left; reflexivity|]. split; [right; left; reflexivity|]. cbn. unfold v3cross, v3zero. cbn. intros K. injection K as _ K _. lra. }
  split; [constructor; [intros []|constructor]|]. unfold triangulate_1d. cbn [anchor_of ex_obs]. unfold anchor_of, times_of. cbn -[Reqb]. destruct (Reqb _ 0); eauto.
Qed.

(** *** init_lamda = 0 *)
Definition bad_cs : clones := fun _ t => Some (m3id, V3 (t * (2 - t)) 0 ((2 - t) * (1 - t))).
Definition bad_obs : obs := [(0%nat, [(0, (0, 0)); (1, (-1 / 2, 0)); (2, (0, 0))])].
Lemma stuck solve o RA pA ws : fo_lam0 o = 0 -> 0 < fo_lam_max o -> fo_min_dx o < 10000 -> (0 < fo_runs o)%nat -> forall n g, g_runs g = 0%nat -> g_lam g = 0 -> g_eps g = 10000 -> g_cost g = NaN -> gn_loop solve o RA pA ws n g = None.
Proof.
  intros L0 LM MD RU. induction n as [|n IH]; intros g A B C D; cbn [gn_loop]; unfold gn_goes_on; rewrite A, B, C; destruct (Nat.ltb_spec 0 (fo_runs o)); try lia; cbn [andb];
    (destruct (Rltb_spec 0 (fo_lam_max o)); [|lra]); cbn [andb]; (destruct (Rltb_spec (fo_min_dx o) 10000); [|lra]); [reflexivity|].
  unfold gn_step. cbv zeta. rewrite D. assert (E : forall c, ext_leb c NaN = false) by (intros []; reflexivity). rewrite E. cbn [andb]. apply IH; cbn; auto. rewrite B. ring.
Qed.
Lemma never_ends : exists o cs f, o = dflt 0 /\ rotations cs /\ forall solve svals hQ, solves solve -> (forall A, bad_cond o (svals A) = false) ->
  exists r p q, triangulate solve svals o cs f = Ok r /\ tr_pos r = Some (p, q) /\ forall n, refine solve hQ o cs f (tr_cam r) (tr_time r) p n = Ok None.
Proof.
  exists (dflt 0), bad_cs, bad_obs. split; [reflexivity|]. assert (RO : rotations bad_cs) by (intros c t M p E; injection E as <- _; apply id_rot). split; [exact RO|]. intros solve svals hQ SO BC.
  destruct (triangulate solve svals (dflt 0) bad_cs bad_obs) as [r| |] eqn:E; try discriminate. pose proof E as E0.
  destruct (tri_split _ _ _ _ _ _ E) as (c & t & uv & ai & RA & pA & ws & E1 & E2 & E3 & E4 & E5 & E6). cbv zeta in E6.
  injection E1 as <- <- <- <-. injection E2 as <- <-. injection E3 as <-. rewrite BC in E6. cbn [orb] in E6.
  set (ws := [_; _; _]) in *. set (pA := V3 (2 * (2 - 2)) 0 ((2 - 2) * (1 - 2))) in *.
  assert (HW : forall w, In w ws -> is_rot (w_R w)) by (intros w [<-|[<-|[<-|[]]]]; apply id_rot).
  assert (PA : pA = v3zero) by (unfold pA; apply v3_ext; cbn; ring).
  rewrite (sys_exact0 m3id pA ws id_rot HW solve (V3 0 0 2) SO) in E6.
  2: { exists (vm (mkView 0 1 m3id (V3 (1 * (2 - 1)) 0 ((2 - 1) * (1 - 1))) (-1 / 2) 0)), (vm (mkView 0 2 m3id pA 0 0)). split; [right; left; reflexivity|]. split; [right; right; left; reflexivity|].
       cbn. unfold v3cross, v3zero. cbn. intros K. injection K as _ K _. lra. }
  2: { intros w I. rewrite rel_p_diff, bearing_ray by apply id_rot. rewrite cross_scal_l, <- rot_cross by apply id_rot.
       assert (Z : v3cross (ray (vm w)) (v3sub (V3 0 0 2) (w_p w)) = v3zero) by (destruct I as [<-|[<-|[<-|[]]]]; apply v3_ext; cbn; field).
       rewrite Z. apply v3_ext; cbn; ring. }
  assert (X : m3v m3id (v3sub (V3 0 0 2) pA) = V3 0 0 2) by (rewrite PA; apply v3_ext; cbn; ring). rewrite X in E6.
  destruct (Rltb_spec (vz (V3 0 0 2)) (fo_min (dflt 0))) as [Q|Q]; [cbn in Q; lra|]. cbn [orb] in E6. destruct (Rltb_spec (fo_max (dflt 0)) (vz (V3 0 0 2))) as [Q2|Q2]; [cbn in Q2; lra|].
  exists r, (V3 0 0 2). eexists. split; [reflexivity|]. split; [exact E6|]. intros n. unfold refine. rewrite E4, E5.
  change (look (bad_cs 0%nat 2)) with (Ok (m3id, pA)). change (views_of bad_cs bad_obs) with (Ok ws). cbn [obind]. rewrite stuck; auto; try (cbn; lra); try (cbn; lia).
  unfold gn_start. cbn [g_cost]. unfold cost, ws. cbn [fold_left].
  assert (N1 : forall x, vx x = 0 -> vy x = 0 -> vz x = 1 / 2 -> sq_err m3id pA x (mkView 0 0 m3id (V3 (0 * (2 - 0)) 0 ((2 - 0) * (1 - 0))) 0 0) = NaN).
  { intros x X1 X2 X3. unfold sq_err. cbv zeta.
    assert (HZ : hi m3id pA (mkView 0 0 m3id (V3 (0 * (2 - 0)) 0 ((2 - 0) * (1 - 0))) 0 0) x = v3zero) by (rewrite PA; unfold hi, rel_A, rel_R, rel_p; cbn; rewrite X1, X2, X3; apply v3_ext; cbn; field).
    rewrite HZ. cbn [GeoModel.vx GeoModel.vy GeoModel.vz v3zero]. destruct (Reqb_spec 0 0); [reflexivity|lra]. }
  cbn [fst snd]. rewrite N1; try (cbn; field). cbn [ext_add]. reflexivity.
Qed.
(** the default options *)
Lemma dflt_passes solve RA pA ws p : exists g, gn_loop solve (dflt (1 / 1000)) RA pA ws 23 (gn_start (dflt (1 / 1000)) RA pA ws p) = Some g.
Proof. apply (gn_terminates solve (dflt (1 / 1000)) RA pA ws) with (k := 13%nat); [cbn; lra|cbn; lra|cbn; lia]. Qed.
(** the worst case is reached: no step is ever accepted *)
Lemma refine_terminates solve hQ o cs f ac t p K : fo_mult o <> 0 -> fo_lam_max o <= fo_lam0 o * fo_mult o ^ K -> refine solve hQ o cs f ac t p (2 * fo_runs o + K) <> Ok None.
Proof.
  intros M L. unfold refine. destruct (cs ac t) as [[RA pA]|]; cbn [look obind]; [|discriminate]. destruct (views_of cs f) as [ws| |]; cbn [obind]; try discriminate.
  destruct (gn_terminates solve o RA pA ws M (2 * fo_runs o + K) K (gn_start o RA pA ws p)) as (g & ->); [exact L|cbn [gn_start g_runs]; lia|]. destruct (Reqb _ 0); [discriminate|]. cbv zeta. destruct (_ || _)%bool; discriminate.
Qed.
Lemma refine_ends o : 1 < fo_mult o -> 0 < fo_lam0 o -> exists n, forall solve hQ cs f ac t p, refine solve hQ o cs f ac t p n <> Ok None.
Proof.
  intros M L. destruct (Pow_x_infinity (fo_mult o) ltac:(rewrite Rabs_right; lra) (fo_lam_max o / fo_lam0 o)) as (K & HK).
  exists (2 * fo_runs o + K)%nat. intros. apply refine_terminates; [lra|]. specialize (HK K (Nat.le_refl K)).
  rewrite Rabs_right in HK by (apply Rle_ge, pow_le; lra). apply Rge_le in HK. apply (Rmult_le_compat_l (fo_lam0 o)) in HK; [|lra]. replace (fo_lam0 o * (fo_lam_max o / fo_lam0 o)) with (fo_lam_max o) in HK by (field; lra). exact HK.
Qed.
Lemma refine_more solve hQ o cs f ac t p n m r : refine solve hQ o cs f ac t p n = Ok (Some r) -> (n <= m)%nat -> refine solve hQ o cs f ac t p m = Ok (Some r).
Proof.
  intros E L. unfold refine in *. destruct (cs ac t) as [[RA pA]|]; cbn [look obind] in *; [|discriminate]. destruct (views_of cs f) as [ws| |]; cbn [obind] in *; try discriminate.
  destruct (gn_loop solve o RA pA ws n _) as [g|] eqn:G; [|discriminate]. rewrite (gn_more solve o RA pA ws n m _ g G L). exact E.
Qed.
Lemma refine_defined solve hQ o cs f ac t p n : (exists q, cs ac t = Some q) -> (exists ms, all_meas cs f = Some ms) -> exists r, refine solve hQ o cs f ac t p n = Ok r.
Proof.
  intros ([RA pA] & E) (ms & AM). unfold refine. rewrite E. cbn [look obind]. pose proof (views_meas cs f) as V. destruct (views_of cs f) as [ws| |]; cbn [obind]; try (rewrite AM in V; discriminate).
  destruct (gn_loop _ _ _ _ _ _ _); [|eauto]. destruct (Reqb _ 0); [eauto|]. cbv zeta. destruct (_ || _)%bool; eauto.
Qed.
Lemma tri_defined solve svals o cs f : (exists ms, all_meas cs f = Some ms) -> (exists c ts, In (c, ts) f /\ ts <> []) -> NoDup (map fst f) -> exists r r1, triangulate solve svals o cs f = Ok r /\ triangulate_1d o cs f = Ok r1.
Proof.
  intros (ms & AM) (c & ts & I & N) ND.
  assert (A : exists a, anchor_of f = Ok a /\ let '(c, t, _, _) := a in exists q, cs c t = Some q).
  { assert (A0 : exists a, anchor_of f = Ok a).
    { unfold anchor_of, times_of. destruct (most_spec f 0 0) as (_ & B & C). fold (most_meas f) in B, C. specialize (B _ _ I). assert (L : (0 < length ts)%nat) by (destruct ts; [congruence|cbn; lia]).
      destruct C as [C|(ts3 & C1 & C2 & C3)]; [rewrite C in B; cbn in B; lia|].
      destruct (find (fun x => Nat.eqb (fst x) (fst (most_meas f))) f) as [[c' ts']|] eqn:F.
      - cbn [look obind snd]. apply find_In in F. cbn in F. rewrite (keys_unique f _ _ _ ND F C1). unfold last_of. destruct (rev ts3) as [|x r] eqn:RV; [|cbn [obind]; eauto].
        apply (f_equal (@length _)) in RV. rewrite rev_length in RV. cbn in RV. lia.
      - exfalso. apply (find_none _ _ F) in C1. cbn in C1. rewrite Nat.eqb_refl in C1. discriminate. }
    destruct A0 as ([[[c1 t1] uv] ai] & A1). exists (c1, t1, uv, ai). split; [exact A1|]. destruct (anchor_spec f c1 t1 uv ai A1) as (ts1 & r1 & J1 & J2 & _).
    assert (J3 : In (t1, uv) ts1) by (rewrite J2; apply in_or_app; right; left; reflexivity).
    clear -AM J1 J3. revert ms AM. induction f as [|[c' ts'] f IH]; intros ms AM; [destruct J1|]. cbn [all_meas] in AM. destruct (cam_meas cs c' ts') as [a|] eqn:CM; [|discriminate]. destruct (all_meas cs f) as [b|]; [|discriminate].
    destruct J1 as [J1|J1]; [|apply (IH J1 b eq_refl)]. injection J1 as -> ->. clear -CM J3. revert a CM. induction ts1 as [|[t' uv'] ts1 IH]; intros a CM; [destruct J3|]. cbn [cam_meas] in CM.
    destruct (cs c1 t') as [[M p]|] eqn:Q; [|discriminate]. destruct (cam_meas cs c1 ts1) as [l|]; [|discriminate]. destruct J3 as [J3|J3]; [injection J3 as -> _; eauto|apply (IH J3 l eq_refl)]. }
  destruct A as ([[[c1 t1] uv] ai] & A1 & [RA pA] & A2). pose proof (views_meas cs f) as V. unfold triangulate, triangulate_1d. rewrite A1. cbn [obind]. rewrite A2. cbn [look obind].
  destruct (views_of cs f) as [ws| |]; cbn [obind]; try (rewrite AM in V; discriminate). eexists. cbv zeta. destruct (Reqb _ 0); eexists; split; reflexivity.
Qed.

(** *** a refinement that succeeds *)
Lemma cramer_zero A : cramer A v3zero = v3zero.
Proof. unfold cramer, m3det. cbv zeta. destruct A. apply v3_ext; cbn; unfold Rdiv; ring. Qed.
Definition ex_ws : list view := [mkView 0 0 m3id (V3 1 0 0) (-1 / 2) 0; mkView 0 1 m3id (V3 0 0 0) 0 0].
Lemma refine_example : exists q, refine cramer reflect (dflt (1 / 1000)) ex_cs ex_obs 0 0 ex_P 23 = Ok (Some (Some (ex_P, q))) /\ vz ex_P <> 0 /\ 0 < fo_min (dflt (1 / 1000)) /\
  off_planes ex_ms (v3add (m3v (m3tr m3id) ex_P) (V3 0 0 0)).
Proof.
  assert (AP : forall m, In m ex_ms -> appears ex_P m) by (destruct (tri_example (fun _ b => b) (fun _ => (1, 1))) as (r & _ & _ & _ & _ & _ & H & _); exact H).
  set (o := dflt (1 / 1000)). set (x := V3 (0 / 2) (0 / 2) (1 / 2)).
  assert (SE : forall w y, In w ex_ws -> vx y = 0 -> vy y = 0 -> vz y = 1 / 2 -> sq_err m3id (V3 0 0 0) y w = Fin 0 /\ vz (hi m3id (V3 0 0 0) w y) = 1 /\ snd (gn_rows m3id (V3 0 0 0) y w) = (0, 0)).
  { intros w y I Y1 Y2 Y3. assert (HH : hi m3id (V3 0 0 0) w y = V3 (w_u w) (w_v w) 1) by (destruct I as [<-|[<-|[]]]; unfold hi, rel_A, rel_R, rel_p; cbn; rewrite Y1, Y2, Y3; apply v3_ext; cbn; field).
    unfold sq_err, gn_rows. cbv zeta. rewrite HH. cbn [GeoModel.vx GeoModel.vy GeoModel.vz snd]. destruct (Reqb_spec 1 0); [lra|]. split; [f_equal; field|]. split; [reflexivity|]. f_equal; field. }
  assert (CO : forall y, vx y = 0 -> vy y = 0 -> vz y = 1 / 2 -> cost m3id (V3 0 0 0) ex_ws y = Fin 0).
  { intros y Y1 Y2 Y3. unfold cost. cbn [ex_ws fold_left]. destruct (SE _ y (or_introl eq_refl) Y1 Y2 Y3) as (-> & _). destruct (SE _ y (or_intror (or_introl eq_refl)) Y1 Y2 Y3) as (-> & _). cbn. f_equal. ring. }
  assert (SU : exists H, gn_sums m3id (V3 0 0 0) x ex_ws (M3 0 0 0 0 0 0 0 0 0, v3zero) = Some (H, v3zero)).
  { assert (X1 : vx x = 0) by (cbn; field). assert (X2 : vy x = 0) by (cbn; field). assert (X3 : vz x = 1 / 2) by reflexivity.
    destruct (SE _ x (or_introl eq_refl) X1 X2 X3) as (_ & A1 & A2). destruct (SE _ x (or_intror (or_introl eq_refl)) X1 X2 X3) as (_ & B1 & B2). cbn [ex_ws gn_sums].
    rewrite A1. destruct (Reqb_spec 1 0); [lra|]. destruct (gn_rows m3id (V3 0 0 0) x _) as [[h1 h2] r] eqn:G1 in A2 |- *. cbn [snd] in A2. subst r. rewrite B1. destruct (Reqb_spec 1 0); [lra|].
    destruct (gn_rows m3id (V3 0 0 0) x (mkView 0 1 m3id (V3 0 0 0) 0 0)) as [[h3 h4] r]. cbn [snd] in B2. subst r. eexists. f_equal. f_equal. cbn [fst snd]. destruct h1, h2, h3, h4. apply v3_ext; cbn; ring. }
  destruct SU as (H & SU).
  assert (GL : exists g, gn_loop cramer o m3id (V3 0 0 0) ex_ws 23 (gn_start o m3id (V3 0 0 0) ex_ws ex_P) = Some g /\ g_x g = v3add x v3zero).
  { unfold gn_start. change (V3 (vx ex_P / vz ex_P) (vy ex_P / vz ex_P) (1 / vz ex_P)) with x. cbn [gn_loop]. unfold gn_goes_on at 1. cbn [g_runs g_lam g_eps o dflt fo_runs fo_lam0 fo_lam_max fo_min_dx Nat.ltb Nat.leb andb].
    destruct (Rltb_spec (1 / 1000) 10000000000); [|lra]. cbn [andb]. destruct (Rltb_spec (1 / 1000000) 10000); [|lra]. unfold gn_step. cbn [g_re g_x g_cost g_lam g_eps g_runs]. rewrite SU. cbv zeta. rewrite cramer_zero.
    rewrite CO by (cbn; field). rewrite CO by (cbn; field). cbn [ext_leb]. destruct (Rleb_spec 0 0); [|lra]. cbn [andb small_drop]. destruct (Reqb_spec 0 0); [|lra].
    cbn [gn_loop]. unfold gn_goes_on. cbn [g_runs g_lam g_eps fo_runs fo_mult fo_lam_max fo_min_dx o dflt].
    assert (NZ : v3norm v3zero = 0) by (unfold v3norm, v3dot; cbn; replace (0 * 0 + 0 * 0 + 0 * 0) with 0 by ring; apply sqrt_0). rewrite NZ.
    destruct (Rltb_spec (1 / 1000000) 0); [lra|]. rewrite andb_false_r. eexists. split; [reflexivity|]. reflexivity. }
  destruct GL as (g & GL & GX). unfold refine. change (look (ex_cs 0%nat 0)) with (Ok (m3id, V3 0 0 0)). change (views_of ex_cs ex_obs) with (Ok ex_ws). cbn [obind]. rewrite GL, GX.
  assert (Z : vz (v3add x v3zero) = 1 / 2) by (cbn; ring). rewrite Z. destruct (Reqb_spec (1 / 2) 0); [lra|].
  assert (PF : V3 (vx (v3add x v3zero) / (1 / 2)) (vy (v3add x v3zero) / (1 / 2)) (1 / (1 / 2)) = ex_P) by (apply v3_ext; cbn; field). rewrite PF. cbv zeta.
  assert (NP : ex_P <> v3zero) by (unfold ex_P, v3zero; intros K; injection K as K; lra).
  assert (N4 : sqrt 4 = 2) by (replace 4 with (2 * 2) by ring; apply sqrt_square; lra).
  assert (VN : v3norm ex_P = 2) by (unfold v3norm, v3dot; cbn; replace (0 * 0 + 0 * 0 + 2 * 2) with 4 by ring; exact N4).
  assert (MB : max_baseline (reflect ex_P) m3id (V3 0 0 0) ex_ws = 1).
  { unfold max_baseline. cbn [ex_ws fold_left]. cbv zeta. rewrite !(house_dist reflect ex_P _ reflect_house NP). unfold off_line. rewrite VN.
    assert (O1 : v3norm (v3cross ex_P (rel_p m3id (V3 0 0 0) (mkView 0 0 m3id (V3 1 0 0) (-1 / 2) 0))) = 2).
    { unfold v3norm, v3dot, rel_p. cbn. transitivity (sqrt 4); [f_equal; ring|exact N4]. }
    assert (O2 : v3norm (v3cross ex_P (rel_p m3id (V3 0 0 0) (mkView 0 1 m3id (V3 0 0 0) 0 0))) = 0).
    { unfold v3norm, v3dot, rel_p. cbn. transitivity (sqrt 0); [f_equal; ring|exact sqrt_0]. }
    rewrite O1, O2. destruct (Rltb_spec 0 (2 / 2)); [|lra]. destruct (Rltb_spec (2 / 2) (0 / 2)); lra. }
  rewrite MB, VN. cbn [o dflt fo_min fo_max fo_base ex_P GeoModel.vz]. destruct (Rltb_spec 2 (1 / 10)); [lra|]. destruct (Rltb_spec 60 2); [lra|]. destruct (Reqb_spec 1 0); [lra|]. destruct (Rltb_spec 40 (2 / 1)); [lra|]. cbn [orb].
  eexists. split; [reflexivity|]. split; [lra|]. split; [lra|]. intros M p uv I. assert (Q : v3add (m3v (m3tr m3id) ex_P) (V3 0 0 0) = ex_P) by (apply v3_ext; cbn; ring).
  change (vz (m3v M (v3sub (v3add (m3v (m3tr m3id) ex_P) (V3 0 0 0)) p)) <> 0). rewrite Q.
  pose proof (AP _ I) as A. destruct uv. apply A.
Qed.
