(** Theorems for C94 and C95. *)
From Coq Require Import Reals List Arith Bool Lia Lra.
From Verif Require Import RBool Outcome GeoModel GeoSpec GeoProofs DbModel DbProofs FeatModel FeatSpec FeatProofs RetriModel RetriSpec RetriProofs.
Import ListNotations.
Open Scope R_scope.

(** ** the normal equations *)
Definition rot_meas (m : meas) : Prop := is_rot (fst (fst m)).
Lemma across_dot r x y : v3dot r r <> 0 -> v3dot x (m3v (across r) y) = v3dot (v3cross r x) (v3cross r y) / v3dot r r.
Proof. intros H. unfold across. destruct r, x, y. unfold v3dot in *. cbn in *. field. exact H. Qed.
Lemma ray_dot m : rot_meas m -> 0 < v3dot (ray m) (ray m).
Proof.
  destruct m as [[M c] n]. intros H. pose proof (ray_pos M c n H) as P. rewrite <- norm_sq. nra.
Qed.
Lemma line_quad P m : rot_meas m -> line_dist2 P m = v3dot (v3sub P (centre m)) (m3v (across (ray m)) (v3sub P (centre m))).
Proof. intros H. pose proof (ray_dot m H). rewrite across_dot by lra. reflexivity. Qed.
Lemma normal_psd ms x : Forall rot_meas ms -> 0 <= v3dot x (m3v (fst (normal ms)) x).
Proof.
  induction 1 as [|m ms H _ IH]; cbn [normal fst]; [unfold v3dot; cbn; lra|].
  rewrite m3v_addm, dot_add. pose proof (ray_dot m H) as D. rewrite across_dot by lra.
  assert (0 <= v3dot (v3cross (ray m) x) (v3cross (ray m) x) / v3dot (ray m) (ray m)); [|lra].
  apply Rmult_le_pos; [apply dot_pos|left; apply Rinv_0_lt_compat; exact D].
Qed.
Lemma normal_sym ms x y : Forall rot_meas ms -> v3dot x (m3v (fst (normal ms)) y) = v3dot y (m3v (fst (normal ms)) x).
Proof.
  induction 1 as [|m ms H _ IH]; cbn [normal fst]; [unfold v3dot; cbn; ring|].
  rewrite !m3v_addm, !dot_add, IH. pose proof (ray_dot m H) as D. rewrite !across_dot by lra. rewrite (dot_sym (v3cross (ray m) x)). reflexivity.
Qed.
Lemma cost_quad ms P Q : Forall rot_meas ms -> m3v (fst (normal ms)) Q = snd (normal ms) ->
  ray_cost ms P = ray_cost ms Q + v3dot (v3sub P Q) (m3v (fst (normal ms)) (v3sub P Q)).
Proof.
  intros F E.
  assert (G : forall ms, Forall rot_meas ms -> ray_cost ms P = ray_cost ms Q + v3dot (v3sub P Q) (m3v (fst (normal ms)) (v3sub P Q)) + 2 * v3dot (v3sub P Q) (v3sub (m3v (fst (normal ms)) Q) (snd (normal ms)))).
  { clear. induction 1 as [|m ms H F IH]; [unfold ray_cost, v3dot; cbn; ring|].
    unfold ray_cost in *. cbn [map rsum fold_right]. fold (rsum (map (line_dist2 P) ms)) (rsum (map (line_dist2 Q) ms)). rewrite IH. rewrite !line_quad by exact H.
    cbn [normal fst snd]. pose proof (ray_dot m H) as D.
    set (A := across (ray m)). set (N := fst (normal ms)). set (b := snd (normal ms)). set (c := centre m).
    assert (S : forall x y, v3dot x (m3v A y) = v3dot y (m3v A x)) by (intros x y; unfold A; rewrite !across_dot by lra; rewrite dot_sym; reflexivity).
    replace (v3sub P c) with (v3add (v3sub P Q) (v3sub Q c)) by (apply v3_ext; cbn; ring).
    rewrite !m3v_addm, !m3v_add, !dot_add.
    replace (v3dot (v3add (v3sub P Q) (v3sub Q c)) (m3v A (v3sub P Q))) with (v3dot (v3sub P Q) (m3v A (v3sub P Q)) + v3dot (v3sub P Q) (m3v A (v3sub Q c))).
    2:{ rewrite (S (v3add _ _)), m3v_add, dot_add. reflexivity. }
    replace (v3dot (v3add (v3sub P Q) (v3sub Q c)) (m3v A (v3sub Q c))) with (v3dot (v3sub P Q) (m3v A (v3sub Q c)) + v3dot (v3sub Q c) (m3v A (v3sub Q c))).
    2:{ rewrite (S (v3add _ _)), m3v_add, dot_add, (S (v3sub Q c) (v3sub P Q)). reflexivity. }
    rewrite (m3v_sub A Q c). generalize (m3v A (v3sub P Q)) (m3v A Q) (m3v A c) (m3v N (v3sub P Q)) (m3v N Q). intros.
    generalize (v3sub P Q) (v3sub Q c). intros. unfold v3dot. cbn. ring. }
  rewrite (G ms F), E. replace (v3sub (snd (normal ms)) (snd (normal ms))) with v3zero by (apply v3_ext; cbn; ring).
  unfold v3dot at 2. cbn. ring.
Qed.
Lemma normal_null ms x : Forall rot_meas ms -> v3dot x (m3v (fst (normal ms)) x) = 0 -> m3v (fst (normal ms)) x = v3zero.
Proof.
  intros F E. set (A := fst (normal ms)) in *. apply dot_zero. set (y := m3v A x).
  (* the form is nonnegative along x + t y *)
  assert (G : forall t, 0 <= 2 * t * v3dot y y + t * t * v3dot y (m3v A y)).
  { intros t. pose proof (normal_psd ms (v3add x (v3scal t y)) F) as N. fold A in N.
    rewrite m3v_add, m3v_scal, dot_add in N.
    pose proof (normal_sym ms x y F) as S. fold A in S. fold y in S. fold y in E. fold y in N.
    replace (v3dot (v3add x (v3scal t y)) y) with (v3dot x y + t * v3dot y y) in N by (unfold v3dot; cbn; ring).
    replace (v3dot (v3add x (v3scal t y)) (v3scal t (m3v A y))) with (t * v3dot x (m3v A y) + t * t * v3dot y (m3v A y)) in N by (unfold v3dot; cbn; ring).
    rewrite S, E in N. lra. }
  pose proof (dot_pos y) as D. set (q := v3dot y (m3v A y)) in *. set (n := v3dot y y) in *.
  destruct (Rle_lt_dec n 0) as [L|L]; [lra|]. exfalso.
  assert (0 <= q) by (pose proof (normal_psd ms y F) as Q; exact Q).
  specialize (G (- (n / (q + 1)))). assert (0 < / (q + 1)) by (apply Rinv_0_lt_compat; lra).
  unfold Rdiv in G. set (k := / (q + 1)) in *. assert (Hk : k * q = 1 - k) by (unfold k; field; lra).
  replace (2 * - (n * k) * n + - (n * k) * - (n * k) * q) with (n * n * k * (k * q - 2)) in G by ring. rewrite Hk in G.
  assert (0 < n * n * k) by (apply Rmult_lt_0_compat; [nra|assumption]). nra.
Qed.
Lemma det_inj A x : m3det A <> 0 -> m3v A x = v3zero -> x = v3zero.
Proof.
  intros D E. assert (Q : v3scal (m3det A) x = v3zero).
  { destruct A as [a b c d e f g h k], x as [x y z]. unfold m3v, v3zero in E. cbn in E. injection E as E1 E2 E3. unfold m3det. apply v3_ext; cbn.
    - transitivity ((e * k - f * h) * (a * x + b * y + c * z) - (b * k - c * h) * (d * x + e * y + f * z) + (b * f - c * e) * (g * x + h * y + k * z)); [ring|rewrite E1, E2, E3; ring].
    - transitivity (- (d * k - f * g) * (a * x + b * y + c * z) + (a * k - c * g) * (d * x + e * y + f * z) - (a * f - c * d) * (g * x + h * y + k * z)); [ring|rewrite E1, E2, E3; ring].
    - transitivity ((d * h - e * g) * (a * x + b * y + c * z) - (a * h - b * g) * (d * x + e * y + f * z) + (a * e - b * d) * (g * x + h * y + k * z)); [ring|rewrite E1, E2, E3; ring]. }
  destruct x as [x y z]. unfold v3scal, v3zero in Q. cbn in Q. injection Q as Q1 Q2 Q3. apply v3_ext; cbn; nra.
Qed.
Lemma normal_closest ms Q : Forall rot_meas ms -> m3det (fst (normal ms)) <> 0 -> m3v (fst (normal ms)) Q = snd (normal ms) -> closest ms Q.
Proof.
  intros F D E P N. rewrite (cost_quad ms P Q F E). pose proof (normal_psd ms (v3sub P Q) F) as G.
  destruct (Req_dec (v3dot (v3sub P Q) (m3v (fst (normal ms)) (v3sub P Q))) 0) as [Z|Z]; [|lra].
  exfalso. apply N. apply (normal_null ms _ F) in Z. apply (det_inj _ _ D) in Z. destruct P, Q. unfold v3sub, v3zero in Z. cbn in Z. injection Z as Z1 Z2 Z3. apply v3_ext; cbn; lra.
Qed.
Lemma appears_zero P m : rot_meas m -> appears P m -> line_dist2 P m = 0.
Proof.
  intros H A. destruct m as [[M c] [u v]]. destruct (ray_point (mkView 0 0 M c u v) P H A) as (k & _ & E).
  unfold line_dist2. cbn [centre]. cbn [w_p vm w_R w_u w_v] in E. rewrite E.
  set (r := ray (M, c, (u, v))). replace (v3cross r (v3scal k r)) with v3zero by (destruct r; apply v3_ext; cbn; ring). unfold v3dot at 1, v3zero. cbn. unfold Rdiv. ring.
Qed.
Lemma cost_nonneg ms P : Forall rot_meas ms -> 0 <= ray_cost ms P.
Proof.
  induction 1 as [|m ms H _ IH]; unfold ray_cost in *; cbn [map rsum fold_right]; [lra|]. fold (rsum (map (line_dist2 P) ms)).
  assert (0 <= line_dist2 P m); [|lra]. unfold line_dist2. pose proof (ray_dot m H). apply Rmult_le_pos; [apply dot_pos|left; apply Rinv_0_lt_compat; assumption].
Qed.
Lemma appears_cost ms P : Forall rot_meas ms -> (forall m, In m ms -> appears P m) -> ray_cost ms P = 0.
Proof.
  induction 1 as [|m ms H _ IH]; intros A; unfold ray_cost in *; cbn [map rsum fold_right]; [reflexivity|]. fold (rsum (map (line_dist2 P) ms)).
  rewrite IH by (intros; apply A; right; assumption). rewrite appears_zero by (auto; apply A; left; reflexivity). ring.
Qed.
Lemma v3_dec (a b : v3) : {a = b} + {a <> b}.
Proof. destruct a, b. destruct (Req_EM_T vx vx0), (Req_EM_T vy vy0), (Req_EM_T vz vz0); subst; [left; reflexivity|right; congruence..]. Qed.
Lemma closest_truth ms P Q : Forall rot_meas ms -> (forall m, In m ms -> appears P m) -> closest ms Q -> Q = P.
Proof.
  intros F A C. destruct (v3_dec Q P) as [E|N]; [exact E|]. pose proof (C P (fun e => N (eq_sym e))). rewrite (appears_cost ms P F A) in H. pose proof (cost_nonneg ms Q F). lra.
Qed.

(** ** the stored systems *)
Lemma views_rot i id : rots i -> Forall rot_meas (views i id).
Proof.
  intros (RB & RC). unfold views. destruct (alook (ri_slam i) id); [constructor|]. apply Forall_forall. intros m Hm. apply in_flat_map in Hm as (c & _ & Hm).
  unfold cam_views in Hm. destruct (ri_clone i (ri_time i)) as [[MB pB]|] eqn:EB; [|destruct Hm]. destruct (ri_calib i c) as [[MC pC]|] eqn:EC; [|destruct Hm].
  destruct (alook (ri_obs i) c); [|destruct Hm]. destruct (alook (ri_ids i) c); [|destruct Hm]. destruct (ri_und i c); [|destruct Hm].
  apply in_map_iff in Hm as (e & <- & _). unfold rot_meas. cbn [fst eye]. apply is_rot_mul; [exact (RC _ _ _ EC)|exact (RB _ _ _ EB)].
Qed.
Lemma last_In {A} (l : list A) : forall a d, In (last (a :: l) d) (a :: l).
Proof. induction l as [|b l IH]; intros a d; [left; reflexivity|]. right. exact (IH b d). Qed.
Lemma kept_rot id hist : (forall i, In i hist -> rots i) -> Forall rot_meas (kept id hist).
Proof.
  induction hist as [|i h IH]; intros H; [constructor|]. cbn [kept]. pose proof (views_rot i id (H i (or_introl eq_refl))) as V. specialize (IH (fun j Hj => H j (or_intror Hj))).
  rewrite Forall_forall in V. destruct (views i id) as [|v vs]; [constructor|]. destruct (kept id h) as [|k l] eqn:E.
  - constructor; [apply V; left; reflexivity|constructor].
  - constructor; [apply V, last_In|exact IH].
Qed.
Lemma entry_some v ms : rot_meas v -> ms <> [] -> entry v (stored ms) None = stored (v :: ms).
Proof.
  intros H N. destruct ms as [|m ms]; [congruence|]. destruct v as [[M c] n]. unfold stored, entry. rewrite (obs_sys_is M c n H). reflexivity.
Qed.
Lemma entry_none v : rot_meas v -> entry v None None = stored [v].
Proof.
  intros H. destruct v as [[M c] n]. unfold stored, entry. rewrite (obs_sys_is M c n H). cbn [normal fst snd length centre]. f_equal. f_equal. f_equal.
  - generalize (across (ray (M, c, n))). intros A. destruct A. apply m3_ext; cbn; ring.
  - generalize (m3v (across (ray (M, c, n))) c). intros A. destruct A. apply v3_ext; cbn; ring.
Qed.
Lemma step_sys solve svals o old i x id hist : retriangulate solve svals o old i = Ok x -> keyed i -> rots i -> alook old id = stored (kept id hist) ->
  alook (ro_sys x) id = stored (kept id (i :: hist)).
Proof.
  intros E K Rt S. destruct (call_id solve svals o old i x id E K) as (-> & _). rewrite one_result, S. pose proof (views_rot i id Rt) as V. rewrite Forall_forall in V.
  cbn [kept]. destruct (views i id) as [|v vs]; [reflexivity|]. destruct (kept id hist) as [|m l].
  - cbn [stored fst]. apply entry_none. apply V. left. reflexivity.
  - change (stored (m :: l)) with (Some (fst (normal (m :: l)), snd (normal (m :: l)), length (m :: l))). cbn [fst].
    change (Some (fst (normal (m :: l)), snd (normal (m :: l)), length (m :: l))) with (stored (m :: l)). apply entry_some; [apply V, last_In|discriminate].
Qed.
Lemma run_sys solve svals o id : forall l old s hist, retri_run solve svals o old l = Ok s -> (forall i, In i l -> keyed i /\ rots i) -> alook old id = stored (kept id hist) ->
  alook s id = stored (kept id (rev l ++ hist)).
Proof.
  induction l as [|i l IH]; intros old s hist E H S; cbn [retri_run] in E; [injection E as <-; exact S|].
  apply obind_ok in E as (x & E1 & E2). destruct (H i (or_introl eq_refl)) as (K & Rt).
  rewrite (IH _ _ (i :: hist) E2 (fun j Hj => H j (or_intror Hj)) (step_sys _ _ _ _ _ _ _ _ E1 K Rt S)). cbn [rev]. rewrite <- app_assoc. reflexivity.
Qed.
Lemma system_thm solve svals o l s : retri_run solve svals o [] l = Ok s -> (forall i, In i l -> keyed i /\ rots i) ->
  forall id, alook s id = stored (kept id (rev l)).
Proof. intros E H id. pose proof (run_sys solve svals o id l [] s [] E H eq_refl) as X. rewrite app_nil_r in X. exact X. Qed.
(** one view per message: nothing is lost *)
Lemma kept_whole id hist : (forall i, In i hist -> (length (views i id) <= 1)%nat) -> kept id hist = whole id hist.
Proof.
  induction hist as [|i h IH]; intros H; [reflexivity|]. cbn [kept whole]. rewrite IH by (intros; apply H; right; assumption). pose proof (H i (or_introl eq_refl)) as L.
  destruct (views i id) as [|v [|w vs]]; [reflexivity| |cbn in L; lia]. destruct (whole id h); reflexivity.
Qed.

(** ** the positions *)
Lemma recover_ok solve svals o M c ms n p : rot_meas (M, c, n) -> Forall rot_meas ms -> solves solve -> sv_ok svals ->
  recover solve svals o M c (fst (normal ((M, c, n) :: ms)), snd (normal ((M, c, n) :: ms)), length ((M, c, n) :: ms)) = Some p ->
  (3 <= length ms)%nat /\ closest ((M, c, n) :: ms) p /\ fo_min o <= depth (M, c, n) p <= fo_max o.
Proof.
  intros H F S V. set (A := fst (normal ((M, c, n) :: ms))). set (b := snd (normal ((M, c, n) :: ms))). unfold recover. cbn [length]. match goal with |- context [(3 <? ?k)%nat] => destruct (Nat.ltb_spec 3 k) as [L|L]; [|discriminate] end. cbv zeta.
  destruct (Reqb_spec (snd (svals A)) 0) as [Z|Z]; [discriminate|]. cbn [negb andb].
  destruct (Rleb_spec (Rabs (fst (svals A) / snd (svals A))) (fo_cond o)); [|discriminate]. cbn [andb].
  destruct (Rleb_spec (fo_min o) (vz (m3v M (v3sub (solve A b) c)))); [|discriminate]. cbn [andb].
  destruct (Rleb_spec (vz (m3v M (v3sub (solve A b) c))) (fo_max o)); [|discriminate]. intros E. injection E as <-.
  split; [exact (proj2 (Nat.succ_le_mono 3 (length ms)) L)|]. split; [|cbn [depth]; lra].
  apply normal_closest; [constructor; assumption| |]; fold A; [intros D; apply Z, V, D|]. fold b. apply S. intros D. apply Z, V, D.
Qed.
Lemma picked_some solve svals o ms : forall vs p0 p, Forall rot_meas vs -> Forall rot_meas ms -> ms <> [] -> solves solve -> sv_ok svals ->
  picked solve svals o (fst (normal ms), snd (normal ms), length ms) vs p0 = Some p -> p0 = Some p \/
  exists v, In v vs /\ (3 <= length ms)%nat /\ closest (v :: ms) p /\ fo_min o <= depth v p <= fo_max o.
Proof.
  induction vs as [|v vs IH]; intros p0 p Fv Fm N S V E; [left; exact E|]. cbn [picked] in E. inversion Fv as [|? ? Hv Fv' X1]; subst.
  assert (Q : @Some sys (fst (normal ms), snd (normal ms), length ms) = stored ms) by (destruct ms; [congruence|reflexivity]). rewrite Q, (entry_some v ms Hv N) in E.
  destruct (IH _ _ Fv' Fm N S V E) as [H|(w & Hw & H)]; [|right; exists w; split; [right; exact Hw|exact H]].
  unfold stored in H. destruct v as [[M c] n]. cbn [fst snd] in H.
  change (m3add (across (ray (M, c, n))) (fst (normal ms))) with (fst (normal ((M, c, n) :: ms))) in H.
  destruct (recover solve svals o M c _) as [q|] eqn:Er; [|left; exact H]. injection H as ->. right. exists (M, c, n). split; [left; reflexivity|].
  apply (recover_ok solve svals o M c ms n p Hv Fm S V Er).
Qed.
Lemma position_thm solve svals o l s i x id p : retri_run solve svals o [] l = Ok s -> (forall j, In j (i :: l) -> keyed j /\ rots j) -> solves solve -> sv_ok svals ->
  retriangulate solve svals o s i = Ok x -> alook (ri_slam i) id = None -> alook (ro_pos x) id = Some p ->
  let ms := kept id (rev l) in (3 <= length ms)%nat /\ exists v, In v (views i id) /\ closest (v :: ms) p /\ fo_min o <= depth v p <= fo_max o.
Proof.
  intros E H S V Ec N Ep. cbv zeta. destruct (H i (or_introl eq_refl)) as (K & Rt).
  destruct (call_id solve svals o s i x id Ec K) as (_ & C). specialize (C N). rewrite one_result in C.
  pose proof (system_thm solve svals o l s E (fun j Hj => H j (or_intror Hj)) id) as Y.
  pose proof (views_rot i id Rt) as Vr. pose proof (kept_rot id (rev l) (fun j Hj => proj2 (H j (or_intror (proj2 (in_rev l j) Hj))))) as Kr.
  destruct (views i id) as [|v vs]; [cbn in C; congruence|]. destruct (kept id (rev l)) as [|m ms] eqn:Ek; rewrite Y in C; [cbn in C; congruence|].
  unfold stored in C. cbn [snd] in C. rewrite Ep in C. symmetry in C.
  destruct (picked_some solve svals o (m :: ms) (v :: vs) None p Vr Kr ltac:(discriminate) S V C) as [X|(w & W1 & W2 & W3)]; [discriminate|].
  split; [exact W2|]. exists w. split; [exact W1|exact W3].
Qed.
Lemma exact_thm solve svals o l s i x id p P : retri_run solve svals o [] l = Ok s -> (forall j, In j (i :: l) -> keyed j /\ rots j) -> solves solve -> sv_ok svals ->
  retriangulate solve svals o s i = Ok x -> alook (ri_slam i) id = None -> alook (ro_pos x) id = Some p ->
  (forall m, In m (views i id ++ kept id (rev l)) -> appears P m) -> p = P.
Proof.
  intros E H S V Ec N Ep A. destruct (position_thm _ _ _ _ _ _ _ _ _ E H S V Ec N Ep) as (_ & v & V1 & V2 & _).
  apply (closest_truth (v :: kept id (rev l))); [| |exact V2].
  - constructor; [|apply kept_rot; intros j Hj; apply H; right; apply in_rev; exact Hj]. pose proof (views_rot i id (proj2 (H i (or_introl eq_refl)))) as F. rewrite Forall_forall in F. apply F, V1.
  - intros m [<-|Hm]; apply A, in_or_app; [left; exact V1|right; exact Hm].
Qed.
Lemma normal_truth ms P : Forall rot_meas ms -> (forall m, In m ms -> appears P m) -> m3v (fst (normal ms)) P = snd (normal ms).
Proof.
  induction 1 as [|m ms H _ IH]; intros A; [apply v3_ext; cbn; ring|]. cbn [normal fst snd]. rewrite m3v_addm, IH by (intros; apply A; right; assumption). f_equal.
  assert (Z : m3v (across (ray m)) (v3sub P (centre m)) = v3zero).
  { pose proof (A m (or_introl eq_refl)) as Am. destruct m as [[M c] [u v]]. destruct (ray_point (mkView 0 0 M c u v) P H Am) as (k & _ & E). change (v3sub P c = v3scal k (ray (M, c, (u, v)))) in E. cbn [centre]. rewrite E.
    pose proof (ray_dot (M, c, (u, v)) H) as D. set (r := ray (M, c, (u, v))) in *. unfold across. destruct r as [a b d]. unfold v3dot in D. cbn in D. apply v3_ext; cbn; unfold v3dot; cbn; field; lra. }
  rewrite m3v_sub in Z. revert Z. generalize (m3v (across (ray m)) P) (m3v (across (ray m)) (centre m)). intros a b Z. destruct a, b. unfold v3sub, v3zero in Z. cbn in Z. injection Z as Z1 Z2 Z3. apply v3_ext; cbn; lra.
Qed.
Lemma picked_last solve svals o s : forall vs v p0, picked solve svals o s (v :: vs) p0 =
  match entry (last (v :: vs) v) (Some s) None with
  | Some z => match recover solve svals o (fst (fst (last (v :: vs) v))) (snd (fst (last (v :: vs) v))) z with Some q => Some q | None => picked solve svals o s (removelast (v :: vs)) p0 end
  | None => picked solve svals o s (removelast (v :: vs)) p0
  end.
Proof.
  induction vs as [|w vs IH]; intros v p0; [reflexivity|].
  change (last (v :: w :: vs) v) with (last (w :: vs) v). rewrite (last_any vs w v w). change (removelast (v :: w :: vs)) with (v :: removelast (w :: vs)).
  change (picked solve svals o s (v :: w :: vs) p0) with (picked solve svals o s (w :: vs) (match entry v (Some s) None with Some z => match recover solve svals o (fst (fst v)) (snd (fst v)) z with Some q => Some q | None => p0 end | None => p0 end)).
  rewrite IH. reflexivity.
Qed.
Lemma recovered_thm solve svals o l s i x id P v vs : retri_run solve svals o [] l = Ok s -> (forall j, In j (i :: l) -> keyed j /\ rots j) -> solves solve -> sv_ok svals ->
  retriangulate solve svals o s i = Ok x -> views i id = v :: vs -> (3 <= length (kept id (rev l)))%nat ->
  (forall m, In m (views i id ++ kept id (rev l)) -> appears P m) ->
  let w := last (v :: vs) v in let A := fst (normal (w :: kept id (rev l))) in
  m3det A <> 0 -> Rabs (fst (svals A) / snd (svals A)) <= fo_cond o -> fo_min o <= depth w P <= fo_max o ->
  alook (ro_pos x) id = Some P.
Proof.
  intros E H S V Ec Ev L Ap w A D C Dp. destruct (H i (or_introl eq_refl)) as (K & Rt).
  assert (N : alook (ri_slam i) id = None) by (unfold views in Ev; destruct (alook (ri_slam i) id); [discriminate|reflexivity]).
  destruct (call_id solve svals o s i x id Ec K) as (_ & X). specialize (X N). rewrite one_result, Ev in X.
  rewrite (system_thm solve svals o l s E (fun j Hj => H j (or_intror Hj)) id) in X.
  pose proof (views_rot i id Rt) as Vr. rewrite Ev in Vr. rewrite Forall_forall in Vr. pose proof (kept_rot id (rev l) (fun j Hj => proj2 (H j (or_intror (proj2 (in_rev l j) Hj))))) as Kr.
  set (ms := kept id (rev l)) in *. assert (Q : stored ms = @Some sys (fst (normal ms), snd (normal ms), length ms)) by (destruct ms; [cbn in L; lia|reflexivity]).
  rewrite Q in X. cbn [snd] in X. rewrite X, picked_last. fold w. assert (Q2 : @Some sys (fst (normal ms), snd (normal ms), length ms) = stored ms) by (destruct ms; [cbn in L; lia|reflexivity]).
  assert (Hw : rot_meas w) by (apply Vr, last_In). rewrite Q2, entry_some; [|exact Hw|intros ->; cbn in L; lia].
  assert (T : solve (fst (normal (w :: ms))) (snd (normal (w :: ms))) = P).
  { assert (F : Forall rot_meas (w :: ms)) by (constructor; assumption).
    assert (Am : forall m, In m (w :: ms) -> appears P m) by (intros m [<-|Hm]; apply Ap, in_or_app; [left; rewrite Ev; apply last_In|right; exact Hm]).
    apply (closest_truth _ _ _ F Am). apply normal_closest; [exact F|exact D|]. apply S. exact D. }
  unfold stored. unfold recover. cbn [length]. match goal with |- context [(3 <? ?k)%nat] => destruct (Nat.ltb_spec 3 k) as [L2|L2]; [|lia] end. cbv zeta.
  rewrite T. fold A. destruct (Reqb_spec (snd (svals A)) 0) as [Z|Z]; [exfalso; apply D, V, Z|]. cbn [negb andb].
  destruct w as [[M c] n]. cbn [fst snd depth] in *. destruct (Rleb_spec (Rabs (fst (svals A) / snd (svals A))) (fo_cond o)); [|lra].
  destruct (Rleb_spec (fo_min o) (vz (m3v M (v3sub P c)))); [|lra]. destruct (Rleb_spec (vz (m3v M (v3sub P c))) (fo_max o)); [|lra]. reflexivity.
Qed.
