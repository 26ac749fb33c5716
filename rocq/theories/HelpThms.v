(** Proof of C36: the stacked Jacobians are the derivatives of the stacked predictions. *)
From Coq Require Import Reals Lra Lia Psatz List ZArith Bool.
From Coquelicot Require Import Coquelicot.
From Verif Require Import RBool Outcome Lin GeoModel GeoSpec GeoProofs JacSo3 Calc3 LandModel LandSpec LandProofs CamModel CamSpec CamProofs HelpModel HelpSpec HelpGeo HelpRep HelpAsm.
Import ListNotations.
Open Scope R_scope.

(** camera-frame position used for the residual and the one used for the Jacobians *)
Definition pC_val (ca : calib) (cl : cpose) (pG : v3) : v3 := v3add (m3v (ca_R ca) (m3v (po_R cl) (v3sub pG (po_p cl)))) (ca_p ca).
Definition pI_lin (e : henv) (cl : cpose) (pG pGf : v3) : v3 := m3v (lin_R e cl) (v3sub (if he_fej e then pGf else pG) (lin_p e cl)).
Definition pC_lin (e : henv) (ca : calib) (cl : cpose) (pG pGf : v3) : v3 := v3add (m3v (ca_R ca) (pI_lin e cl pG pGf)) (ca_p ca).
Definition proj_jac (p : v3) : mat := mat2 (v3vec (V3 (1 / vz p) 0 (- vx p / (vz p * vz p)))) (v3vec (V3 0 (1 / vz p) (- vy p / (vz p * vz p)))).
(** rate of the camera-frame position for rates g of the global position *)
Definition pC_rate (e : henv) (ca : calib) (cl : cpose) (pG pGf : v3) (g vi vc : vec) : vec := fun j =>
  mvec 3 (m3mat (m3mul (ca_R ca) (lin_R e cl))) g j +
  (mvec 6 (beside (m3mat (m3mul (ca_R ca) (skew_x (pI_lin e cl pG pGf)))) (m3mat (m3scal (-1) (m3mul (ca_R ca) (lin_R e cl))))) vi j +
   mvec 6 (beside (m3mat (skew_x (v3sub (pC_lin e ca cl pG pGf) (ca_p ca)))) (m3mat m3id)) vc j).

Lemma put_first H r n B x i : (i < 2)%nat -> mvec n (put H r 0 2 n B) x (r + i)%nat = mvec n B x i.
Proof.
  intros Hi. unfold mvec. apply sumn_ext. intros j Hj. unfold put. replace ((r <=? r + i) && (r + i <? r + 2) && (0 <=? j) && (j <? 0 + n))%nat%bool with true by (symmetry; apply in_block; lia).
  replace (r + i - r)%nat with i by lia. replace (j - 0)%nat with j by lia. reflexivity.
Qed.

Section One.
Variables (e : henv) (l : lay) (pG pGf : v3) (dl : mat) (ncol : nat) (ex : list (key * mat)) (v : key -> vec) (lv : vec).
Let x := stackv (ly_order l) v.
Let N := ly_total l.
Hypothesis LO : lay_ok l.
Hypothesis EXI : forall c, ~ In (KIntr c) (map fst ex).

Lemma one_meas_rows c ca t uv a a' : one_meas e l pG pGf dl ncol ex c ca t uv a = Ok a' ->
  (forall i j, (2 * ac_c a <= i)%nat -> ac_Hx a i j = 0) ->
  (he_cal e = false -> forall i, (i < 6)%nat -> v (KCalib c) i = 0) -> (he_int e = false -> forall i, (i < 8)%nat -> v (KIntr c) i = 0) ->
  exists cl cm di, he_clone e t = Some cl /\ he_cam e c = Some cm /\ he_intr e c = Some di /\ ac_c a' = S (ac_c a) /\
  (forall i, (i < 2)%nat -> ac_res a' (2 * ac_c a + i)%nat = uv i - cam_distort cm di (projected (pC_val ca cl pG)) i) /\
  (forall i, (i < 2)%nat -> mvec ncol (ac_Hf a') lv (2 * ac_c a + i)%nat + mvec N (ac_Hx a') x (2 * ac_c a + i)%nat =
     mvec 2 (cam_dzn cm di (projected (pC_val ca cl pG)))
       (mvec 3 (proj_jac (pC_lin e ca cl pG pGf)) (pC_rate e ca cl pG pGf (fun j => mvec ncol dl lv j + extra_sum ex v j) (v (KClone t)) (v (KCalib c)))) i
     + mvec 8 (cam_dzeta cm di (projected (pC_val ca cl pG))) (v (KIntr c)) i) /\
  (forall i j, (i < 2 * ac_c a \/ 2 * ac_c a + 2 <= i)%nat -> ac_Hx a' i j = ac_Hx a i j /\ ac_Hf a' i j = ac_Hf a i j) /\
  (forall i, (i < 2 * ac_c a)%nat -> ac_res a' i = ac_res a i).
Proof.
  intros E Z CZ IZ. destruct LO as (_ & L2 & L3 & _). unfold one_meas in E.
  destruct (he_clone e t) as [cl|] eqn:Ecl; cbn [at_ obind] in E; [|discriminate].
  destruct (he_cam e c) as [cm|] eqn:Ecm; cbn [at_ obind] in E; [|discriminate].
  destruct (he_intr e c) as [di|] eqn:Edi; cbn [at_ obind] in E; [|discriminate].
  cbv zeta in E. unfold ly_at in E.
  destruct (ly_find (ly_map l) (KClone t)) as [oc|] eqn:Foc; cbn [at_ obind] in E; [|discriminate]. apply L3 in Foc. pose proof (placed_bound _ _ _ Foc) as Boc.
  fold (projected (v3add (m3v (ca_R ca) (m3v (po_R cl) (v3sub pG (po_p cl)))) (ca_p ca))) in E. fold (pC_val ca cl pG) in E.
  assert (EpI : (if he_fej e then m3v (if he_fej e then po_Rf cl else po_R cl) (v3sub pGf (if he_fej e then po_pf cl else po_p cl)) else m3v (po_R cl) (v3sub pG (po_p cl))) = pI_lin e cl pG pGf).
  { unfold pI_lin, lin_R, lin_p. destruct (he_fej e); reflexivity. }
  rewrite EpI in E.
  assert (EpC : (if he_fej e then v3add (m3v (ca_R ca) (pI_lin e cl pG pGf)) (ca_p ca) else pC_val ca cl pG) = pC_lin e ca cl pG pGf).
  { unfold pC_lin, pC_val, pI_lin, lin_R, lin_p. destruct (he_fej e); reflexivity. }
  rewrite EpC in E. fold (proj_jac (pC_lin e ca cl pG pGf)) in E. fold (lin_R e cl) in E.
  set (dzn := cam_dzn cm di (projected (pC_val ca cl pG))) in *. set (dze := cam_dzeta cm di (projected (pC_val ca cl pG))) in *.
  set (PJ := proj_jac (pC_lin e ca cl pG pGf)) in *. set (dzc := mmul 2 dzn PJ) in *. set (dg := m3mul (ca_R ca) (lin_R e cl)) in *.
  set (B1 := beside (m3mat (m3mul (ca_R ca) (skew_x (pI_lin e cl pG pGf)))) (m3mat (m3scal (-1) dg))) in *.
  set (B2 := beside (m3mat (skew_x (v3sub (pC_lin e ca cl pG pGf) (ca_p ca)))) (m3mat m3id)) in *.
  set (H1 := put (ac_Hx a) (2 * ac_c a) oc 2 6 (mmul 3 dzc B1)) in *.
  destruct (add_extra l (ac_c a) (mmul 3 dzc (m3mat dg)) ex H1) as [H2| |] eqn:E2; cbn [obind] in E; try discriminate.
  destruct (add_extra_rows l (ac_c a) (mmul 3 dzc (m3mat dg)) v LO ex H1 H2 E2) as (R2 & O2 & Z2).
  assert (R1 : forall i, (i < 2)%nat -> mvec N H1 x (2 * ac_c a + i)%nat = mvec 3 dzc (mvec 6 B1 (v (KClone t))) i).
  { intros i Hi. unfold H1. rewrite put_in; [|intros ? ? ? ?; apply Z; lia|unfold N; rewrite L2; exact Boc|exact Hi].
    rewrite mvec_zrow by (intros; apply Z; lia). rewrite Rplus_0_l, mvec_mmul. apply mvec_ext_r. intros j _. apply mvec_ext_r. intros q Hq. unfold x. apply (placed_seg _ (KClone t)); auto. }
  assert (ZI : forall o, placed (ly_order l) (KIntr c) o -> zblock H2 (2 * ac_c a) o 8).
  { intros o P. apply (Z2 (KIntr c) o); [apply EXI|exact P|]. apply put_z; [|intros ? ? ? ?; apply Z; lia]. apply (placed_disj _ (KClone t) _ (KIntr c) _ Foc P). discriminate. }
  destruct (if he_cal e then _ else Ok H2) as [H3| |] eqn:E3 in E; cbn [obind] in E; try discriminate.
  assert (P3 : (forall i, (i < 2)%nat -> mvec N H3 x (2 * ac_c a + i)%nat = mvec N H2 x (2 * ac_c a + i)%nat + mvec 3 dzc (mvec 6 B2 (v (KCalib c))) i) /\
    (forall i j, (i < 2 * ac_c a \/ 2 * ac_c a + 2 <= i)%nat -> H3 i j = H2 i j) /\ (forall o, placed (ly_order l) (KIntr c) o -> zblock H3 (2 * ac_c a) o 8)).
  { destruct (he_cal e) eqn:EC.
    - destruct (ly_find (ly_map l) (KCalib c)) as [o|] eqn:Fo; cbn [at_ obind] in E3; [|discriminate]. injection E3 as <-. apply L3 in Fo. pose proof (placed_bound _ _ _ Fo) as Bo. split; [|split].
      + intros i Hi. rewrite addto_in; [|unfold N; rewrite L2; exact Bo|exact Hi]. f_equal. rewrite mvec_mmul. apply mvec_ext_r. intros j _. apply mvec_ext_r. intros q Hq. unfold x. apply (placed_seg _ (KCalib c)); auto.
      + intros. apply addto_out. auto.
      + intros o' P. apply addto_z; [|auto]. apply (placed_disj _ (KCalib c) _ (KIntr c) _ Fo P). discriminate.
    - injection E3 as <-. split; [|split]; auto. intros i Hi. rewrite (mvec_zero 3 dzc); [ring|]. intros j _. apply mvec_zero. auto. }
  destruct P3 as (R3 & O3 & Z3).
  destruct (if he_int e then _ else Ok H3) as [H4| |] eqn:E4 in E; cbn [obind] in E; try discriminate.
  assert (P4 : (forall i, (i < 2)%nat -> mvec N H4 x (2 * ac_c a + i)%nat = mvec N H3 x (2 * ac_c a + i)%nat + mvec 8 dze (v (KIntr c)) i) /\
    (forall i j, (i < 2 * ac_c a \/ 2 * ac_c a + 2 <= i)%nat -> H4 i j = H3 i j)).
  { destruct (he_int e) eqn:EI.
    - destruct (ly_find (ly_map l) (KIntr c)) as [o|] eqn:Fo; cbn [at_ obind] in E4; [|discriminate]. injection E4 as <-. apply L3 in Fo. pose proof (placed_bound _ _ _ Fo) as Bo. split.
      + intros i Hi. rewrite put_in; [|apply Z3; exact Fo|unfold N; rewrite L2; exact Bo|exact Hi]. f_equal. apply mvec_ext_r. intros q Hq. unfold x. apply (placed_seg _ (KIntr c)); auto.
      + intros. apply put_out. auto.
    - injection E4 as <-. split; auto. intros i Hi. rewrite (mvec_zero 8 dze); [ring|]. auto. }
  destruct P4 as (R4 & O4).
  apply (f_equal (fun o => match o with Ok y => y | _ => a end)) in E. cbv beta iota in E. subst a'. cbn [ac_c ac_res ac_Hf ac_Hx]. exists cl, cm, di. repeat (split; [reflexivity|]).
  split; [|split; [|split]].
  - intros i Hi. unfold put_seg. replace ((2 * ac_c a <=? 2 * ac_c a + i) && (2 * ac_c a + i <? 2 * ac_c a + 2))%nat%bool with true by (symmetry; rewrite andb_true_iff, Nat.leb_le, Nat.ltb_lt; lia).
    replace (2 * ac_c a + i - 2 * ac_c a)%nat with i by lia. reflexivity.
  - intros i Hi. rewrite R4, R3, R2, R1 by exact Hi. rewrite put_first by exact Hi. rewrite mvec_mmul.
    rewrite <- (mvec_mmul 2 3 dzn PJ). fold dzc. unfold pC_rate. fold dg B1 B2. rewrite !mvec_plus.
    rewrite (mvec_ext_r 3 dzc (mvec 3 (m3mat dg) (fun j => mvec ncol dl lv j + extra_sum ex v j)) (fun j => mvec 3 (m3mat dg) (mvec ncol dl lv) j + mvec 3 (m3mat dg) (extra_sum ex v) j)) by (intros; apply mvec_plus).
    rewrite mvec_plus, !mvec_mmul. fold dze. ring.
  - intros i j Hi. split; [|apply put_out; exact Hi]. rewrite O4, O3, O2 by exact Hi. apply put_out. exact Hi.
  - intros i Hi. unfold put_seg. replace ((2 * ac_c a <=? i) && (i <? 2 * ac_c a + 2))%nat%bool with false; [reflexivity|]. symmetry. destruct (Nat.leb_spec (2 * ac_c a) i); [lia|reflexivity].
Qed.

(** all measurements: P is what each pair of rows must satisfy *)
Variable P : nat -> R -> vec -> (nat -> R) -> vec -> Prop.
Hypothesis PX : forall c t uv g g' r r', (forall i, (i < 2)%nat -> g i = g' i) -> (forall i, (i < 2)%nat -> r i = r' i) -> P c t uv g r -> P c t uv g' r'.
Definition jrow (a : hacc) (k : nat) : nat -> R := fun i => mvec ncol (ac_Hf a) lv (2 * k + i)%nat + mvec N (ac_Hx a) x (2 * k + i)%nat.
Definition rrow (a : hacc) (k : nat) : vec := fun i => ac_res a (2 * k + i)%nat.
Definition rows_done (done : list (nat * R * vec)) (a : hacc) : Prop :=
  ac_c a = length done /\ (forall i j, (2 * ac_c a <= i)%nat -> ac_Hx a i j = 0) /\
  (forall k c t uv, nth_error done k = Some (c, t, uv) -> P c t uv (jrow a k) (rrow a k)).
Hypothesis STEP : forall c ca t uv a a', he_calib e c = Some ca -> one_meas e l pG pGf dl ncol ex c ca t uv a = Ok a' ->
  (forall i j, (2 * ac_c a <= i)%nat -> ac_Hx a i j = 0) -> P c t uv (jrow a' (ac_c a)) (rrow a' (ac_c a)) /\ ac_c a' = S (ac_c a) /\
  (forall i j, (i < 2 * ac_c a \/ 2 * ac_c a + 2 <= i)%nat -> ac_Hx a' i j = ac_Hx a i j /\ ac_Hf a' i j = ac_Hf a i j) /\
  (forall i, (i < 2 * ac_c a)%nat -> ac_res a' i = ac_res a i).
Lemma one_done c ca t uv a a' done : he_calib e c = Some ca -> one_meas e l pG pGf dl ncol ex c ca t uv a = Ok a' -> rows_done done a -> rows_done (done ++ [(c, t, uv)]) a'.
Proof.
  intros Eca E (D1 & D2 & D3). destruct (STEP c ca t uv a a' Eca E D2) as (S1 & S2 & S3 & S4). split; [rewrite S2, app_length; cbn; lia|]. split.
  - intros i j Hi. rewrite S2 in Hi. destruct (S3 i j) as [-> _]; [lia|]. apply D2. lia.
  - intros k c0 t0 uv0 Hk. destruct (Nat.lt_ge_cases k (length done)) as [L|L].
    + rewrite nth_error_app1 in Hk by exact L. apply D3 in Hk. eapply PX; [| |exact Hk].
      * intros i Hi. unfold jrow. f_equal; (apply mvec_ext_l; intros j _; symmetry; apply S3; lia).
      * intros i Hi. unfold rrow. symmetry. apply S4. lia.
    + rewrite nth_error_app2 in Hk by exact L. destruct (k - length done)%nat as [|q] eqn:Q; cbn in Hk; [|destruct q; discriminate].
      injection Hk as <- <- <-. replace k with (ac_c a) by lia. exact S1.
Qed.
Lemma cam_done c ca ts : he_calib e c = Some ca -> forall a a' done, cam_meas e l pG pGf dl ncol ex c ca ts a = Ok a' -> rows_done done a ->
  rows_done (done ++ map (fun y => (c, fst y, snd y)) ts) a'.
Proof.
  intros Eca. induction ts as [|[t uv] ts IH]; intros a a' done E D; cbn [cam_meas] in E.
  - injection E as <-. rewrite app_nil_r. exact D.
  - destruct (one_meas e l pG pGf dl ncol ex c ca t uv a) as [a1| |] eqn:E1; cbn [obind] in E; try discriminate.
    apply (one_done c ca t uv a a1 done Eca E1) in D. apply (IH _ _ _ E) in D. rewrite <- app_assoc in D. exact D.
Qed.
Lemma all_done ms : forall a a' done, all_meas e l pG pGf dl ncol ex ms a = Ok a' -> rows_done done a -> rows_done (done ++ flat_meas ms) a'.
Proof.
  induction ms as [|[c ts] ms IH]; intros a a' done E D; cbn [all_meas] in E.
  - injection E as <-. rewrite app_nil_r. exact D.
  - destruct (he_intr e c) eqn:Edi; cbn [at_ obind] in E; [|discriminate]. destruct (he_calib e c) as [ca|] eqn:Eca; cbn [at_ obind] in E; [|discriminate].
    destruct (cam_meas e l pG pGf dl ncol ex c ca ts a) as [a1| |] eqn:E1; cbn [obind] in E; try discriminate.
    apply (cam_done c ca ts Eca a a1 done E1) in D. apply (IH _ _ _ E) in D. unfold flat_meas in *. cbn [flat_map fst snd]. rewrite app_assoc. exact D.
Qed.
End One.

(** projection *)
Lemma projected_derive q s q' : vz (q s) <> 0 -> v3_derive q s q' -> vec_derive 2 (fun t => projected (q t)) s (mvec 3 (proj_jac (q s)) (v3vec q')).
Proof.
  intros N (A & B & C) i Hi. unfold projected, vec2. destruct i as [|[|i]]; [| |lia].
  - eapply is_derive_eq; [apply der_div; [exact N|exact A|exact C]|]. unfold mvec, proj_jac, mat2. cbn [sumn v3vec vx vy vz]. field. exact N.
  - eapply is_derive_eq; [apply der_div; [exact N|exact B|exact C]|]. unfold mvec, proj_jac, mat2. cbn [sumn v3vec vx vy vz]. field. exact N.
Qed.
Lemma cam_jac cm d p : regular cm p -> pixel_jacobians (cam_distort cm) d (projected p) (cam_dzn cm d (projected p)) (cam_dzeta cm d (projected p)).
Proof. intros [_ H]. destruct cm; [apply rt_jac|apply eq_jac; exact H]. Qed.

Lemma vec_derive_v3 q s (g : vec) : vec_derive 3 (fun t => v3vec (q t)) s g -> v3_derive q s (seg3 g 0).
Proof. intros H. split; [exact (H 0%nat ltac:(lia))|]. split; [exact (H 1%nat ltac:(lia))|exact (H 2%nat ltac:(lia))]. Qed.
Lemma beside_any A B y : forall i, (i < 3)%nat -> mvec 6 (beside (m3mat A) (m3mat B)) y i = v3vec (v3add (m3v A (seg3 y 0)) (m3v B (seg3 y 3))) i.
Proof. intros. apply beside_vec. auto. Qed.

(** one predicted pixel along a motion, current estimates *)
Lemma predicted_derive e f m cm c t ca cl di (g : vec) : he_fej e = false -> motion_of e f m ->
  he_calib e c = Some ca -> he_clone e t = Some cl -> he_intr e c = Some di ->
  vec_derive 3 (fun s => v3vec (moving_feat f m s)) 0 g -> regular cm (pC_val ca cl (moving_feat f m 0)) ->
  let pG := moving_feat f m 0 in
  (forall i, predicted f m cm c t 0 i = cam_distort cm di (projected (pC_val ca cl pG)) i) /\
  vec_derive 2 (fun s => predicted f m cm c t s) 0 (fun i =>
     mvec 2 (cam_dzn cm di (projected (pC_val ca cl pG))) (mvec 3 (proj_jac (pC_lin e ca cl pG pG)) (pC_rate e ca cl pG pG g (mo_v m (KClone t)) (mo_v m (KCalib c)))) i
     + mvec 8 (cam_dzeta cm di (projected (pC_val ca cl pG))) (mo_v m (KIntr c)) i).
Proof.
  intros FJ (M1 & M2 & M3 & M4) Eca Ecl Edi G REG pG.
  destruct (M1 t cl Ecl) as (A1 & A2 & _ & A3). destruct (M2 c ca Eca) as (B1 & B2 & _ & B3 & _). destruct (M3 c di Edi) as (C1 & C2 & _).
  pose proof (to_cam_derive _ _ _ _ _ 0 _ _ _ B3 A3 (vec_derive_v3 _ _ _ G)) as D. cbv zeta in D. rewrite A1, A2, B1, B2 in D. fold pG in D.
  assert (Q0 : in_camera m c t 0 pG = pC_val ca cl pG) by (unfold in_camera, pC_val; rewrite A1, A2, B1, B2; reflexivity).
  assert (EL : pC_lin e ca cl pG pG = pC_val ca cl pG) by (unfold pC_lin, pI_lin, pC_val, lin_R, lin_p; rewrite FJ; reflexivity).
  assert (DI : forall i, mo_in m c 0 i = di i) by exact C1.
  assert (PE : forall d1 d2 z, (forall i, d1 i = d2 i) -> forall i, cam_distort cm d1 z i = cam_distort cm d2 z i).
  { intros d1 d2 z H i. destruct cm; cbn [cam_distort]; unfold rt_distort, eq_distort, eq_thd, vec2; rewrite !H; reflexivity. }
  split; [intros i; unfold predicted; fold pG; rewrite Q0; apply PE; exact DI|].
  set (q := fun s => in_camera m c t s (moving_feat f m s)).
  assert (Dq : v3_derive q 0 (seg3 (pC_rate e ca cl pG pG g (mo_v m (KClone t)) (mo_v m (KCalib c))) 0)).
  { eapply v3_derive_eq; [exact D|]. unfold seg3 at 6, pC_rate. rewrite !m3mat_vec, !beside_any by lia.
    unfold pC_lin, pI_lin, lin_R, lin_p. rewrite FJ. apply v3_ext; cbn [v3add vx vy vz v3vec]; ring. }
  pose proof (projected_derive q 0 _ ltac:(unfold q; fold pG; rewrite Q0; apply REG) Dq) as Dp.
  pose proof (cam_jac cm di _ REG (mo_in m c) (fun s => projected (q s)) 0 _ _ DI ltac:(intros i; unfold q; fold pG; rewrite Q0; reflexivity) C2 Dp) as Dz.
  intros i Hi. specialize (Dz i Hi). cbv beta in Dz. unfold predicted. fold q. eapply is_derive_eq; [exact Dz|]. f_equal.
  apply mvec_ext_r. intros j _. rewrite EL. unfold q. fold pG. rewrite Q0. apply mvec_ext_r. intros [|[|[|r]]] Hr; try reflexivity; lia.
Qed.

Lemma ex_no_intr e f dl n ex : rep_jac e f = Ok (dl, n, ex) -> forall c, ~ In (KIntr c) (map fst ex).
Proof.
  intros H c. destruct (is_relative (hf_rep f)) eqn:Rl.
  - destruct (rep_jac_shape e f dl n ex H Rl) as (Ri & pi & Rc & pc & pA & _ & _ & -> & _). unfold anchor_extra. cbv zeta. destruct (he_cal e); cbn; intuition discriminate.
  - destruct (rep_global e f dl n ex H Rl) as [-> _]. cbn. tauto.
Qed.

(** both modes: residuals and rows of [H_f H_x] *)
Definition row_formula (e : henv) (pG pGf : v3) (dl : mat) (ncol : nat) (ex : list (key * mat)) (v : key -> vec) (lv : vec) (c : nat) (t : R) (uv : vec) (g : nat -> R) (r : vec) : Prop :=
  exists ca cl cm di, he_calib e c = Some ca /\ he_clone e t = Some cl /\ he_cam e c = Some cm /\ he_intr e c = Some di /\
  (forall i, (i < 2)%nat -> r i = uv i - cam_distort cm di (projected (pC_val ca cl pG)) i) /\
  (forall i, (i < 2)%nat -> g i =
     mvec 2 (cam_dzn cm di (projected (pC_val ca cl pG)))
       (mvec 3 (proj_jac (pC_lin e ca cl pG pGf)) (pC_rate e ca cl pG pGf (fun j => mvec ncol dl lv j + extra_sum ex v j) (v (KClone t)) (v (KCalib c)))) i
     + mvec 8 (cam_dzeta cm di (projected (pC_val ca cl pG))) (v (KIntr c)) i).

Lemma full_rows e f j v lv : full_jac e f = Ok j -> NoDup (map fst (hf_meas f)) ->
  (forall c, he_cal e = false -> he_calib e c <> None -> forall i, (i < 6)%nat -> v (KCalib c) i = 0) ->
  (forall c, he_int e = false -> he_intr e c <> None -> forall i, (i < 8)%nat -> v (KIntr c) i = 0) ->
  exists pG pGf dl ex, feat_global e f = Ok (pG, pGf) /\ rep_jac e f = Ok (dl, fj_cols j, ex) /\
  fj_rows j = (2 * length (flat_meas (hf_meas f)))%nat /\ fj_total j = sizes (fj_order j) /\ NoDup (fj_order j) /\
  forall k c t uv, nth_error (flat_meas (hf_meas f)) k = Some (c, t, uv) ->
   row_formula e pG pGf dl (fj_cols j) ex v lv c t uv
     (fun i => mvec (fj_cols j) (fj_Hf j) lv (2 * k + i)%nat + mvec (fj_total j) (fj_Hx j) (stackv (fj_order j) v) (2 * k + i)%nat) (fun i => fj_res j (2 * k + i)%nat).
Proof.
  intros E ND CZ IZ. unfold full_jac in E.
  destruct (lay_cams e (hf_meas f) (mkLay [] [] 0)) as [l1| |] eqn:E1; cbn [obind] in E; try discriminate.
  destruct (lay_anchor e f l1) as [l| |] eqn:E2; cbn [obind] in E; try discriminate.
  pose proof (lay_all_ok e f l1 l ND E1 E2) as LO.
  destruct (feat_global e f) as [[pG pGf]| |] eqn:E3; cbn [obind] in E; try discriminate.
  destruct (rep_jac e f) as [[[dl ncol] ex]| |] eqn:E4; cbn [obind] in E; try discriminate. cbn [fst snd] in E.
  destruct (all_meas e l pG pGf dl ncol ex (hf_meas f) (mkAcc mzero mzero (fun _ => 0) 0)) as [a| |] eqn:E5; cbn [obind] in E; try discriminate.
  apply (f_equal (fun o => match o with Ok y => y | _ => j end)) in E. cbv beta iota in E. subst j. cbn [fj_cols fj_rows fj_total fj_order fj_Hf fj_Hx fj_res].
  exists pG, pGf, dl, ex. split; [reflexivity|]. split; [reflexivity|].
  assert (D : rows_done l ncol v lv (row_formula e pG pGf dl ncol ex v lv) ([] ++ flat_meas (hf_meas f)) a).
  { eapply (all_done e l pG pGf dl ncol ex v lv (row_formula e pG pGf dl ncol ex v lv)); [| |exact E5|].
    - intros c t uv g g' r r' G1 R1 (ca & cl & cm & di & X1 & X2 & X3 & X4 & X5 & X6). exists ca, cl, cm, di. do 4 (split; [assumption|]).
      split; intros i Hi; [rewrite <- R1 by exact Hi; auto|rewrite <- G1 by exact Hi; auto].
    - intros c ca t uv a0 a1 Eca Eo Z.
      assert (DI : he_intr e c <> None). { intros N. unfold one_meas in Eo. rewrite N in Eo. destruct (he_clone e t); cbn in Eo; [|discriminate]. destruct (he_cam e c); cbn in Eo; discriminate. }
      destruct (one_meas_rows e l pG pGf dl ncol ex v lv LO (ex_no_intr e f dl ncol ex E4) c ca t uv a0 a1 Eo Z) as (cl & cm & di & X1 & X2 & X3 & X4 & X5 & X6 & X7 & X8).
      + intros EC. apply CZ; [exact EC|congruence].
      + intros EI. apply IZ; [exact EI|exact DI].
      + split; [|split; [exact X4|split; [exact X7|exact X8]]]. exists ca, cl, cm, di. do 4 (split; [assumption|]). split; [exact X5|exact X6].
    - split; [reflexivity|]. split; [intros; reflexivity|]. intros k c t uv H. destruct k; discriminate. }
  destruct D as (D1 & _ & D3). cbn [app] in D1, D3. destruct LO as (L1 & L2 & _). split; [rewrite D1; reflexivity|]. split; [exact L2|]. split; [exact L1|]. exact D3.
Qed.

Lemma moving_start e f m pG pGf dl n ex : he_fej e = false -> motion_of e f m -> starts f m (stored f) -> feat_global e f = Ok (pG, pGf) -> rep_jac e f = Ok (dl, n, ex) ->
  moving_feat f m 0 = pG /\ (is_relative (hf_rep f) = true -> pGf = pG) /\ vec_derive 3 (fun s => v3vec (moving_feat f m s)) 0 (fun i => mvec n dl (mo_lv m) i + extra_sum ex (mo_v m) i).
Proof.
  intros FJ (M1 & M2 & M3 & M4) (X & L & B) EG EJ. unfold stored in *. unfold feat_global in EG. unfold moving_feat.
  destruct (is_relative (hf_rep f)) eqn:Rl.
  - destruct (rep_relative e f dl n ex EJ Rl) as (ca & cl & Eca & Ecl & K). destruct (hf_acam f =? -1)%Z; [discriminate|].
    assert (Eca' : cam_at (he_calib e) (hf_acam f) = Ok ca \/ cam_at (he_calib e) (hf_acam f) = UB). { unfold cam_at. destruct (hf_acam f <? 0)%Z; [auto|]. rewrite Eca. auto. }
    destruct Eca' as [Eca'|Eca']; rewrite Eca' in EG; cbn [obind] in EG; [|discriminate]. rewrite Ecl in EG. cbn [at_ obind] in EG. injection EG as <- <-. rewrite to_global_alt.
    destruct (M1 _ _ Ecl) as (A1 & A2 & A3 & A4). destruct (M2 _ _ Eca) as (C1 & C2 & C3 & C4 & C5).
    destruct (feat_derive (hf_rep f) (hf_pA f) (mo_b m) (mo_lam m) 0 (mo_lv m) X B L M4) as [F0 _].
    split; [rewrite A1, A2, C1, C2, F0; reflexivity|]. split; [reflexivity|].
    unfold lin_R, lin_p in K. rewrite FJ in K. apply (K A3 A3 C3 (hf_pA f) eq_refl X (mo_R m (hf_atime f)) (mo_p m (hf_atime f))); auto.
  - injection EG as <- <-. destruct (rep_global e f dl n ex EJ Rl) as [-> K]. rewrite FJ in K. destruct (K _ eq_refl X (mo_lam m) (mo_lv m) (mo_b m) L M4) as [F0 FD].
    split; [exact F0|]. split; [discriminate|]. intros i Hi. eapply is_derive_eq; [exact (FD i Hi)|]. cbn [extra_sum]. ring.
Qed.

Lemma full_derivative e f j m : full_jac e f = Ok j -> he_fej e = false -> NoDup (map fst (hf_meas f)) -> motion_of e f m -> starts f m (stored f) ->
  (forall c t uv cm, In (c, t, uv) (flat_meas (hf_meas f)) -> he_cam e c = Some cm -> regular cm (in_camera m c t 0 (moving_feat f m 0))) ->
  fj_rows j = (2 * length (flat_meas (hf_meas f)))%nat /\ fj_total j = sizes (fj_order j) /\ NoDup (fj_order j) /\
  forall k c t uv, nth_error (flat_meas (hf_meas f)) k = Some (c, t, uv) -> exists cm, he_cam e c = Some cm /\
   (forall i, (i < 2)%nat -> fj_res j (2 * k + i)%nat = uv i - predicted f m cm c t 0 i) /\
   vec_derive 2 (predicted f m cm c t) 0
     (fun i => mvec (fj_cols j) (fj_Hf j) (mo_lv m) (2 * k + i)%nat + mvec (fj_total j) (fj_Hx j) (stackv (fj_order j) (mo_v m)) (2 * k + i)%nat).
Proof.
  intros E FJ ND MO ST RG. pose proof MO as (M1 & M2 & M3 & M4).
  destruct (full_rows e f j (mo_v m) (mo_lv m) E ND) as (pG & pGf & dl & ex & EG & EJ & Rw & Tt & No & Rows).
  - intros c EC N. destruct (he_calib e c) as [ca|] eqn:Eca; [|congruence]. destruct (M2 c ca Eca) as (_ & _ & _ & _ & Z). auto.
  - intros c EC N. destruct (he_intr e c) as [di|] eqn:Edi; [|congruence]. destruct (M3 c di Edi) as (_ & _ & Z). auto.
  - split; [exact Rw|]. split; [exact Tt|]. split; [exact No|].
    destruct (moving_start e f m pG pGf dl (fj_cols j) ex FJ MO ST EG EJ) as (P0 & PF & PD).
    intros k c t uv Hk. destruct (Rows k c t uv Hk) as (ca & cl & cm & di & X1 & X2 & X3 & X4 & X5 & X6). exists cm. split; [exact X3|].
    assert (RG' : regular cm (pC_val ca cl (moving_feat f m 0))).
    { specialize (RG c t uv cm (nth_error_In _ _ Hk) X3). unfold in_camera in RG. destruct (M1 _ _ X2) as (A1 & A2 & _). destruct (M2 _ _ X1) as (C1 & C2 & _). rewrite A1, A2, C1, C2 in RG. exact RG. }
    destruct (predicted_derive e f m cm c t ca cl di _ FJ MO X1 X2 X4 PD RG') as [V0 VD]. rewrite P0 in V0, VD.
    split; [intros i Hi; rewrite V0; apply X5; exact Hi|].
    intros i Hi. eapply is_derive_eq; [exact (VD i Hi)|]. cbv beta. rewrite X6 by exact Hi.
    unfold pC_rate, pC_lin, pI_lin. rewrite FJ. reflexivity.
Qed.

(** *** C75: moving everything together changes nothing *)
Lemma skew_cross a b : m3v (skew_x a) b = v3cross a b.
Proof. destruct a, b. apply v3_ext; cbn; ring. Qed.
Lemma cross_swap a b : v3cross a b = v3neg (v3cross b a).
Proof. destruct a, b. apply v3_ext; cbn; ring. Qed.
Lemma rot_cross r a b : is_rot r -> m3v r (v3cross a b) = v3cross (m3v r a) (m3v r b).
Proof. intros H. rewrite <- !skew_cross, <- !m3v_mul. rewrite (rot_skew r a H). reflexivity. Qed.
Lemma m3v_neg1 r a : m3v (m3scal (-1) r) a = v3neg (m3v r a).
Proof. destruct r, a. apply v3_ext; cbn; ring. Qed.

Lemma still_rate e ca cl pG pGf g d (u vi vc : vec) : is_rot (lin_R e cl) ->
  seg3 vi 0 = m3v (lin_R e cl) g -> seg3 vi 3 = frame_rate g d (lin_p e cl) -> (forall i, vc i = 0) ->
  (forall i, (i < 3)%nat -> u i = v3vec (frame_rate g d (if he_fej e then pGf else pG)) i) ->
  forall i, (i < 3)%nat -> pC_rate e ca cl pG pGf u vi vc i = 0.
Proof.
  intros HR V0 V3 VC U i Hi. unfold pC_rate, pI_lin. set (p := if he_fej e then pGf else pG) in *.
  rewrite (mvec_zero 6 _ vc) by auto. rewrite (mvec_ext_r 3 _ u (v3vec (frame_rate g d p))) by auto. rewrite m3mat_vec by exact Hi.
  rewrite beside_any by exact Hi. rewrite V0, V3, Rplus_0_r, <- v3vec_add.
  replace (seg3 (v3vec (frame_rate g d p)) 0) with (frame_rate g d p) by (destruct (frame_rate g d p); reflexivity).
  match goal with |- v3vec ?w i = 0 => assert (W : w = v3zero) end; [|rewrite W; destruct i as [|[|i]]; reflexivity].
  rewrite m3v_neg1, !m3v_mul, skew_cross, <- rot_cross by exact HR. unfold frame_rate.
  assert (F : v3cross (v3sub p (lin_p e cl)) g = v3neg (v3cross g (v3sub p (lin_p e cl)))) by apply cross_swap. rewrite F.
  assert (F2 : v3neg (v3cross g (v3sub p (lin_p e cl))) = v3sub (v3cross g (lin_p e cl)) (v3cross g p)) by (destruct g, p, (lin_p e cl); apply v3_ext; cbn; ring). rewrite F2.
  repeat rewrite ?m3v_add, ?m3v_sub.
  generalize (m3v (ca_R ca) (m3v (lin_R e cl) (v3cross g p))) (m3v (ca_R ca) (m3v (lin_R e cl) (v3cross g (lin_p e cl)))) (m3v (ca_R ca) (m3v (lin_R e cl) d)).
  intros [] [] []. apply v3_ext; cbn; ring.
Qed.

Lemma anchor_frame e f pG pGf dl n ex g d v : feat_global e f = Ok (pG, pGf) -> rep_jac e f = Ok (dl, n, ex) -> is_relative (hf_rep f) = true ->
  (forall t cl, he_clone e t = Some cl -> is_rot (po_R cl) /\ is_rot (lin_R e cl)) -> (forall c ca, he_calib e c = Some ca -> is_rot (ca_R ca)) ->
  frame_move e g d v -> pGf = pG /\ forall i, (i < 3)%nat -> extra_sum ex v i = v3vec (frame_rate g d pG) i.
Proof.
  intros EG EJ Rl RC RA (V1 & V2 & V3). destruct (rep_jac_shape e f dl n ex EJ Rl) as (Ri & pi & Rc & pc & pA & EA & _ & -> & _).
  destruct (anchor_point_ok e f _ EA) as (ca & cl & Eca & Ecl & pA' & Epp & _ & GG). injection Epp as -> -> -> -> ->.
  destruct (RC _ _ Ecl) as [R1 R2]. pose proof (RA _ _ Eca) as R3. specialize (GG R1 R2 R3).
  unfold feat_global in EG. rewrite Rl in EG. destruct (hf_acam f =? -1)%Z; [discriminate|].
  assert (Eca' : cam_at (he_calib e) (hf_acam f) = Ok ca \/ cam_at (he_calib e) (hf_acam f) = UB). { unfold cam_at. destruct (hf_acam f <? 0)%Z; [auto|]. rewrite Eca. auto. }
  destruct Eca' as [Eca'|Eca']; rewrite Eca' in EG; cbn [obind] in EG; [|discriminate]. rewrite Ecl in EG. cbn [at_ obind] in EG. injection EG as <- <-. rewrite to_global_alt, <- GG.
  split; [reflexivity|]. intros i Hi. unfold anchor_extra. cbv zeta. cbn [extra_sum ksize]. destruct (V1 _ _ Ecl) as [W0 W3]. rewrite beside_any by exact Hi. rewrite W0, W3.
  match goal with |- _ + extra_sum ?l v i = _ => assert (Z : extra_sum l v i = 0) end.
  { destruct (he_cal e); cbn [extra_sum ksize]; [|reflexivity]. rewrite mvec_zero by auto. ring. }
  rewrite Z, Rplus_0_r. f_equal. rewrite m3v_id, m3v_mul, m3v_neg1, skew_cross. unfold to_global. set (u := m3v (m3tr (ca_R ca)) (v3sub pA' (ca_p ca))).
  rewrite rot_cross by (apply is_rot_tr; exact R2). rewrite rot_forth by exact R2. unfold frame_rate.
  generalize (m3v (m3tr (lin_R e cl)) u) (lin_p e cl). intros [] []. destruct g, d. apply v3_ext; cbn; ring.
Qed.

Lemma frame_null e f j g d v lv : full_jac e f = Ok j -> NoDup (map fst (hf_meas f)) ->
  (forall t cl, he_clone e t = Some cl -> is_rot (po_R cl) /\ is_rot (lin_R e cl)) -> (forall c ca, he_calib e c = Some ca -> is_rot (ca_R ca)) ->
  frame_move e g d v ->
  (is_relative (hf_rep f) = true -> forall i, lv i = 0) ->
  (is_relative (hf_rep f) = false -> let p := if he_fej e then hf_pGf f else hf_pG f in expressible (hf_rep f) p /\
     exists lam, (forall i, (i < 3)%nat -> lam 0 i = feat_params (hf_rep f) p i) /\ vec_derive 3 lam 0 lv /\
       v3_derive (fun s => feat_xyz (hf_rep f) v3zero (lam s)) 0 (frame_rate g d p)) ->
  forall r, (r < fj_rows j)%nat -> mvec (fj_cols j) (fj_Hf j) lv r + mvec (fj_total j) (fj_Hx j) (stackv (fj_order j) v) r = 0.
Proof.
  intros E ND RC RA FM LR LG r Hr. pose proof FM as (V1 & V2 & V3).
  destruct (full_rows e f j v lv E ND) as (pG & pGf & dl & ex & EG & EJ & Rw & Tt & No & Rows); [auto|auto|].
  assert (U : forall i, (i < 3)%nat -> mvec (fj_cols j) dl lv i + extra_sum ex v i = v3vec (frame_rate g d (if he_fej e then pGf else pG)) i).
  { intros i Hi. destruct (is_relative (hf_rep f)) eqn:Rl.
    - destruct (anchor_frame e f pG pGf dl (fj_cols j) ex g d v EG EJ Rl RC RA FM) as [-> X]. rewrite X by exact Hi. rewrite mvec_zero by auto. destruct (he_fej e); ring.
    - unfold feat_global in EG. rewrite Rl in EG. injection EG as <- <-. destruct (rep_global e f dl (fj_cols j) ex EJ Rl) as [-> K].
      destruct (LG eq_refl) as (X & lam & L0 & L1 & L2). destruct (K _ eq_refl X lam lv v3zero L0 L1) as [_ KD]. cbn [extra_sum]. rewrite Rplus_0_r.
      specialize (KD i Hi). apply v3vec_derive in L2. specialize (L2 i Hi). apply is_derive_unique in KD. apply is_derive_unique in L2. cbv beta in KD, L2. rewrite <- KD, <- L2. reflexivity. }
  set (k := (r / 2)%nat). assert (Hk : (k < length (flat_meas (hf_meas f)))%nat) by (unfold k; apply Nat.div_lt_upper_bound; lia).
  destruct (nth_error (flat_meas (hf_meas f)) k) as [[[c t] uv]|] eqn:En; [|apply nth_error_None in En; lia].
  destruct (Rows k c t uv En) as (ca & cl & cm & di & X1 & X2 & X3 & X4 & X5 & X6).
  pose proof (Nat.div_mod r 2 ltac:(lia)) as DM. pose proof (Nat.mod_upper_bound r 2 ltac:(lia)) as MB. fold k in DM. set (i := (r mod 2)%nat) in *.
  specialize (X6 i MB). cbv beta in X6. replace (2 * k + i)%nat with r in X6 by lia. rewrite X6.
  rewrite (mvec_zero 8) by auto. rewrite mvec_zero; [ring|]. intros q _. apply mvec_zero. intros s Hs.
  destruct (V1 _ _ X2) as [W0 W3]. apply (still_rate e ca cl pG pGf g d); auto. apply (RC _ _ X2).
Qed.

(** *** definedness *)
Definition has (l : lay) (k : key) : Prop := ly_find (ly_map l) k <> None.
Lemma push_has k l k' : has l k' \/ k = k' -> has (ly_push k l) k'.
Proof.
  unfold has, ly_push. cbn [ly_map]. destruct (ly_find (ly_map l) k) eqn:E.
  - intros [H| ->]; [exact H|congruence].
  - rewrite ly_find_app. intros [H| ->]; [destruct (ly_find (ly_map l) k'); congruence|]. rewrite E.
    assert (keqb k' k' = true) by (apply keqb_eq; reflexivity). rewrite H. discriminate.
Qed.
Lemma add_has k l k' : has l k' \/ k = k' -> has (ly_add k l) k'.
Proof. unfold ly_add. destruct (ly_find (ly_map l) k) eqn:E; [|apply push_has]. intros [H| ->]; [exact H|unfold has; congruence]. Qed.
Lemma clones_def e ts : forall l, (forall t uv, In (t, uv) ts -> he_clone e t <> None) -> exists l', lay_clones e ts l = Ok l' /\
  (forall k, has l k -> has l' k) /\ (forall t uv, In (t, uv) ts -> has l' (KClone t)).
Proof.
  induction ts as [|[t uv] ts IH]; intros l H; cbn [lay_clones].
  - exists l. split; [reflexivity|]. split; [auto|]. intros ? ? [].
  - pose proof (H t uv (or_introl eq_refl)) as Ht. destruct (he_clone e t) as [cl|]; [|congruence]. cbn [at_ obind].
    destruct (IH (ly_add (KClone t) l)) as (l' & E & M & A). { intros t' uv' I. apply (H t' uv'). right. exact I. }
    exists l'. split; [exact E|]. split. { intros k Hk. apply M, add_has. auto. }
    intros t' uv' [I|I]; [injection I as <- <-; apply M, add_has; auto|apply (A t' uv' I)].
Qed.
Definition cam_ready (e : henv) (l : lay) (c : nat) (ts : list (R * vec)) : Prop :=
  (he_cal e = true -> has l (KCalib c)) /\ (he_int e = true -> has l (KIntr c)) /\ forall t uv, In (t, uv) ts -> has l (KClone t).
Lemma cams_def e ms : forall l, (forall c ts, In (c, ts) ms -> he_calib e c <> None /\ he_intr e c <> None /\ forall t uv, In (t, uv) ts -> he_clone e t <> None) ->
  exists l', lay_cams e ms l = Ok l' /\ (forall k, has l k -> has l' k) /\ (forall c ts, In (c, ts) ms -> cam_ready e l' c ts).
Proof.
  induction ms as [|[c ts] ms IH]; intros l H; cbn [lay_cams].
  - exists l. split; [reflexivity|]. split; [auto|]. intros ? ? [].
  - destruct (H c ts (or_introl eq_refl)) as (H1 & H2 & H3). destruct (he_calib e c); [|congruence]. destruct (he_intr e c); [|congruence]. cbn [at_ obind].
    set (l1 := if he_cal e then ly_push (KCalib c) l else l). set (l2 := if he_int e then ly_push (KIntr c) l1 else l1).
    assert (M1 : forall k, has l k -> has l1 k) by (intros k Hk; unfold l1; destruct (he_cal e); [apply push_has; auto|exact Hk]).
    assert (M2 : forall k, has l1 k -> has l2 k) by (intros k Hk; unfold l2; destruct (he_int e); [apply push_has; auto|exact Hk]).
    destruct (clones_def e ts l2 H3) as (l3 & E3 & M3 & A3). rewrite E3. cbn [obind].
    destruct (IH l3) as (l' & E & M & A). { intros c' ts' I. apply H. right. exact I. }
    exists l'. split; [exact E|]. split; [auto|]. intros c' ts' [I|I]; [|apply A; exact I]. injection I as <- <-.
    split; [|split].
    + intros EC. apply M, M3, M2. unfold l1. rewrite EC. apply push_has. auto.
    + intros EI. apply M, M3. unfold l2. rewrite EI. apply push_has. auto.
    + intros t uv I. apply M. apply (A3 t uv I).
Qed.
Lemma extra_def l c dz ex : (forall k B, In (k, B) ex -> has l k) -> forall H, exists H', add_extra l c dz ex H = Ok H'.
Proof.
  induction ex as [|[k B] ex IH]; intros A H; cbn [add_extra]; [eauto|]. unfold ly_at. pose proof (A k B (or_introl eq_refl)) as Hk. unfold has in Hk.
  destruct (ly_find (ly_map l) k); [|congruence]. cbn [at_ obind]. apply IH. intros k' B' I. apply (A k' B'). right. exact I.
Qed.
Lemma one_def e l pG pGf dl n ex c ca t uv a : (forall k B, In (k, B) ex -> has l k) -> he_clone e t <> None -> he_cam e c <> None -> he_intr e c <> None ->
  has l (KClone t) -> (he_cal e = true -> has l (KCalib c)) -> (he_int e = true -> has l (KIntr c)) -> exists a', one_meas e l pG pGf dl n ex c ca t uv a = Ok a'.
Proof.
  intros X H1 H2 H3 K1 K2 K3. unfold one_meas. destruct (he_clone e t); [|congruence]. destruct (he_cam e c); [|congruence]. destruct (he_intr e c); [|congruence]. cbn [at_ obind]. cbv zeta.
  unfold ly_at. unfold has in K1. destruct (ly_find (ly_map l) (KClone t)); [|congruence]. cbn [at_ obind].
  match goal with |- context [add_extra l ?a ?b ?c ?d] => destruct (extra_def l a b c X d) as (H' & E') end. rewrite E'. cbn [obind].
  destruct (he_cal e); [specialize (K2 eq_refl); unfold has in K2; destruct (ly_find (ly_map l) (KCalib c)); [|congruence]|]; cbn [at_ obind];
  (destruct (he_int e); [specialize (K3 eq_refl); unfold has in K3; destruct (ly_find (ly_map l) (KIntr c)); [|congruence]|]; cbn [at_ obind]; eauto).
Qed.
Lemma cam_def e l pG pGf dl n ex c ca ts : (forall k B, In (k, B) ex -> has l k) -> he_cam e c <> None -> he_intr e c <> None ->
  (forall t uv, In (t, uv) ts -> he_clone e t <> None) -> cam_ready e l c ts -> forall a, exists a', cam_meas e l pG pGf dl n ex c ca ts a = Ok a'.
Proof.
  intros X H2 H3. induction ts as [|[t uv] ts IH]; intros H1 (K2 & K3 & K1) a; cbn [cam_meas]; [eauto|].
  destruct (one_def e l pG pGf dl n ex c ca t uv a X (H1 t uv (or_introl eq_refl)) H2 H3 (K1 t uv (or_introl eq_refl)) K2 K3) as (a' & ->). cbn [obind].
  apply IH; [intros t' uv' I; apply (H1 t' uv'); right; exact I|]. split; [exact K2|]. split; [exact K3|]. intros t' uv' I. apply (K1 t' uv'). right. exact I.
Qed.
Lemma full_defined e f : hf_rep f <> RepUnknown ->
  (forall c ts, In (c, ts) (hf_meas f) -> he_calib e c <> None /\ he_intr e c <> None /\ he_cam e c <> None /\ forall t uv, In (t, uv) ts -> he_clone e t <> None) ->
  (is_relative (hf_rep f) = true -> (0 <= hf_acam f)%Z /\ he_calib e (Z.to_nat (hf_acam f)) <> None /\ he_clone e (hf_atime f) <> None) ->
  exists j, full_jac e f = Ok j.
Proof.
  intros NU HM HA. unfold full_jac.
  destruct (cams_def e (hf_meas f) (mkLay [] [] 0)) as (l1 & E1 & M1 & A1). { intros c ts I. destruct (HM c ts I) as (? & ? & ? & ?). auto. }
  rewrite E1. cbn [obind].
  assert (S2 : exists l, lay_anchor e f l1 = Ok l /\ (forall k, has l1 k -> has l k) /\ (is_relative (hf_rep f) = true -> has l (KClone (hf_atime f)) /\ (he_cal e = true -> has l (KCalib (Z.to_nat (hf_acam f)))))).
  { unfold lay_anchor. destruct (is_relative (hf_rep f)); [|exists l1; split; [reflexivity|]; split; [auto|discriminate]].
    destruct (HA eq_refl) as (G0 & G1 & G2). destruct (Z.eqb_spec (hf_acam f) (-1)); [lia|]. destruct (he_clone e (hf_atime f)); [|congruence]. cbn [at_ obind].
    unfold cam_at. destruct (Z.ltb_spec (hf_acam f) 0); [lia|]. destruct (he_calib e (Z.to_nat (hf_acam f))); [|congruence]. cbn [at_ obind].
    destruct (he_cal e); eexists; (split; [reflexivity|]); split.
    - intros k Hk. apply add_has. left. apply add_has. auto.
    - intros _. split; [apply add_has; left; apply add_has; auto|intros _; apply add_has; auto].
    - intros k Hk. apply add_has. auto.
    - intros _. split; [apply add_has; auto|discriminate]. }
  destruct S2 as (l & E2 & M2 & A2). rewrite E2. cbn [obind].
  assert (S3 : exists pp, feat_global e f = Ok pp).
  { unfold feat_global. destruct (is_relative (hf_rep f)); [|eauto]. destruct (HA eq_refl) as (G0 & G1 & G2). destruct (Z.eqb_spec (hf_acam f) (-1)); [lia|].
    unfold cam_at. destruct (Z.ltb_spec (hf_acam f) 0); [lia|]. destruct (he_calib e (Z.to_nat (hf_acam f))); [|congruence]. cbn [at_ obind]. destruct (he_clone e (hf_atime f)); [|congruence]. cbn [at_ obind]. eauto. }
  destruct S3 as (pp & E3). rewrite E3. cbn [obind].
  assert (S4 : exists dl n ex, rep_jac e f = Ok (dl, n, ex) /\ forall k B, In (k, B) ex -> has l k).
  { assert (AP : is_relative (hf_rep f) = true -> exists x, anchor_point e f = Ok x).
    { intros Rl. destruct (HA Rl) as (G0 & G1 & G2). unfold anchor_point. destruct (Z.eqb_spec (hf_acam f) (-1)); [lia|].
      unfold cam_at. destruct (Z.ltb_spec (hf_acam f) 0); [lia|]. destruct (he_calib e (Z.to_nat (hf_acam f))); [|congruence]. cbn [at_ obind]. destruct (he_clone e (hf_atime f)); [|congruence]. cbn [at_ obind]. destruct (he_fej e); eauto. }
    unfold rep_jac. destruct (hf_rep f) eqn:ER; try congruence;
    try (eexists _, _, _; split; [reflexivity|]; intros ? ? []; fail);
    (destruct (AP eq_refl) as ([[[[Ri pi] Rc] pc] pA] & ->); cbn [obind]; eexists _, _, _; split; [reflexivity|];
     destruct (A2 eq_refl) as [B1 B2]; intros k B [I|I]; [injection I as <- <-; exact B1|]; destruct (he_cal e); [destruct I as [I|[]]; injection I as <- <-; apply B2; reflexivity|destruct I]). }
  destruct S4 as (dl & n & ex & -> & X). cbn [obind]. cbv beta iota.
  match goal with |- context [all_meas e l ?a ?b dl n ex _ ?c] => assert (S5 : exists y, all_meas e l a b dl n ex (hf_meas f) c = Ok y) end.
  { generalize (mkAcc mzero mzero (fun _ => 0) 0). assert (A1' : forall c ts, In (c, ts) (hf_meas f) -> cam_ready e l c ts).
    { intros c ts I. destruct (A1 c ts I) as (C1 & C2 & C3). split; [auto|]. split; [auto|]. intros t uv J. apply M2. apply (C3 t uv J). }
    revert A1' HM. generalize (hf_meas f). intros ms. induction ms as [|[c ts] ms IH]; intros A1' HM a; cbn [all_meas]; [eauto|].
    destruct (HM c ts (or_introl eq_refl)) as (G1 & G2 & G3 & G4). pose proof (A1' c ts (or_introl eq_refl)) as G5.
    destruct (he_intr e c) eqn:Ei; [|congruence]. destruct (he_calib e c); [|congruence]. cbn [at_ obind].
    destruct (cam_def e l (fst pp) (snd pp) dl n ex c c0 ts X G3 ltac:(congruence) G4 G5 a) as (a' & ->). cbn [obind]. apply IH.
    - intros c' ts' I. apply A1'. right. exact I.
    - intros c' ts' I. apply HM. right. exact I. }
  destruct S5 as (y & ->). cbn [obind]. eauto.
Qed.

(** *** both modes *)
Lemma global_ok e f pG pGf dl n ex : feat_global e f = Ok (pG, pGf) -> rep_jac e f = Ok (dl, n, ex) -> now_global e f = Some pG /\ lin_global e f = Some (if he_fej e then pGf else pG).
Proof.
  unfold feat_global, now_global, lin_global, now_global. destruct (is_relative (hf_rep f)) eqn:Rl.
  - intros EG EJ. destruct (rep_relative e f dl n ex EJ Rl) as (ca & cl & Eca & Ecl & _). destruct (hf_acam f =? -1)%Z; [discriminate|].
    assert (Eca' : cam_at (he_calib e) (hf_acam f) = Ok ca \/ cam_at (he_calib e) (hf_acam f) = UB). { unfold cam_at. destruct (hf_acam f <? 0)%Z; [auto|]. rewrite Eca. auto. }
    destruct Eca' as [Eca'|Eca']; rewrite Eca' in EG; cbn [obind] in EG; [|discriminate]. rewrite Ecl in EG. cbn [at_ obind] in EG. injection EG as <- <-.
    rewrite Ecl, Eca, to_global_alt. destruct (he_fej e); auto.
  - intros EG _. injection EG as <- <-. auto.
Qed.
Lemma lin_start e f m q pG pGf dl n ex : motion_lin e m -> starts f m q -> feat_global e f = Ok (pG, pGf) -> rep_jac e f = Ok (dl, n, ex) ->
  Some (moving_feat f m 0) = lin_global e f ->
  vec_derive 3 (fun s => v3vec (moving_feat f m s)) 0 (fun i => mvec n dl (mo_lv m) i + extra_sum ex (mo_v m) i).
Proof.
  intros (M1 & M2 & M3 & M4) (X & L & B) EG EJ. destruct (global_ok e f pG pGf dl n ex EG EJ) as [NG _]. unfold lin_global, moving_feat. rewrite NG.
  destruct (feat_derive (hf_rep f) q (mo_b m) (mo_lam m) 0 (mo_lv m) X B L M4) as [F0 _].
  destruct (is_relative (hf_rep f)) eqn:Rl; intros E0; injection E0 as E0.
  - destruct (rep_relative e f dl n ex EJ Rl) as (ca & cl & Eca & Ecl & K). destruct (M1 _ _ Ecl) as (A1 & A2 & A3 & A3' & A4). destruct (M2 _ _ Eca) as (C1 & C2 & C3 & C4 & C5).
    rewrite A1, A2, C1, C2, F0 in E0. unfold now_global in NG. rewrite Rl, Ecl, Eca in NG. injection NG as NG. rewrite <- NG in E0.
    apply (K A3 A3' C3 q E0 X (mo_R m (hf_atime f)) (mo_p m (hf_atime f))); auto.
  - rewrite F0 in E0. destruct (rep_global e f dl n ex EJ Rl) as [-> K]. destruct (K q E0 X (mo_lam m) (mo_lv m) (mo_b m) L M4) as [_ FD].
    intros i Hi. eapply is_derive_eq; [exact (FD i Hi)|]. cbn [extra_sum]. ring.
Qed.
Lemma full_chain e f j m q : full_jac e f = Ok j -> NoDup (map fst (hf_meas f)) -> motion_lin e m -> starts f m q -> Some (moving_feat f m 0) = lin_global e f ->
  (forall c t uv, In (c, t, uv) (flat_meas (hf_meas f)) -> vz (in_camera m c t 0 (moving_feat f m 0)) <> 0) ->
  exists pG, now_global e f = Some pG /\ forall k c t uv, nth_error (flat_meas (hf_meas f)) k = Some (c, t, uv) ->
   exists cm di pC w, he_cam e c = Some cm /\ he_intr e c = Some di /\ now_camera e c t pG = Some pC /\
   (forall i, (i < 2)%nat -> fj_res j (2 * k + i)%nat = uv i - cam_distort cm di (projected pC) i) /\
   vec_derive 2 (fun s => projected (in_camera m c t s (moving_feat f m s))) 0 w /\
   (regular cm pC -> exists Hz Hd, pixel_jacobians (cam_distort cm) di (projected pC) Hz Hd /\
     forall i, (i < 2)%nat -> mvec (fj_cols j) (fj_Hf j) (mo_lv m) (2 * k + i)%nat + mvec (fj_total j) (fj_Hx j) (stackv (fj_order j) (mo_v m)) (2 * k + i)%nat =
       mvec 2 Hz w i + mvec 8 Hd (mo_v m (KIntr c)) i).
Proof.
  intros E ND MO ST P0 RG. pose proof MO as (M1 & M2 & M3 & M4).
  destruct (full_rows e f j (mo_v m) (mo_lv m) E ND) as (pG & pGf & dl & ex & EG & EJ & Rw & Tt & No & Rows).
  - intros c EC N. destruct (he_calib e c) as [ca|] eqn:Eca; [|congruence]. destruct (M2 c ca Eca) as (_ & _ & _ & _ & Z). auto.
  - intros c EI _. auto.
  - destruct (global_ok e f pG pGf dl (fj_cols j) ex EG EJ) as [NG LG]. exists pG. split; [exact NG|].
    pose proof (lin_start e f m q pG pGf dl (fj_cols j) ex MO ST EG EJ P0) as PD. rewrite LG in P0. injection P0 as P0.
    intros k c t uv Hk. destruct (Rows k c t uv Hk) as (ca & cl & cm & di & X1 & X2 & X3 & X4 & X5 & X6).
    destruct (M1 _ _ X2) as (A1 & A2 & A3 & A3' & A4). destruct (M2 _ _ X1) as (B1 & B2 & _ & B3 & _).
    specialize (RG c t uv (nth_error_In _ _ Hk)).
    pose proof (to_cam_derive _ _ _ _ _ 0 _ _ _ B3 A4 (vec_derive_v3 _ _ _ PD)) as D. cbv zeta in D. rewrite A1, A2, B1, B2, P0 in D.
    assert (Q0 : in_camera m c t 0 (moving_feat f m 0) = pC_lin e ca cl pG pGf) by (unfold in_camera, pC_lin, pI_lin; rewrite A1, A2, B1, B2, P0; reflexivity).
    set (g := fun i => mvec (fj_cols j) dl (mo_lv m) i + extra_sum ex (mo_v m) i) in *.
    set (qq := fun s => in_camera m c t s (moving_feat f m s)).
    assert (Dq : v3_derive qq 0 (seg3 (pC_rate e ca cl pG pGf g (mo_v m (KClone t)) (mo_v m (KCalib c))) 0)).
    { eapply v3_derive_eq; [exact D|]. unfold seg3 at 6, pC_rate. rewrite !m3mat_vec, !beside_any by lia.
      unfold pC_lin, pI_lin. apply v3_ext; cbn [v3add vx vy vz v3vec]; ring. }
    pose proof (projected_derive qq 0 _ RG Dq) as Dp.
    exists cm, di, (pC_val ca cl pG), (mvec 3 (proj_jac (pC_lin e ca cl pG pGf)) (pC_rate e ca cl pG pGf g (mo_v m (KClone t)) (mo_v m (KCalib c)))).
    split; [exact X3|]. split; [exact X4|]. split; [unfold now_camera; rewrite X2, X1; reflexivity|]. split; [exact X5|]. split.
    + intros i Hi. eapply is_derive_eq; [exact (Dp i Hi)|]. unfold qq. rewrite Q0. apply mvec_ext_r. intros [|[|[|r]]] Hr; try reflexivity; lia.
    + intros REG. exists (cam_dzn cm di (projected (pC_val ca cl pG))), (cam_dzeta cm di (projected (pC_val ca cl pG))). split; [apply cam_jac; exact REG|exact X6].
Qed.
