(** The linear map of an anchor change (C60). *)
From Coq Require Import Reals Lra Lia Psatz List ZArith Bool.
From Coquelicot Require Import Coquelicot.
From Verif Require Import RBool Outcome Lin GeoModel GeoSpec GeoProofs JacSo3 Calc3 PdInv TypesModel StateModel StateSpec ReachModel ReachSpec FeatModel LandModel LandSpec LandProofs CamModel CamSpec CamProofs HelpModel HelpSpec HelpGeo HelpRep HelpAsm HelpThms AnchorModel AnchorSpec.
Import ListNotations.
Open Scope R_scope.

Lemma addto_row H o k n B x N i : (o + n <= N)%nat -> (i < k)%nat ->
  mvec N (addto H 0 o k n B) x i = mvec N H x i + mvec n B (fun j => x (o + j)%nat) i.
Proof.
  intros Hn Hi. unfold mvec.
  transitivity (sumn N (fun l => H i l * x l + if ((o <=? l) && (l <? o + n))%nat%bool then B i (l - o)%nat * x l else 0)).
  - apply sumn_ext. intros l _. unfold addto. replace (0 <=? i)%nat with true by (symmetry; apply Nat.leb_le; lia). replace (i <? 0 + k)%nat with true by (symmetry; apply Nat.ltb_lt; lia).
    cbn [andb]. rewrite Nat.sub_0_r. destruct ((o <=? l) && (l <? o + n))%nat%bool; ring.
  - rewrite sumn_plus. f_equal. rewrite (sumn_window N o n (fun l => B i (l - o)%nat * x l)) by lia. apply sumn_ext. intros l _. replace (o + l - o)%nat with l by lia. reflexivity.
Qed.
Lemma put_row H o k n B x N i : (o + n <= N)%nat -> (i < k)%nat -> (forall j, (o <= j)%nat -> H i j = 0) ->
  mvec N (put H 0 o k n B) x i = mvec N H x i + mvec n B (fun j => x (o + j)%nat) i.
Proof.
  intros Hn Hi Z. rewrite <- (addto_row H o k n B x N i) by auto. apply mvec_ext_l. intros j _. unfold put, addto.
  destruct ((0 <=? i) && (i <? 0 + k) && (o <=? j) && (j <? o + n))%nat%bool eqn:E; [|reflexivity].
  rewrite !andb_true_iff, !Nat.leb_le, !Nat.ltb_lt in E. rewrite Z by lia. ring.
Qed.
Lemma mvec_lin n A x y c i : mvec n A (fun j => x j + c * y j) i = mvec n A x i + c * mvec n A y i.
Proof. unfold mvec. rewrite <- sumn_scal, <- sumn_plus. apply sumn_ext. intros. ring. Qed.
Lemma mvec_scal n A s x i : mvec n (mscal s A) x i = s * mvec n A x i.
Proof. unfold mvec, mscal. rewrite <- sumn_scal. apply sumn_ext. intros. ring. Qed.

Lemma place_row l k s Hinv ex : lay_ok l -> forall P0 P, place l k s Hinv ex P0 = Ok P -> forall v x N, (ly_total l <= N)%nat ->
  (forall j, (j < ly_total l)%nat -> x j = stackv (ly_order l) v j) ->
  forall i, (i < k)%nat -> mvec N P x i = mvec N P0 x i + s * mvec 3 Hinv (extra_sum ex v) i.
Proof.
  intros L. induction ex as [|[v0 B] ex IH]; intros P0 P E v x N HN Hx i Hi; cbn [place] in E.
  - injection E as <-. cbn [extra_sum]. unfold mvec at 3. rewrite (sumn_zero 3) by (intros; ring). ring.
  - destruct (ly_at l v0) as [o| |] eqn:EO; cbn [obind] in E; try discriminate.
    destruct L as (L1 & L2 & L3 & L4). apply at_ok in EO. pose proof (L3 _ _ EO) as PL. pose proof (placed_bound _ _ _ PL) as PB. rewrite <- L2 in PB.
    rewrite (IH _ _ E v x N HN Hx i Hi). rewrite addto_row by lia. rewrite mvec_scal, mvec_mmul.
    rewrite (mvec_ext_r 3 Hinv (extra_sum ((v0, B) :: ex) v) (fun j => mvec (ksize v0) B (v v0) j + 1 * extra_sum ex v j)) by (intros; cbn [extra_sum]; ring).
    rewrite (mvec_lin 3 Hinv). rewrite (mvec_ext_r 3 Hinv _ (mvec (ksize v0) B (v v0))); [ring|].
    intros j _. apply mvec_ext_r. intros q Hq. rewrite Hx by lia. apply placed_seg; auto.
Qed.
Lemma place_zero l k s Hinv ex : lay_ok l -> forall P0 P, place l k s Hinv ex P0 = Ok P -> (forall i j, (ly_total l <= j)%nat -> P0 i j = 0) -> forall i j, (ly_total l <= j)%nat -> P i j = 0.
Proof.
  intros L. induction ex as [|[v0 B] ex IH]; intros P0 P E Z; cbn [place] in E; [injection E as <-; exact Z|].
  destruct (ly_at l v0) as [o| |] eqn:EO; cbn [obind] in E; try discriminate.
  apply (IH _ _ E). intros i j Hj. unfold addto. destruct L as (L1 & L2 & L3 & L4). apply at_ok in EO. pose proof (placed_bound _ _ _ (L3 _ _ EO)) as PB.
  replace (j <? o + ksize v0)%nat with false by (symmetry; apply Nat.ltb_ge; lia). rewrite andb_false_r. auto.
Qed.
Lemma fold_add_ok (ex : list (key * mat)) : forall l, lay_ok l -> lay_ok (fold_left (fun l x => ly_add (fst x) l) ex l).
Proof. induction ex as [|x ex IH]; intros l H; cbn [fold_left]; auto. apply IH, ly_add_ok, H. Qed.
Lemma lay0_ok : lay_ok (mkLay [] [] 0).
Proof. unfold lay_ok; cbn. split; [constructor|]. split; [reflexivity|]. split; [discriminate|auto]. Qed.

(** Phi applied to the stacked error rates *)
Lemma anchor_row r Hfo no exo Hfn nn exn l P : anchor_phi r (Hfo, no, exo) (Hfn, nn, exn) = Ok (l, P) ->
  lay_ok l /\ forall v lv i, (i < phisize r)%nat ->
  mvec (sizes (ly_order l) + phisize r) P (stack_lm (ly_order l) v lv) i =
  mvec 3 (new_inv r Hfn) (fun j => extra_sum exo v j + mvec (phisize r) Hfo lv j - extra_sum exn v j) i.
Proof.
  unfold anchor_phi. set (l0 := fold_left _ exn _). assert (L : lay_ok l0) by (apply fold_add_ok, fold_add_ok, lay0_ok). clearbody l0.
  intros E. destruct (place l0 (phisize r) 1 (new_inv r Hfn) exo mzero) as [P1| |] eqn:E1; cbn [obind] in E; try discriminate.
  destruct (place l0 (phisize r) (-1) (new_inv r Hfn) exn _) as [P3| |] eqn:E3; cbn [obind] in E; try discriminate.
  injection E as <- <-. split; [exact L|]. intros v lv i Hi. set (Hinv := new_inv r Hfn) in *. set (k := phisize r) in *.
  assert (LT : ly_total l0 = sizes (ly_order l0)) by apply L.
  assert (X : forall j, (j < ly_total l0)%nat -> stack_lm (ly_order l0) v lv j = stackv (ly_order l0) v j).
  { intros j Hj. unfold stack_lm. replace (j <? sizes (ly_order l0))%nat with true by (symmetry; apply Nat.ltb_lt; lia). reflexivity. }
  rewrite (place_row _ _ _ _ _ L _ _ E3 v _ (sizes (ly_order l0) + k)%nat ltac:(lia) X i Hi).
  assert (Z : forall a b, (ly_total l0 <= b)%nat -> P1 a b = 0) by (apply (place_zero _ _ _ _ _ L _ _ E1); reflexivity).
  rewrite put_row by (auto; lia). rewrite (place_row _ _ _ _ _ L _ _ E1 v _ (sizes (ly_order l0) + k)%nat ltac:(lia) X i Hi).
  replace (mvec (sizes (ly_order l0) + k) mzero (stack_lm (ly_order l0) v lv) i) with 0 by (unfold mvec, mzero; symmetry; apply sumn_zero; intros; ring).
  rewrite mvec_mmul. rewrite (mvec_ext_r 3 Hinv (mvec k Hfo _) (mvec k Hfo lv)).
  2:{ intros j _. apply mvec_ext_r. intros q Hq. unfold stack_lm. replace (ly_total l0 + q <? sizes (ly_order l0))%nat with false by (symmetry; apply Nat.ltb_ge; lia). f_equal. lia. }
  rewrite (mvec_ext_r 3 Hinv (fun j => extra_sum exo v j + mvec k Hfo lv j - extra_sum exn v j) (fun j => (fun q => extra_sum exo v q + 1 * mvec k Hfo lv q) j + (-1) * extra_sum exn v j)) by (intros; ring).
  rewrite mvec_lin, mvec_lin. ring.
Qed.

(** *** the new representation is regular *)
Lemma m3mat_mul A B i j : (i < 3)%nat -> (j < 3)%nat -> mmul 3 (m3mat A) (m3mat B) i j = m3mat (m3mul A B) i j.
Proof. intros Hi Hj. destruct i as [|[|[|i]]]; try lia; destruct j as [|[|[|j]]]; try lia; unfold mmul; cbn; ring. Qed.
Lemma m3mat_id i j : (i < 3)%nat -> (j < 3)%nat -> m3mat m3id i j = mid i j.
Proof. intros Hi Hj. destruct i as [|[|[|i]]]; try lia; destruct j as [|[|[|j]]]; try lia; reflexivity. Qed.
Lemma m3_invertible A B : m3mul A B = m3id -> m3mul B A = m3id -> invertible 3 (m3mat A).
Proof. intros H1 H2. exists (m3mat B). split; intros i j Hi Hj; rewrite m3mat_mul by auto; [rewrite H2|rewrite H1]; apply m3mat_id; auto. Qed.
Lemma mul_inv A A' B B' : m3mul A A' = m3id -> m3mul B B' = m3id -> m3mul (m3mul A B) (m3mul B' A') = m3id.
Proof. intros H1 H2. rewrite m3mul_assoc, <- (m3mul_assoc B B' A'), H2. replace (m3mul m3id A') with A'; [exact H1|]. destruct A'; apply m3_ext; cbn; ring. Qed.
Lemma rot_invertible Ri Rc J J' : is_rot Ri -> is_rot Rc -> m3mul J J' = m3id -> m3mul J' J = m3id -> invertible 3 (m3mat (m3mul (m3mul (m3tr Ri) (m3tr Rc)) J)).
Proof.
  intros HI HC H1 H2. apply m3_invertible with (m3mul J' (m3mul Rc Ri)).
  - apply mul_inv; auto. apply mul_inv; [apply rot_tr_l|apply rot_tr_l]; auto.
  - apply mul_inv; auto. apply mul_inv; [apply rot_tr_r|apply rot_tr_r]; auto.
Qed.
Definition full_inv_jac' (p : v3) : m3 :=
  let s := sin (vx p) in let c := cos (vx p) in let sp := sin (vy p) in let cp := cos (vy p) in let rho := vz p in
  M3 (- (rho * s / sp)) (rho * c / sp) 0 (rho * c * cp) (rho * s * cp) (- (rho * sp)) (- (rho * rho * c * sp)) (- (rho * rho * s * sp)) (- (rho * rho * cp)).
Lemma full_inv_inverse p : vz p <> 0 -> sin (vy p) <> 0 -> m3mul (full_inv_jac p) (full_inv_jac' p) = m3id /\ m3mul (full_inv_jac' p) (full_inv_jac p) = m3id.
Proof.
  intros Hz Hs. unfold full_inv_jac, full_inv_jac'. cbv zeta.
  pose proof (sin2_cos2 (vx p)) as A. pose proof (sin2_cos2 (vy p)) as B. unfold Rsqr in A, B.
  set (s := sin (vx p)) in *. set (c := cos (vx p)) in *. set (sp := sin (vy p)) in *. set (cp := cos (vy p)) in *. set (rho := vz p) in *. clearbody s c sp cp rho.
  assert (A2 : c * c = 1 - s * s) by lra. assert (B2 : cp * cp = 1 - sp * sp) by lra.
  split; apply m3_ext; cbn [m3mul m3id m00 m01 m02 m10 m11 m12 m20 m21 m22]; field_simplify_eq; auto;
  try (ring [A2 B2]); try (nra).
Qed.
Definition msckf_jac' (p : v3) : m3 := M3 (vz p) 0 (- (vx p * vz p)) 0 (vz p) (- (vy p * vz p)) 0 0 (- (vz p * vz p)).
Lemma msckf_inverse p : vz p <> 0 -> m3mul (msckf_jac p) (msckf_jac' p) = m3id /\ m3mul (msckf_jac' p) (msckf_jac p) = m3id.
Proof. intros Hz. split; apply m3_ext; cbn; field; auto. Qed.

Lemma v3norm_sq p : v3norm p * v3norm p = v3dot p p.
Proof. unfold v3norm. apply sqrt_sqrt. destruct p; unfold v3dot; cbn. nra. Qed.
Lemma full_inv_sin p : (vx p <> 0 \/ vy p <> 0) -> vz (full_inv_of p) <> 0 /\ sin (vy (full_inv_of p)) <> 0.
Proof.
  intros H. assert (N : p <> v3zero) by (intros ->; cbn in H; lra). pose proof (v3norm_pos p N) as P. pose proof (v3norm_sq p) as Q.
  unfold full_inv_of. cbv zeta. cbn [vy vz]. split; [apply Rgt_not_eq; apply Rdiv_lt_0_compat; lra|].
  set (n := v3norm p) in *. clearbody n. unfold v3dot in Q. set (u := 1 / n * vz p).
  assert (U : u * u < 1).
  { unfold u. replace (1 / n * vz p * (1 / n * vz p)) with (vz p * vz p / (n * n)) by (field; lra). apply (Rmult_lt_reg_r (n * n)); [nra|]. unfold Rdiv. rewrite Rmult_assoc, Rinv_l by nra. rewrite Q. destruct H; nra. }
  rewrite sin_acos by nra. apply Rgt_not_eq. apply sqrt_lt_R0. unfold Rsqr. lra.
Qed.
Lemma rot_nonzero r u : is_rot r -> u <> v3zero -> m3v r u <> v3zero.
Proof. intros H N E. apply N. rewrite <- (rot_forth r u H), E. destruct r; apply v3_ext; cbn; ring. Qed.
Lemma new_jac e f Hf n ex ca cl q : rep_jac e f = Ok (Hf, n, ex) -> is_relative (hf_rep f) = true ->
  he_calib e (Z.to_nat (hf_acam f)) = Some ca -> he_clone e (hf_atime f) = Some cl -> is_rot (po_R cl) -> is_rot (lin_R e cl) -> is_rot (ca_R ca) ->
  to_global (lin_R e cl) (lin_p e cl) (ca_R ca) (ca_p ca) q = to_global (po_R cl) (po_p cl) (ca_R ca) (ca_p ca) (hf_pA f) -> regular_at (hf_rep f) q ->
  n = phisize (hf_rep f) /\ (hf_rep f <> AnchSingle -> invertible 3 Hf) /\ (hf_rep f = AnchSingle -> exists h, Hf = col h /\ h <> v3zero).
Proof.
  intros E Rl ECA ECL H1 H2 H3 EG [X XF]. destruct (rep_jac_shape e f Hf n ex E Rl) as (Ri & pi & Rc & pc & pA & EA & En & _ & _).
  destruct (anchor_point_ok e f _ EA) as (ca' & cl' & Eca & Ecl & pA' & Epp & _ & EG').
  rewrite ECA in Eca. rewrite ECL in Ecl. injection Eca as <-. injection Ecl as <-. injection Epp as -> -> -> -> ->.
  assert (pA' = q) by (apply (to_global_inj (lin_R e cl) (lin_p e cl) (ca_R ca) (ca_p ca)); auto; rewrite EG; apply EG'; auto). subst pA'.
  split; [exact En|]. unfold rep_jac in E. rewrite EA in E. cbn [obind] in E.
  destruct (hf_rep f) eqn:ER; try discriminate Rl; injection E as <- <- _; cbn [expressible] in X.
  - split; [|discriminate]. intros _. apply m3_invertible with (m3mul (ca_R ca) (lin_R e cl)); [apply mul_inv; apply rot_tr_l; auto|apply mul_inv; apply rot_tr_r; auto].
  - split; [|discriminate]. intros _. destruct (full_inv_sin q (XF eq_refl)) as [S1 S2]. destruct (full_inv_inverse (full_inv_of q) S1 S2). eapply rot_invertible; eauto.
  - split; [|discriminate]. intros _. assert (S1 : vz (msckf_of q) <> 0) by (unfold msckf_of; cbn [vz]; unfold Rdiv; rewrite Rmult_1_l; apply Rinv_neq_0_compat; exact X). destruct (msckf_inverse (msckf_of q) S1). eapply rot_invertible; eauto.
  - split; [congruence|]. intros _. eexists. split; [reflexivity|]. intros Z.
    rewrite m3v_mul in Z. revert Z. apply rot_nonzero; [apply is_rot_tr; auto|]. apply rot_nonzero; [apply is_rot_tr; auto|].
    intros Z. apply (f_equal vz) in Z. cbn in Z. apply X. apply (f_equal (fun u => u * - (1 / vz q * (1 / vz q)))) in Z. revert Z. 
    replace (- (1 / (1 / vz q * (1 / vz q))) * (1 / vz q * vz q) * - (1 / vz q * (1 / vz q))) with (1) by (field; auto). lra.
Qed.

Lemma rep_eq_single (r : rep) : r = AnchSingle \/ r <> AnchSingle. Proof. destruct r; auto; right; discriminate. Qed.
Lemma now_feat e f Hf n ex : rep_jac e f = Ok (Hf, n, ex) -> is_relative (hf_rep f) = true -> exists ca cl pG,
  he_calib e (Z.to_nat (hf_acam f)) = Some ca /\ he_clone e (hf_atime f) = Some cl /\ feat_global e f = Ok (pG, pG) /\
  pG = to_global (po_R cl) (po_p cl) (ca_R ca) (ca_p ca) (hf_pA f) /\ now_global e f = Some pG.
Proof.
  intros E Rl. destruct (rep_jac_shape e f Hf n ex E Rl) as (Ri & pi & Rc & pc & pA & EA & _).
  unfold anchor_point in EA. unfold feat_global, now_global. rewrite Rl. destruct (hf_acam f =? -1)%Z; [discriminate|].
  destruct (cam_at (he_calib e) (hf_acam f)) as [ca| |] eqn:EC; cbn [obind] in EA |- *; try discriminate.
  destruct (at_ (he_clone e (hf_atime f))) as [cl| |] eqn:EL; cbn [obind] in EA |- *; try discriminate.
  apply cam_at_ok in EC. apply at_ok in EL. exists ca, cl. eexists. rewrite EC, EL. split; [reflexivity|]. split; [reflexivity|]. rewrite to_global_alt. auto.
Qed.
Lemma start_point f m q : starts f m q -> vec_derive 3 (mo_lam m) 0 (mo_lv m) -> feat_xyz (hf_rep f) (mo_b m) (mo_lam m 0) = q.
Proof. intros (X & L & B) D. apply (feat_derive (hf_rep f) q (mo_b m) (mo_lam m) 0 (mo_lv m) X B L D). Qed.
Lemma with_lam_lin e m lam lv b : motion_lin e m -> vec_derive 3 lam 0 lv -> motion_lin e (with_lam m lam lv b).
Proof. intros (A & B & C & D) H. unfold motion_lin, with_lam. cbn. auto. Qed.

Lemma phi_re_expresses e r fo fn Hfo no exo Hfn nn exn l P : rep_jac e fo = Ok (Hfo, no, exo) -> rep_jac e fn = Ok (Hfn, nn, exn) ->
  hf_rep fo = r -> hf_rep fn = r -> is_relative r = true -> now_global e fn = now_global e fo -> anchor_phi r (Hfo, no, exo) (Hfn, nn, exn) = Ok (l, P) ->
  re_expresses e r fo fn (ly_order l) P.
Proof.
  intros Eo En Ro Rn Rl NG EP. destruct (anchor_row _ _ _ _ _ _ _ _ _ EP) as [L Row].
  intros m lamn lvn bn qo qn g ML So Mo No Sn Mn Reg Dn Lvn.
  assert (Rlo : is_relative (hf_rep fo) = true) by (rewrite Ro; exact Rl). assert (Rln : is_relative (hf_rep fn) = true) by (rewrite Rn; exact Rl).
  destruct (now_feat e fo _ _ _ Eo Rlo) as (cao & clo & pG & C1 & C2 & F1 & G1 & N1).
  destruct (now_feat e fn _ _ _ En Rln) as (can & cln & pG' & C3 & C4 & F2 & G2 & N2).
  assert (Q1 : pG = g) by congruence. assert (Q2 : pG' = g) by congruence. rewrite Q1 in F1, G1, N1. rewrite Q2 in F2, G2, N2. clear Q1 Q2 pG pG'.
  assert (MLn : motion_lin e (with_lam m lamn lvn bn)) by (apply with_lam_lin; auto).
  assert (Wo : vec_derive 3 (fun s => v3vec (moving_feat fo m s)) 0 (fun i => mvec no Hfo (mo_lv m) i + extra_sum exo (mo_v m) i)).
  { apply (lin_start e fo m qo g g Hfo no exo); auto. unfold lin_global. rewrite Rlo, N1. congruence. }
  assert (Wn : forall lam' lv', starts fn (with_lam m lam' lv' bn) qn -> vec_derive 3 lam' 0 lv' ->
     vec_derive 3 (fun s => v3vec (moving_feat fn (with_lam m lam' lv' bn) s)) 0 (fun i => mvec nn Hfn lv' i + extra_sum exn (mo_v m) i)).
  { intros lam' lv' S' D'. apply (lin_start e fn (with_lam m lam' lv' bn) qn g g Hfn nn exn); auto; [apply with_lam_lin; auto|].
    unfold lin_global. rewrite Rln, N2. f_equal. rewrite <- Mn. unfold moving_feat. rewrite Rln.
    cbn [with_lam mo_R mo_p mo_cR mo_cp mo_b mo_lam]. f_equal.
    transitivity qn; [exact (start_point fn (with_lam m lam' lv' bn) qn S' D')|symmetry; exact (start_point fn (with_lam m lamn lvn bn) qn Sn Dn)]. }
  pose proof (Wn lamn lvn Sn Dn) as Wn1.
  destruct ML as (ML1 & ML2 & _). destruct (ML1 _ _ C4) as (P1 & P2 & P3 & P4 & _). destruct (ML2 _ _ C3) as (P5 & P6 & P7 & _).
  assert (Reg' : regular_at (hf_rep fn) qn) by (rewrite Rn; exact Reg).
  destruct (new_jac e fn Hfn nn exn can cln qn En Rln C3 C4 P3 P4 P7) as (Enn & Inv & Sing); auto.
  { rewrite <- G2. rewrite <- Mn. unfold moving_feat. rewrite Rln. cbn [with_lam mo_R mo_p mo_cR mo_cp]. rewrite P1, P2, P5, P6.
    f_equal. symmetry. exact (start_point fn (with_lam m lamn lvn bn) qn Sn Dn). }
  rewrite Rn in Enn, Inv, Sing. subst nn.
  assert (no = phisize r). { destruct (rep_jac_shape e fo Hfo no exo Eo Rlo) as (? & ? & ? & ? & ? & _ & H & _). rewrite Ro in H. exact H. } subst no.
  set (res := fun j => extra_sum exo (mo_v m) j + mvec (phisize r) Hfo (mo_lv m) j - extra_sum exn (mo_v m) j) in *.
  assert (LV : forall i, (i < phisize r)%nat -> lvn i = mvec 3 (new_inv r Hfn) res i) by (intros i Hi; rewrite Lvn by exact Hi; apply Row; exact Hi).
  eexists. eexists. split; [exact Wo|]. split; [exact Wn1|].
  assert (EQ : r <> AnchSingle -> forall i, (i < 3)%nat -> mvec (phisize r) Hfn lvn i + extra_sum exn (mo_v m) i = mvec (phisize r) Hfo (mo_lv m) i + extra_sum exo (mo_v m) i).
  { intros NS i Hi. specialize (Inv NS). assert (K3 : phisize r = 3%nat) by (destruct r; try reflexivity; congruence). rewrite K3. rewrite K3 in LV.
    assert (NI : new_inv r Hfn = geninv 3 Hfn) by (destruct r; try reflexivity; congruence).
    rewrite (mvec_ext_r 3 Hfn lvn (mvec 3 (geninv 3 Hfn) res)) by (intros j Hj; rewrite LV, NI by exact Hj; reflexivity).
    rewrite <- mvec_mmul. rewrite (mvec_ext_l 3 (mmul 3 Hfn (geninv 3 Hfn)) mid) by (intros; apply geninv_r; auto).
    replace (mvec 3 mid res i) with (res i); [unfold res; rewrite K3; ring|]. destruct i as [|[|[|i]]]; try lia; unfold mvec; cbn; unfold mid; cbn; ring. }
  split; [exact EQ|].
  intros lam' lv' w' S' D' W'. pose proof (Wn lam' lv' S' D') as W2.
  assert (U : forall i, (i < 3)%nat -> w' i = mvec (phisize r) Hfn lv' i + extra_sum exn (mo_v m) i).
  { intros i Hi. pose proof (is_derive_unique _ _ _ (W' i Hi)) as U1. pose proof (is_derive_unique _ _ _ (W2 i Hi)) as U2. rewrite <- U1. rewrite <- U2. reflexivity. }
  destruct (rep_eq_single r) as [->|NS].
  - destruct (Sing eq_refl) as (h & EH & HN). cbn [phisize] in *. subst Hfn. unfold dist2. rewrite !U by lia. rewrite !col_vec.
    pose proof (LV 0%nat ltac:(lia)) as LV0. unfold new_inv in LV0. rewrite mvec_scal in LV0. unfold mvec in LV0. cbn [sumn] in LV0. unfold mtr, col in LV0. cbn [v3vec] in LV0.
    assert (Q : forall i, mvec 1 Hfo (mo_lv m) i + extra_sum exo (mo_v m) i = res i + extra_sum exn (mo_v m) i) by (intros i; unfold res; ring). rewrite !Q.
    set (x := lvn 0%nat) in *. set (y := lv' 0%nat) in *. set (r0 := res 0%nat) in *. set (r1 := res 1%nat) in *. set (r2 := res 2%nat) in *.
    set (e0 := extra_sum exn (mo_v m) 0%nat). set (e1 := extra_sum exn (mo_v m) 1%nat). set (e2 := extra_sum exn (mo_v m) 2%nat).
    destruct h as [a b c]. cbn [v3scal v3vec vx vy vz] in *.
    assert (HP : 0 < a * a + b * b + c * c). { destruct (Req_dec a 0) as [->|]; [|nra]. destruct (Req_dec b 0) as [->|]; [|nra]. destruct (Req_dec c 0) as [->|]; [|nra]. exfalso. apply HN. reflexivity. }
    assert (XE : x * (a * a + b * b + c * c) = a * r0 + b * r1 + c * r2). { rewrite LV0. field. lra. }
    clearbody x y r0 r1 r2 e0 e1 e2. clear - HP XE.
    assert (K : (y * a + e0 - (r0 + e0)) * (y * a + e0 - (r0 + e0)) + (y * b + e1 - (r1 + e1)) * (y * b + e1 - (r1 + e1)) + (y * c + e2 - (r2 + e2)) * (y * c + e2 - (r2 + e2)) =
      (x * a + e0 - (r0 + e0)) * (x * a + e0 - (r0 + e0)) + (x * b + e1 - (r1 + e1)) * (x * b + e1 - (r1 + e1)) + (x * c + e2 - (r2 + e2)) * (x * c + e2 - (r2 + e2))
      + (y - x) * (y - x) * (a * a + b * b + c * c) + 2 * (y - x) * (x * (a * a + b * b + c * c) - (a * r0 + b * r1 + c * r2))) by ring.
    rewrite K, XE. replace (a * r0 + b * r1 + c * r2 - (a * r0 + b * r1 + c * r2)) with 0 by ring. pose proof (Rle_0_sqr (y - x)) as S0. unfold Rsqr in S0. pose proof (Rmult_le_pos _ _ S0 (Rlt_le _ _ HP)). lra.
  - unfold dist2. rewrite !EQ by (auto; lia). match goal with |- ?a <= _ => replace a with 0 by ring end. apply Rplus_le_le_0_compat; [apply Rplus_le_le_0_compat|]; apply Rle_0_sqr.
Qed.
