(** Proof of C35. *)
From Coq Require Import Reals Lra Lia Psatz List ZArith Bool.
From Coquelicot Require Import Coquelicot.
From Verif Require Import RBool Outcome Lin GeoModel GeoSpec GeoProofs JacSo3 Calc3 LandModel LandSpec LandProofs CamModel CamSpec CamProofs HelpModel HelpSpec HelpGeo.
Import ListNotations.
Open Scope R_scope.

Lemma rot_tr_r r : is_rot r -> m3mul r (m3tr r) = m3id. Proof. intros H. apply H. Qed.
Lemma rot_tr_l r : is_rot r -> m3mul (m3tr r) r = m3id. Proof. intros H. apply H. Qed.
Lemma rot_back r u : is_rot r -> m3v r (m3v (m3tr r) u) = u.
Proof. intros H. rewrite <- m3v_mul, rot_tr_r by auto. apply m3v_id. Qed.
Lemma rot_forth r u : is_rot r -> m3v (m3tr r) (m3v r u) = u.
Proof. intros H. rewrite <- m3v_mul, rot_tr_l by auto. apply m3v_id. Qed.
Lemma to_global_inj Ri pi Rc pc a b : is_rot Ri -> is_rot Rc -> to_global Ri pi Rc pc a = to_global Ri pi Rc pc b -> a = b.
Proof.
  intros HI HC H. unfold to_global in H.
  assert (E : v3sub (v3add (m3v (m3tr Ri) (m3v (m3tr Rc) (v3sub a pc))) pi) pi = v3sub (v3add (m3v (m3tr Ri) (m3v (m3tr Rc) (v3sub b pc))) pi) pi) by (rewrite H; reflexivity).
  assert (F : forall u v, v3sub (v3add u v) v = u) by (intros [] []; apply v3_ext; cbn; ring).
  rewrite !F in E. apply (f_equal (m3v Ri)) in E. rewrite !rot_back in E by auto.
  apply (f_equal (m3v Rc)) in E. rewrite !rot_back in E by auto.
  apply (f_equal (fun u => v3add u pc)) in E. assert (G : forall u v, v3add (v3sub u v) v = u) by (intros [] []; apply v3_ext; cbn; ring). rewrite !G in E. exact E.
Qed.
Lemma to_global_alt Ri pi Rc pc a : v3add (m3v (m3mul (m3tr Ri) (m3tr Rc)) (v3sub a pc)) pi = to_global Ri pi Rc pc a.
Proof. unfold to_global. rewrite m3v_mul. reflexivity. Qed.
Lemma to_global_back Ri pi Rc pc g : is_rot Ri -> is_rot Rc ->
  to_global Ri pi Rc pc (v3add (m3v (m3tr (m3mul (m3tr Ri) (m3tr Rc))) (v3sub g pi)) pc) = g.
Proof.
  intros HI HC. unfold to_global. rewrite m3tr_mul, !m3tr_tr, m3v_mul.
  assert (F : forall u v, v3sub (v3add u v) v = u) by (intros [] []; apply v3_ext; cbn; ring). rewrite F.
  rewrite !rot_forth by auto. destruct g, pi. apply v3_ext; cbn; ring.
Qed.
Lemma cam_at_ok {A} (m : nat -> option A) c a : cam_at m c = Ok a -> m (Z.to_nat c) = Some a.
Proof. unfold cam_at, at_. destruct (c <? 0)%Z; [discriminate|]. destruct (m (Z.to_nat c)); congruence. Qed.
Lemma at_ok {A} (o : option A) a : at_ o = Ok a -> o = Some a. Proof. destruct o; cbn; congruence. Qed.

Lemma anchor_point_ok e f x : anchor_point e f = Ok x -> exists ca cl, he_calib e (Z.to_nat (hf_acam f)) = Some ca /\ he_clone e (hf_atime f) = Some cl /\
  exists pA, x = (lin_R e cl, lin_p e cl, ca_R ca, ca_p ca, pA) /\
   (he_fej e = false -> pA = hf_pA f) /\
   (is_rot (po_R cl) -> is_rot (lin_R e cl) -> is_rot (ca_R ca) -> to_global (lin_R e cl) (lin_p e cl) (ca_R ca) (ca_p ca) pA = to_global (po_R cl) (po_p cl) (ca_R ca) (ca_p ca) (hf_pA f)).
Proof.
  unfold anchor_point. destruct (hf_acam f =? -1)%Z; [discriminate|]. destruct (cam_at (he_calib e) (hf_acam f)) as [ca| |] eqn:EC; cbn [obind]; try discriminate.
  destruct (at_ (he_clone e (hf_atime f))) as [cl| |] eqn:EL; cbn [obind]; try discriminate.
  apply cam_at_ok in EC. apply at_ok in EL. intros H. exists ca, cl. split; [exact EC|]. split; [exact EL|].
  unfold lin_R, lin_p. destruct (he_fej e); injection H as <-; eexists; (split; [reflexivity|]; split; [try discriminate; auto|]).
  - intros H1 H2 H3. rewrite to_global_alt. apply to_global_back; auto.
  - reflexivity.
Qed.

Lemma mvec_ext_l n A B x i : (forall j, (j < n)%nat -> A i j = B i j) -> mvec n A x i = mvec n B x i.
Proof. intros H. apply sumn_ext. intros j Hj. rewrite H by exact Hj. reflexivity. Qed.
Lemma mvec_ext_r n A x y i : (forall j, (j < n)%nat -> x j = y j) -> mvec n A x i = mvec n A y i.
Proof. intros H. apply sumn_ext. intros j Hj. rewrite H by exact Hj. reflexivity. Qed.
Lemma v3vec_add a b i : v3vec (v3add a b) i = v3vec a i + v3vec b i. Proof. destruct i as [|[|i]]; reflexivity. Qed.

(** the extra Jacobians of a relative representation, as in the code *)
Definition anchor_extra (e : henv) (f : hfeat) (Ri : m3) (Rc : m3) (pc pA : v3) : list (key * mat) :=
  let R_CtoG := m3mul (m3tr Ri) (m3tr Rc) in
  (KClone (hf_atime f), beside (m3mat (m3mul (m3scal (-1) (m3tr Ri)) (skew_x (m3v (m3tr Rc) (v3sub pA pc))))) (m3mat m3id)) ::
  (if he_cal e then [(KCalib (Z.to_nat (hf_acam f)), beside (m3mat (m3mul (m3scal (-1) R_CtoG) (skew_x (v3sub pA pc)))) (m3mat (m3scal (-1) R_CtoG)))] else []).
(** shape of the result in the relative case: H_f = R_CtoG times the parameter Jacobian *)
Lemma rep_jac_shape e f Hf n ex : rep_jac e f = Ok (Hf, n, ex) -> is_relative (hf_rep f) = true -> exists Ri pi Rc pc pA,
  anchor_point e f = Ok (Ri, pi, Rc, pc, pA) /\ n = feat_cols (hf_rep f) /\ ex = anchor_extra e f Ri Rc pc pA /\
  forall l' i, (i < 3)%nat -> mvec n Hf l' i = v3vec (m3v (m3mul (m3tr Ri) (m3tr Rc)) (seg3 (mvec n (feat_jac (hf_rep f) pA) l') 0)) i.
Proof.
  unfold rep_jac. destruct (hf_rep f) eqn:ER; intros H Rl; try discriminate Rl;
  (destruct (anchor_point e f) as [[[[[Ri pi] Rc] pc] pA]| |] eqn:EA; cbn [obind] in H; try discriminate;
   injection H as <- <- <-; exists Ri, pi, Rc, pc, pA; split; [reflexivity|]; split; [reflexivity|]; split; [reflexivity|]; intros l' i Hi).
  - rewrite m3mat_vec by exact Hi. cbn [feat_jac]. f_equal. f_equal. unfold seg3. rewrite !m3mat_vec by lia. rewrite m3v_id. destruct (seg3 l' 0) eqn:E. unfold seg3 in E. injection E as <- <- <-. reflexivity.
  - rewrite m3mat_vec by exact Hi. cbn [feat_jac]. rewrite m3v_mul. f_equal. f_equal. unfold seg3 at 2. rewrite !m3mat_vec by lia. destruct (m3v (full_inv_jac (full_inv_of pA)) (seg3 l' 0)); reflexivity.
  - rewrite m3mat_vec by exact Hi. cbn [feat_jac]. rewrite m3v_mul. f_equal. f_equal. unfold seg3 at 2. rewrite !m3mat_vec by lia. destruct (m3v (msckf_jac (msckf_of pA)) (seg3 l' 0)); reflexivity.
  - rewrite col_vec. cbn [feat_jac]. unfold seg3. rewrite !col_vec. rewrite <- m3v_scal. f_equal.
Qed.

Lemma rep_relative e f Hf n ex : rep_jac e f = Ok (Hf, n, ex) -> is_relative (hf_rep f) = true ->
  exists ca cl, he_calib e (Z.to_nat (hf_acam f)) = Some ca /\ he_clone e (hf_atime f) = Some cl /\
  (is_rot (po_R cl) -> is_rot (lin_R e cl) -> is_rot (ca_R ca) ->
   forall pA, to_global (lin_R e cl) (lin_p e cl) (ca_R ca) (ca_p ca) pA = to_global (po_R cl) (po_p cl) (ca_R ca) (ca_p ca) (hf_pA f) ->
   expressible (hf_rep f) pA ->
   forall Ra pa Rc pc lam l' b (v : key -> vec),
   Ra 0 = lin_R e cl -> pa 0 = lin_p e cl -> Rc 0 = ca_R ca -> pc 0 = ca_p ca ->
   pose_moves Ra pa 0 (v (KClone (hf_atime f))) -> pose_moves Rc pc 0 (v (KCalib (Z.to_nat (hf_acam f)))) ->
   (he_cal e = false -> forall i, (i < 6)%nat -> v (KCalib (Z.to_nat (hf_acam f))) i = 0) ->
   (forall i, (i < 3)%nat -> lam 0 i = feat_params (hf_rep f) pA i) -> vec_derive 3 lam 0 l' -> (hf_rep f = AnchSingle -> b = v3scal (1 / vz pA) pA) ->
   vec_derive 3 (fun s => v3vec (to_global (Ra s) (pa s) (Rc s) (pc s) (feat_xyz (hf_rep f) b (lam s)))) 0
     (fun i => mvec n Hf l' i + extra_sum ex v i)).
Proof.
  intros H Rl. destruct (rep_jac_shape e f Hf n ex H Rl) as (Ri & pi & Rc0 & pc0 & pA' & EA & En & Ex & Eh).
  destruct (anchor_point_ok e f _ EA) as (ca & cl & Eca & Ecl & pA'' & Epp & _ & EG). injection Epp as -> -> -> -> ->.
  exists ca, cl. split; [exact Eca|]. split; [exact Ecl|]. intros H1 H2 H3 pA EGA X Ra pa Rc pc lam l' b v E1 E2 E3 E4 M1 M2 CZ L HL B.
  assert (pA'' = pA). { apply (to_global_inj (lin_R e cl) (lin_p e cl) (ca_R ca) (ca_p ca)); auto. rewrite EGA. apply EG; auto. } subst pA''.
  destruct (feat_derive (hf_rep f) pA b lam 0 l' X B L HL) as [F0 FD].
  assert (Q : v3_derive (fun s => feat_xyz (hf_rep f) b (lam s)) 0 (seg3 (mvec (feat_cols (hf_rep f)) (feat_jac (hf_rep f) pA) l') 0)).
  { split; [exact (FD 0%nat ltac:(lia))|]. split; [exact (FD 1%nat ltac:(lia))|exact (FD 2%nat ltac:(lia))]. }
  pose proof (v3vec_derive _ _ _ (to_global_derive Ra pa Rc pc _ 0 _ _ _ M1 M2 Q)) as D.
  intros i Hi. eapply is_derive_eq; [exact (D i Hi)|]. cbv beta zeta. rewrite E1, E3, E4, F0. rewrite v3vec_add. rewrite Eh by exact Hi. rewrite En. f_equal.
  rewrite Ex. unfold anchor_extra. cbv zeta. cbn [extra_sum ksize]. rewrite v3vec_add. f_equal; [rewrite beside_vec by exact Hi; reflexivity|].
  destruct (he_cal e) eqn:EC; cbn [extra_sum ksize].
  - rewrite beside_vec by exact Hi. ring.
  - assert (Z0 : seg3 (v (KCalib (Z.to_nat (hf_acam f)))) 0 = v3zero) by (unfold seg3; rewrite !CZ by (auto; lia); reflexivity).
    assert (Z3 : seg3 (v (KCalib (Z.to_nat (hf_acam f)))) 3 = v3zero) by (unfold seg3; rewrite !CZ by (auto; lia); reflexivity).
    rewrite Z0, Z3. destruct i as [|[|[|i]]]; [| | |lia]; cbn; ring.
Qed.
Lemma rep_global e f Hf n ex : rep_jac e f = Ok (Hf, n, ex) -> is_relative (hf_rep f) = false ->
  ex = [] /\ forall p, p = (if he_fej e then hf_pGf f else hf_pG f) -> expressible (hf_rep f) p ->
  forall lam l' b, (forall i, (i < 3)%nat -> lam 0 i = feat_params (hf_rep f) p i) -> vec_derive 3 lam 0 l' ->
   feat_xyz (hf_rep f) b (lam 0) = p /\
   vec_derive 3 (fun s => v3vec (feat_xyz (hf_rep f) b (lam s))) 0 (mvec n Hf l').
Proof.
  unfold rep_jac, is_relative. destruct (hf_rep f) eqn:ER; intros H Rl; try discriminate Rl.
  - injection H as <- <- <-. split; [reflexivity|]. intros p _ X lam l' b L HL. apply (feat_derive Global3D p b lam 0 l' X); auto. discriminate.
  - injection H as <- <- <-. split; [reflexivity|]. intros p -> X lam l' b L HL. apply (feat_derive GlobalFullInv _ b lam 0 l' X); auto. discriminate.
  - destruct (anchor_point e f) as [[[[[? ?] ?] ?] ?]| |]; discriminate.
Qed.
