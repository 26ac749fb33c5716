(** Proofs about the constructor of the simulator. *)
From Coq Require Import Reals Lra Lia List Arith Bool ZArith FunctionalExtensionality.
From Verif Require Import Outcome RBool GeoModel GeoSpec GeoProofs ExpProofs DbModel DbProofs FeatModel DescProofs.
From Verif Require Import BsplModel BsplSpec BsplFind BsplFeed BsplThms EvalThms SimModel SimSpec SimThms SimsModel SimsSpec.
Import ListNotations.
Open Scope R_scope.

(** ** the spline *)
Lemma pose_in l tmin dt n Rf pf t : uniform l tmin dt n -> pose_curve l Rf pf -> tmin + dt <= t < finish tmin dt n -> get_pose l t = Ok (true, (Rf t, pf t)).
Proof.
  intros (H1 & H2 & H3) C Ht. destruct (C t) as (ok & E). destruct (proj2 (window_thm l tmin dt n t H1 H2 H3) Ht) as (rp & E2).
  rewrite E in *. injection E2 as -> ->. reflexivity.
Qed.
Lemma pose_out l tmin dt n Rf pf t : uniform l tmin dt n -> pose_curve l Rf pf -> finish tmin dt n <= t -> exists rp, get_pose l t = Ok (false, rp).
Proof.
  intros (H1 & H2 & H3) C Ht. destruct (C t) as ([|] & E).
  - exfalso. pose proof (proj1 (window_thm l tmin dt n t H1 H2 H3) (ex_intro _ _ E)). unfold finish in Ht. lra.
  - eexists. exact E.
Qed.
Lemma last_key l tmin dt n st : uniform l tmin dt n -> (0 < n)%nat -> fst (last l (st, se3id)) = tmin + INR (n - 1) * dt.
Proof.
  intros (H1 & H2 & H3) Hn.
  assert (E : fst (last l (st, se3id)) = last (map fst l) st).
  { clear. induction l as [|a [|b r] IH]; [reflexivity|reflexivity|]. cbn [map last] in *. exact IH. }
  rewrite E, H3. unfold grid. destruct n as [|m]; [lia|]. rewrite seq_S, map_app. cbn [map].
  rewrite last_last. replace (S m - 1)%nat with m by lia. reflexivity.
Qed.
Lemma fuel_enough l tmin dt n st step : uniform l tmin dt n -> 0 < step -> tmin <= st ->
  finish tmin dt n <= st + INR (pass_fuel l st step - 1) * step.
Proof.
  intros U Hs Ht. assert (D : 0 < dt) by apply U. unfold pass_fuel. set (z := up _).
  assert (P : 0 <= INR (S (S (Z.to_nat z)) - 1)) by apply pos_INR.
  destruct n as [|n].
  { unfold finish. cbn [Nat.sub]. change (INR 0) with 0. set (x := INR _) in *. assert (0 <= x * step) by (apply Rmult_le_pos; lra). lra. }
  assert (L : finish tmin dt (S n) <= fst (last l (st, se3id))).
  { rewrite (last_key l tmin dt (S n) st U) by lia. unfold finish. assert (INR (S n - 2) <= INR (S n - 1)) by (apply le_INR; lia). nra. }
  set (k := fst (last l (st, se3id))) in *.
  assert (Z1 : (k - st) / step < IZR z) by (unfold z; apply archimed).
  assert (Z2 : IZR z <= INR (S (S (Z.to_nat z)) - 1)).
  { replace (S (S (Z.to_nat z)) - 1)%nat with (S (Z.to_nat z)) by lia. rewrite S_INR, INR_IZR_INZ.
    apply Rle_trans with (IZR (Z.of_nat (Z.to_nat z))); [apply IZR_le; lia|lra]. }
  assert (Z3 : (k - st) / step * step = k - st) by (field; lra).
  assert ((k - st) / step * step <= INR (S (S (Z.to_nat z)) - 1) * step) by (apply Rmult_le_compat_r; lra). lra.
Qed.

(** ** the search for motion *)
Section Motion.
Variables (l : pmap) (tmin dt : R) (n : nat) (Rf : R -> m3) (pf : R -> v3) (fc th st : R).
Hypothesis HU : uniform l tmin dt n.
Hypothesis HC : pose_curve l Rf pf.
Hypothesis Hf : 0 < fc.
Hypothesis Hst : tmin + dt <= st.
Notation T := (finish tmin dt n).
Notation tick k := (st + INR k * (1 / fc)).

Lemma step_pos : 0 < 1 / fc. Proof. apply Rdiv_lt_0_compat; lra. Qed.
Lemma find_spec fuel : forall k t ti tc d prev, t = tick k -> ti = tick k -> tc = tick k -> d = walked pf st (1 / fc) (k - 1) -> prev = pf (tick (k - 1)) ->
  (forall j, (j < k)%nat -> walked pf st (1 / fc) j <= th) -> (1 <= fuel)%nat -> T <= st + INR (k + fuel - 1) * (1 / fc) ->
  (exists j, first_beyond pf st (1 / fc) th j /\ tick j < T /\ find_motion fuel l fc th t ti tc d prev = Ok (Some (tick j, tick j, tick j))) \/
  (find_motion fuel l fc th t ti tc d prev = Exit /\ forall j, tick j < T -> walked pf st (1 / fc) j <= th).
Proof.
  pose proof step_pos as SP. assert (DP : 0 < dt) by apply HU.
  induction fuel as [|fuel IH]; intros k t ti tc d prev Et Ei Ec Ed Ep Hw H1 H2; [lia|].
  cbn [find_motion]. destruct (Rlt_le_dec t T) as [L|L].
  - assert (0 <= INR k) by apply pos_INR.
    rewrite (pose_in l tmin dt n Rf pf t HU HC) by (split; [rewrite Et; nra|exact L]). cbn [obind fst snd negb].
    assert (W : d + v3norm (v3sub (pf t) prev) = walked pf st (1 / fc) k).
    { rewrite Ed, Ep, Et. destruct k as [|k].
      - cbn [Nat.sub walked]. replace (v3sub (pf (tick 0)) (pf (tick 0))) with v3zero by (apply v3_ext; simpl; ring). rewrite norm_v3zero. ring.
      - replace (S k - 1)%nat with k by lia. reflexivity. }
    rewrite W. destruct (Rltb_spec th (walked pf st (1 / fc) k)) as [B|B].
    + left. exists k. split; [split; auto|]. split; [lra|]. congruence.
    + destruct fuel as [|f'].
      { exfalso. replace (k + 1 - 1)%nat with k in H2 by lia. lra. }
      apply (IH (S k)); try (rewrite S_INR; lra); try (replace (S k - 1)%nat with k by lia); auto; try lia.
      * f_equal. exact Et.
      * intros j Hj. destruct (Nat.eq_dec j k) as [->|]; [lra|]. apply Hw. lia.
      * replace (S k + S f' - 1)%nat with (k + S (S f') - 1)%nat by lia. exact H2.
  - right. destruct (pose_out l tmin dt n Rf pf t HU HC L) as (rp & E). rewrite E. cbn [obind fst negb]. split; [reflexivity|].
    intros j Hj. apply Hw. apply INR_lt. rewrite Et in L. nra.
Qed.

Lemma start_spec :
  (exists k, first_beyond pf st (1 / fc) th k /\ tick k < T /\ start_times l (Some st) fc th = Ok (tick k, tick k, tick k)) \/
  (start_times l (Some st) fc th = Exit /\ forall k, tick k < T -> walked pf st (1 / fc) k <= th).
Proof.
  pose proof step_pos as SP. assert (DP : 0 < dt) by apply HU. cbn [start_times].
  destruct (Rlt_le_dec st T) as [L|L].
  - rewrite (pose_in l tmin dt n Rf pf st HU HC) by lra. cbn [obind fst snd negb].
    assert (E0 : st = tick 0) by (cbn; ring).
    destruct (find_spec (pass_fuel l st (1 / fc)) 0 st st st 0 (pf st) E0 E0 E0 eq_refl) as [(j & A & B & C)|(A & B)].
    + f_equal. exact E0.
    + intros j Hj. lia.
    + unfold pass_fuel. lia.
    + replace (0 + pass_fuel l st (1 / fc) - 1)%nat with (pass_fuel l st (1 / fc) - 1)%nat by lia. apply fuel_enough; auto; lra.
    + left. exists j. rewrite C. auto.
    + right. rewrite A. auto.
  - right. destruct (pose_out l tmin dt n Rf pf st HU HC L) as (rp & E). rewrite E. cbn [obind fst negb]. split; [reflexivity|].
    intros j Hj. exfalso. assert (0 <= INR j) by apply pos_INR. nra.
Qed.
End Motion.
Lemma first_beyond_unique pf st step th j k : first_beyond pf st step th j -> first_beyond pf st step th k -> j = k.
Proof.
  intros [A1 A2] [B1 B2]. destruct (lt_eq_lt_dec j k) as [[L| ->]|L]; [specialize (B2 j L); lra|reflexivity|specialize (A2 k L); lra].
Qed.

(** ** the copy of the options *)
Lemma copy_spec h cams : forall k cs new, copy_cams h k cams = Ok (cs, new) ->
  (forall i a, In (i, a) cams -> (a < length h)%nat) /\
  (forall i b, In (i, b) new -> (k <= b < k + length cs)%nat) /\
  (forall i, alook cams i = None -> alook new i = None) /\
  (forall i a, alook cams i = Some a -> exists j c, alook new i = Some (k + j)%nat /\ nth_error h a = Some c /\ nth_error cs j = Some c).
Proof.
  induction cams as [|[id a] r IH]; intros k cs new; cbn [copy_cams]; intros H.
  - injection H as <- <-. repeat split; intros; try contradiction; try discriminate.
  - apply obind_ok in H. destruct H as (c & Hc & H). apply look_ok in Hc.
    apply obind_ok in H. destruct H as ([cs' new'] & Hr & H). injection H as <- <-. cbn [fst snd].
    destruct (IH (S k) cs' new' Hr) as (I1 & I2 & I3 & I4). split; [|split; [|split]].
    + intros i b [E|E]; [injection E as <- <-; apply nth_error_Some; congruence|eapply I1; exact E].
    + intros i b [E|E]; [injection E as <- <-; cbn; lia|apply I2 in E; cbn; lia].
    + intros i. cbn [alook]. destruct (Nat.eqb i id); [discriminate|apply I3].
    + intros i b. cbn [alook]. destruct (Nat.eqb i id).
      * intros E. injection E as <-. exists 0%nat, c. rewrite Nat.add_0_r. split; [reflexivity|]. split; [exact Hc|].
        cbn. destruct c as [[|] cw ch cv]; reflexivity.
      * intros E. destruct (I4 i b E) as (j & c0 & J1 & J2 & J3). exists (S j), c0. split; [rewrite J1; f_equal; lia|]. split; auto.
Qed.

(** ** the perturbation *)
Lemma put_len h : forall a c, length (put h a c) = length h.
Proof. induction h as [|x h IH]; intros [|a] c; cbn; auto. Qed.
Lemma put_nth h : forall a c b, (a < length h)%nat -> nth_error (put h a c) b = if Nat.eqb b a then Some c else nth_error h b.
Proof.
  induction h as [|x h IH]; intros a c b H; [cbn in H; lia|]. destruct a as [|a], b as [|b]; cbn; auto.
  cbn in H. apply IH. lia.
Qed.
Lemma turn_ok v q : turned_by v q (rot_2_quat (m3mul (exp_so3 v) (quat_2_Rot q))).
Proof.
  split; [reflexivity|]. intros U V. apply rot_2_quat_spec. apply is_rot_mul; [apply exp_so3_is_rot; auto|apply quat_2_Rot_is_rot; auto].
Qed.
Lemma turn_ok' v v' q q' : v = v' -> q' = rot_2_quat (m3mul (exp_so3 v') (quat_2_Rot q)) -> turned_by v q q'.
Proof. intros -> ->. apply turn_ok. Qed.

Definition cam_new (w : nat -> R) (k : nat) (c c' : camobj) : Prop :=
  co_equi c' = co_equi c /\ co_w c' = co_w c /\ co_h c' = co_h c /\
  (forall r, (r < 4)%nat -> co_val c' r = co_val c r + w (k + r)%nat) /\
  (forall r, (4 <= r < 8)%nat -> co_val c' r = co_val c r + 5 / 1000 * w (k + r)%nat).
Definition ext_new (w : nat -> R) (k : nat) (e : q4 * v3) (r : option (q4 * v3)) : Prop :=
  exists q' p', r = Some (q', p') /\
    turned_by (V3 (1 / 1000 * w (k + 8)%nat) (1 / 1000 * w (k + 9)%nat) (1 / 1000 * w (k + 10)%nat)) (fst e) q' /\
    p' = v3add (snd e) (V3 (1 / 100 * w (k + 11)%nat) (1 / 100 * w (k + 12)%nat) (1 / 100 * w (k + 13)%nat)).
Record cams_done (w : nat -> R) (h : heap) (o : vopt) (m : nat) (k : nat) (h' : heap) (o' : vopt) : Prop := mkCd
  { cd_k : k = (1 + 14 * m)%nat;
    cd_o : exists e', o' = set_ext o e';
    cd_len : length h' = length h;
    cd_cam : forall i a c, (i < m)%nat -> alook (vo_cams o) i = Some a -> nth_error h a = Some c ->
       exists c', nth_error h' a = Some c' /\ cam_new w (1 + 14 * i) c c';
    cd_same : forall a, (forall i, (i < m)%nat -> alook (vo_cams o) i <> Some a) -> nth_error h' a = nth_error h a;
    cd_ext : forall i e, (i < m)%nat -> alook (vo_ext o) i = Some e -> ext_new w (1 + 14 * i) e (alook (vo_ext o') i);
    cd_esame : forall i, (m <= i)%nat -> alook (vo_ext o') i = alook (vo_ext o) i }.
Lemma cam_step w h o m k h1 o1 k2 h2 o2 : no_sharing o -> cams_done w h o m k h1 o1 -> perturb_cam w (k, h1, o1) m = Ok (k2, h2, o2) -> cams_done w h o (S m) k2 h2 o2.
Proof.
  intros NS [Hk (e1 & Ho) Hl Hc Hs He Hes] H. subst o1. cbn [perturb_cam set_ext vo_cams vo_ext] in H.
  apply obind_ok in H. destruct H as (a & Ea & H). apply look_ok in Ea.
  apply obind_ok in H. destruct H as (c & Ec & H). apply look_ok in Ec.
  apply obind_ok in H. destruct H as (e & Ee & H). apply look_ok in Ee.
  injection H as <- <- <-. cbn [vo_ext set_ext] in *.
  assert (La : (a < length h1)%nat) by (apply nth_error_Some; congruence).
  assert (NA : forall i, (i < m)%nat -> alook (vo_cams o) i <> Some a).
  { intros i Hi E. assert (i = m) by (eapply NS; eauto). lia. }
  constructor.
  - lia.
  - eexists. reflexivity.
  - rewrite put_len. exact Hl.
  - intros i b c0 Hi Eb E0. destruct (Nat.eq_dec i m) as [->|N].
    + assert (b = a) by congruence. subst b. rewrite put_nth, Nat.eqb_refl by auto. eexists. split; [reflexivity|].
      rewrite (Hs a NA), E0 in Ec. injection Ec as <-. subst k. split; [reflexivity|]. split; [reflexivity|]. split; [reflexivity|]. cbn [co_val]. split.
      * intros r Hr. apply Nat.ltb_lt in Hr. rewrite Hr. ring.
      * intros r [R1 R2]. apply Nat.ltb_ge in R1. apply Nat.ltb_lt in R2. rewrite R1, R2. reflexivity.
    + destruct (Hc i b c0) as (c' & C1 & C2); [lia|auto|auto|]. exists c'. split; [|exact C2].
      rewrite put_nth by auto. assert (b <> a) by (intros ->; apply (NA i); [lia|auto]). apply Nat.eqb_neq in H. rewrite H. exact C1.
  - intros b Hb. rewrite put_nth by auto. assert (b <> a) by (intros ->; apply (Hb m); auto). apply Nat.eqb_neq in H. rewrite H.
    apply Hs. intros i Hi. apply Hb. lia.
  - intros i e0 Hi E0. cbn [vo_ext set_ext]. rewrite alook_aset. destruct (Nat.eqb_spec i m) as [->|N].
    + rewrite (Hes m), E0 in Ee by lia. injection Ee as <-. subst k. eexists _, _. split; [reflexivity|]. split; [apply turn_ok|].
      destruct (snd e0); reflexivity.
    + apply He; [lia|auto].
  - intros i Hi. cbn [vo_ext set_ext]. rewrite alook_aset. destruct (Nat.eqb_spec i m); [lia|]. apply Hes. lia.
Qed.
Lemma cams_fold w h o cnt : no_sharing o -> forall m k h1 o1 k2 h2 o2, cams_done w h o m k h1 o1 ->
  ofold (perturb_cam w) (seq m cnt) (k, h1, o1) = Ok (k2, h2, o2) -> cams_done w h o (m + cnt) k2 h2 o2.
Proof.
  intros NS. induction cnt as [|cnt IH]; intros m k h1 o1 k2 h2 o2 D; cbn [seq ofold].
  - intros E. injection E as <- <- <-. rewrite Nat.add_0_r. exact D.
  - intros E. apply obind_ok in E. destruct E as ([[k' h'] o'] & E1 & E2).
    replace (m + S cnt)%nat with (S m + cnt)%nat by lia. eapply IH; [|exact E2]. eapply cam_step; eauto.
Qed.
Lemma perturb_spec w h o h' o' : no_sharing o -> perturb_parameters w h o = Ok (h', o') -> perturbed w h o h' o'.
Proof.
  intros NS H. unfold perturb_parameters in H. apply obind_ok in H. destruct H as ([[k h1] o1] & E1 & H).
  set (o0 := set_dt o (vo_dt o + 1 / 100 * w 0%nat)) in *. change (vo_ncam o0) with (vo_ncam o) in E1.
  assert (D : cams_done w h o0 (0 + vo_ncam o) k h1 o1).
  { eapply cams_fold; [exact NS| |exact E1]. constructor; try reflexivity; try (intros; lia).
    exists (vo_ext o0). destruct o; reflexivity. }
  cbn [plus] in D. destruct D as [Hk (e1 & Ho) Hl Hc Hs He Hes].
  assert (A : h' = h1 /\ exists dw da tg qg qa, o' = mkVopt (vo_ncam o) (vo_cams o) (vo_ext o1) (vo_dt o0) (vo_intr o) (vo_gsens o) (vo_kalibr o) dw da tg qg qa /\
     (vo_intr o = true -> (forall j, (j < 6)%nat -> dw j = vo_dw o j + 4 / 1000 * w (src o (PDw j)) /\ da j = vo_da o j + 4 / 1000 * w (src o (PDa j))) /\
        let v := V3 (2 / 1000 * w (src o (PRotI 0))) (2 / 1000 * w (src o (PRotI 1))) (2 / 1000 * w (src o (PRotI 2))) in
        if vo_kalibr o then turned_by v (vo_qgyr o) qg /\ qa = vo_qacc o else turned_by v (vo_qacc o) qa /\ qg = vo_qgyr o) /\
     (vo_gsens o = true -> forall j, (j < 9)%nat -> tg j = vo_tg o j + 4 / 1000 * w (src o (PTg j))) /\
     (vo_intr o = false -> dw = vo_dw o /\ da = vo_da o /\ qg = vo_qgyr o /\ qa = vo_qacc o) /\ (vo_gsens o = false -> tg = vo_tg o)).
  { subst o1 o0. clear - Hk H. destruct o as [nc cm ex dd b1 b3 b2 w1 w2 w3 q1 q2].
    unfold perturb_imu, perturb_tg, src in *. cbn [set_ext set_dt set_imu set_tg vo_intr vo_gsens vo_kalibr vo_dw vo_da vo_tg vo_qgyr vo_qacc vo_ext vo_cams vo_ncam vo_dt] in *.
    destruct b1, b2, b3; cbn [set_ext set_dt set_imu set_tg vo_intr vo_gsens vo_kalibr vo_dw vo_da vo_tg vo_qgyr vo_qacc vo_ext vo_cams vo_ncam vo_dt] in H;
    injection H as <- <-; (split; [reflexivity|]); do 5 eexists; (split; [reflexivity|]);
    (split; [intros Q; first [discriminate Q|split; [intros j Hj; cbv beta; cbn [set_ext set_dt set_imu set_tg vo_intr vo_gsens vo_kalibr vo_dw vo_da vo_tg vo_qgyr vo_qacc vo_ext vo_cams vo_ncam vo_dt]; apply Nat.ltb_lt in Hj; rewrite Hj; split; f_equal; f_equal; f_equal; lia|
       cbv zeta; split; [subst k; eapply turn_ok'; [|reflexivity]; f_equal; f_equal; f_equal; lia|reflexivity]]]|]);
    (split; [intros Q; first [discriminate Q|intros j Hj; cbv beta; cbn [set_ext set_dt set_imu set_tg vo_intr vo_gsens vo_kalibr vo_dw vo_da vo_tg vo_qgyr vo_qacc vo_ext vo_cams vo_ncam vo_dt]; apply Nat.ltb_lt in Hj; rewrite Hj; f_equal; f_equal; f_equal; lia]|]);
    (split; intros Q; first [discriminate Q|repeat split; reflexivity]). }
  destruct A as (-> & dw & da & tg & qg & qa & -> & A1 & A2 & A3 & A4).
  constructor; cbn [vo_intr vo_gsens vo_kalibr vo_dw vo_da vo_tg vo_qgyr vo_qacc vo_ext vo_cams vo_ncam vo_dt]; auto.
  - intros i q p Hi E. destruct (He i (q, p) Hi E) as (q' & p' & X1 & X2 & X3). exists q', p'. unfold src. rewrite !Nat.add_0_r, <- !(Nat.add_assoc (1 + 14 * i)). auto.
  - repeat split; auto.
Qed.
Lemma src_inj o p q : valid o p -> valid o q -> src o p = src o q -> p = q.
Proof.
  destruct p, q; cbn [valid src]; intros V W E; try (exfalso; lia); try (destruct V as [V1 V2], W as [W1 W2]; rewrite ?V1, ?W1 in E; try (exfalso; lia)).
  all: try (destruct (vo_intr o); try discriminate; exfalso; lia).
  all: try reflexivity; try (f_equal; lia).
Qed.
