(** Zero-velocity update: the stack, the gate and the update. *)
From Coq Require Import Reals List Arith Lia Lra Bool ZArith.
From Coquelicot Require Import Coquelicot.
From Verif Require Import RBool Outcome Lin GeoModel GeoSpec GeoProofs TypesModel GivensModel GivensSpec StateModel StateSpec PdInv
  StateLin StateEkf StateOps StateOps2 StateOps3 StateInit ReachModel ReachSpec StateReach StateFrame StateThms ManifoldSpec
  DbModel DbSpec DbThms InitModel InitSpec InitDisp UpdModel UpdSpec UpdProofs2 ImuModel ImuSpec PropModel PropSpec Calc3 HelpThms ZuptModel ZuptSpec.
From Verif Require Import FastThms.
Import ListNotations.
Open Scope R_scope.

(** ** the stack *)
Lemma row_same zo x o i m p H res r : (6 * i <= r < 6 * i + 6)%nat ->
  let '(H', res') := zupt_row zo x o i m p H res in
  let k := (r - 6 * i)%nat in
  let w := weight (zo_noise zo) (i_t p - i_t m) k in
  let q := po_q (io_pose o) in
  res' r = - (w * (if (k <? 3)%nat then vnth (z_what x o m) k else vnth (v3sub (z_ahat x o m) (m3v (qo_R q) (V3 0 0 (zo_grav zo)))) (k - 3))) /\
  (forall c, (c < 9)%nat -> (forall c, H r c = 0) -> H' r c = w * rest_jac (if ps_dofej x then qo_Rfej q else qo_R q) (zo_grav zo) k c).
Proof.
  intros Hr. unfold zupt_row. cbv zeta. set (k := (r - 6 * i)%nat). assert (Ek : r = (6 * i + k)%nat) by (unfold k; lia).
  assert (Hk : (k < 6)%nat) by (unfold k; lia). rewrite Ek. clearbody k. clear Hr Ek r.
  set (q := po_q (io_pose o)). set (Rl := if ps_dofej x then qo_Rfej q else qo_R q).
  split.
  { unfold set_seg, v3v, weight.
    set (a := z_what x o m). set (b := v3sub (z_ahat x o m) (m3v (qo_R q) (V3 0 0 (zo_grav zo)))). clearbody a b.
    assert (K : (k = 0 \/ k = 1 \/ k = 2 \/ k = 3 \/ k = 4 \/ k = 5)%nat) by lia. destruct K as [->|[->|[->|[->|[->| ->]]]]].
    all: repeat match goal with |- context [Nat.leb ?a ?b] => destruct (Nat.leb_spec a b); [|try (exfalso; lia)]; try (exfalso; lia) end.
    all: repeat match goal with |- context [Nat.ltb ?a ?b] => destruct (Nat.ltb_spec a b); [|try (exfalso; lia)]; try (exfalso; lia) end.
    all: cbn [andb].
    all: try (replace (6 * i + 0 - 6 * i)%nat with 0%nat by lia); try (replace (6 * i + 1 - 6 * i)%nat with 1%nat by lia);
      try (replace (6 * i + 2 - 6 * i)%nat with 2%nat by lia); try (replace (6 * i + 3 - (6 * i + 3))%nat with 0%nat by lia);
      try (replace (6 * i + 4 - (6 * i + 3))%nat with 1%nat by lia); try (replace (6 * i + 5 - (6 * i + 3))%nat with 2%nat by lia).
    all: unfold v3scal; cbn [vnth vx vy vz Nat.sub]; unfold Rdiv; ring. }
  { intros c Hc H0. unfold put3, set_block, b3, rest_jac, weight.
    assert (K : (k = 0 \/ k = 1 \/ k = 2 \/ k = 3 \/ k = 4 \/ k = 5)%nat) by lia.
    assert (C : (c = 0 \/ c = 1 \/ c = 2 \/ c = 3 \/ c = 4 \/ c = 5 \/ c = 6 \/ c = 7 \/ c = 8)%nat) by lia.
    destruct K as [->|[->|[->|[->|[->| ->]]]]]; destruct C as [->|[->|[->|[->|[->|[->|[->|[->| ->]]]]]]]].
    all: repeat match goal with |- context [Nat.leb ?a ?b] => destruct (Nat.leb_spec a b); [|try (exfalso; lia)]; try (exfalso; lia) end.
    all: repeat match goal with |- context [Nat.ltb ?a ?b] => destruct (Nat.ltb_spec a b); [|try (exfalso; lia)]; try (exfalso; lia) end.
    all: cbn [andb].
    all: try (replace (6 * i + 0 - 6 * i)%nat with 0%nat by lia); try (replace (6 * i + 1 - 6 * i)%nat with 1%nat by lia);
      try (replace (6 * i + 2 - 6 * i)%nat with 2%nat by lia); try (replace (6 * i + 3 - (6 * i + 3))%nat with 0%nat by lia);
      try (replace (6 * i + 4 - (6 * i + 3))%nat with 1%nat by lia); try (replace (6 * i + 5 - (6 * i + 3))%nat with 2%nat by lia).
    all: rewrite ?H0; cbn; try ring. }
Qed.
Lemma row_other zo x o i m p H res r : (r < 6 * i \/ 6 * i + 6 <= r)%nat ->
  let '(H', res') := zupt_row zo x o i m p H res in res' r = res r /\ (forall c, H' r c = H r c).
Proof.
  intros Hr. unfold zupt_row. cbv zeta. unfold set_seg, put3, set_block. split.
  { repeat match goal with |- context [Nat.leb ?a r] => destruct (Nat.leb_spec a r) end;
    repeat match goal with |- context [Nat.ltb r ?a] => destruct (Nat.ltb_spec r a) end; cbn [andb]; try reflexivity; exfalso; lia. }
  { intros c. repeat match goal with |- context [Nat.leb ?a r] => destruct (Nat.leb_spec a r) end;
    repeat match goal with |- context [Nat.ltb r ?a] => destruct (Nat.ltb_spec r a) end; cbn [andb]; try reflexivity; exfalso; lia. }
Qed.

Definition z_rows zo x o i0 (l : list imu) (H : mat) (res : vec) : Prop :=
  forall i m p r, nth_error l i = Some m -> nth_error l (S i) = Some p -> (r < 6)%nat ->
    let w := weight (zo_noise zo) (i_t p - i_t m) r in
    let q := po_q (io_pose o) in
    (forall c, (c < 9)%nat -> H (6 * (i0 + i) + r)%nat c = w * rest_jac (if ps_dofej x then qo_Rfej q else qo_R q) (zo_grav zo) r c) /\
    res (6 * (i0 + i) + r)%nat = - (w * (if (r <? 3)%nat then vnth (z_what x o m) r else vnth (v3sub (z_ahat x o m) (m3v (qo_R q) (V3 0 0 (zo_grav zo)))) (r - 3))).

Lemma loop_rows zo x o : forall l i0 H res sum H' res' sum', zupt_loop zo x o i0 l H res sum = Ok (H', res', sum') ->
  (forall r c, (6 * i0 <= r)%nat -> H r c = 0) ->
  nondecreasing l /\ sum' = sum + durations l /\
  (forall r, (r < 6 * i0)%nat -> res' r = res r /\ forall c, H' r c = H r c) /\ z_rows zo x o i0 l H' res'.
Proof.
  induction l as [|m [|p l] IH]; intros i0 H res sum H' res' sum' E Z.
  - cbn in E. injection E as <- <- <-. cbn. split; [exact I|]. split; [ring|]. split; [auto|]. intros i a b r A. destruct i; discriminate.
  - cbn in E. injection E as <- <- <-. cbn. split; [exact I|]. split; [ring|]. split; [auto|]. intros i a b r _ B. destruct i; discriminate.
  - cbn [zupt_loop] in E. destruct (Rleb_spec 0 (i_t p - i_t m)) as [D|D]; cbn [guard] in E; [|discriminate].
    pose proof (fun r => row_other zo x o i0 m p H res r) as RO. pose proof (fun r => row_same zo x o i0 m p H res r) as RS.
    destruct (zupt_row zo x o i0 m p H res) as [H1 res1]. cbv zeta in RS.
    destruct (IH (S i0) H1 res1 _ H' res' sum' E) as (N & S1 & Keep & Rows).
    { intros r c Hr. destruct (RO r) as [_ R]; [lia|]. rewrite R. apply Z. lia. }
    split; [split; [lra|exact N]|]. split; [rewrite S1; cbn [durations]; lra|]. split.
    + intros r Hr. destruct (Keep r) as [K1 K2]; [lia|]. destruct (RO r) as [O1 O2]; [lia|]. rewrite K1, O1. split; [reflexivity|].
      intros c. rewrite K2, O2. reflexivity.
    + intros i a b r Ha Hb Hr. destruct i as [|i].
      * injection Ha as <-. injection Hb as <-. cbv zeta. rewrite Nat.add_0_r.
        destruct (RS (6 * i0 + r)%nat) as [E1 E2]; [lia|]. destruct (Keep (6 * i0 + r)%nat) as [K1 K2]; [lia|].
        replace (6 * i0 + r - 6 * i0)%nat with r in * by lia. split.
        { intros c Hc. rewrite K2. apply E2; auto. intros c'. apply Z. lia. }
        { rewrite K1. exact E1. }
      * replace (i0 + S i)%nat with (S i0 + i)%nat by lia. exact (Rows i a b r Ha Hb Hr).
Qed.

Lemma loop_total zo x o : forall l i0 H res sum, nondecreasing l -> exists r, zupt_loop zo x o i0 l H res sum = Ok r.
Proof.
  induction l as [|m [|p l] IH]; intros i0 H res sum N; [eexists; reflexivity|eexists; reflexivity|].
  destruct N as [A N]. cbn [zupt_loop]. destruct (Rleb_spec 0 (i_t p - i_t m)); [|exfalso; lra]. cbn [guard].
  destruct (zupt_row zo x o i0 m p H res). apply IH. exact N.
Qed.
Lemma loop_only_forward zo x o : forall l i0 H res sum, ~ nondecreasing l -> zupt_loop zo x o i0 l H res sum = UB.
Proof.
  induction l as [|m [|p l] IH]; intros i0 H res sum N; [exfalso; apply N; exact I|exfalso; apply N; exact I|].
  cbn [zupt_loop]. destruct (Rleb_spec 0 (i_t p - i_t m)) as [D|D]; cbn [guard]; [|reflexivity].
  destruct (zupt_row zo x o i0 m p H res). apply IH. intros M. apply N. split; [lra|exact M].
Qed.

Lemma what_eq x o m : z_what x o m = rest_rate x (wo_val (io_bg o)) (wo_val (io_ba o)) m.
Proof. unfold z_what, z_ahat, rest_rate. rewrite !m3v_mul. reflexivity. Qed.
Lemma ahat_eq x o m g Rq : v3sub (z_ahat x o m) (m3v Rq (V3 0 0 g)) = rest_force x Rq (wo_val (io_ba o)) g m.
Proof. unfold z_ahat, rest_force. rewrite m3v_mul. reflexivity. Qed.

Lemma loop_stack zo x o l H res sum : zupt_loop zo x o 0 l mzero (fun _ => 0) 0 = Ok (H, res, sum) ->
  let q := po_q (io_pose o) in
  nondecreasing l /\ sum = durations l /\
  rest_stack (zo_noise zo) (zo_grav zo) x (qo_R q) (if ps_dofej x then qo_Rfej q else qo_R q) (wo_val (io_bg o)) (wo_val (io_ba o)) l H res.
Proof.
  intros E q. destruct (loop_rows _ _ _ _ _ _ _ _ _ _ _ E) as (N & S & _ & Rw); [reflexivity|]. split; [exact N|]. split; [rewrite S; ring|].
  intros i m p r A B Hr. destruct (Rw i m p r A B Hr) as [R1 R2]. cbv zeta in *. split; [exact R1|].
  cbn [Nat.add] in R2. rewrite R2. fold q. rewrite what_eq, ahat_eq. reflexivity.
Qed.

(** ** the Jacobian *)
Lemma rest_rate_derive x bg ba m dbg dba :
  let Dw := m3mul (quat_2_Rot (ps_qw x)) (Dm (ps_model x) (ps_dw x)) in
  let Da := m3mul (quat_2_Rot (ps_qa x)) (Dm (ps_model x) (ps_da x)) in
  v3_derive (fun s => rest_rate x (shift s dbg bg) (shift s dba ba) m) 0
    (m3v Dw (v3sub (m3v (Tg_of (ps_tg x)) (m3v Da dba)) dbg)).
Proof.
  cbv zeta. unfold rest_rate, shift. rewrite !m3v_mul.
  eapply v3_derive_eq.
  { apply v3d_lin, v3d_lin, v3d_sub; [apply v3d_sub; [apply v3d_const|apply v3d_id]|].
    apply v3d_lin, v3d_lin, v3d_lin, v3d_sub; [apply v3d_const|apply v3d_id]. }
  f_equal. f_equal. rewrite !m3v_sub. set (T := m3v (Tg_of (ps_tg x)) _). set (U := m3v (Tg_of (ps_tg x)) (m3v _ (m3v _ dba))).
  assert (T = v3zero). { unfold T. clear. unfold v3zero. destruct (Tg_of (ps_tg x)), (quat_2_Rot (ps_qa x)), (Dm (ps_model x) (ps_da x)). cbn. apply v3_ext; cbn; ring. }
  rewrite H. apply v3_ext; cbn; ring.
Qed.
Lemma rest_force_derive x q ba g m th dba : unit_q q ->
  let Da := m3mul (quat_2_Rot (ps_qa x)) (Dm (ps_model x) (ps_da x)) in
  v3_derive (fun s => rest_force x (quat_2_Rot (turn s th q)) (shift s dba ba) g m) 0
    (v3neg (v3add (m3v Da dba) (m3v (skew_x (m3v (quat_2_Rot q) (V3 0 0 g))) th))).
Proof.
  intros U. cbv zeta. unfold rest_force, shift, turn. rewrite m3v_mul.
  eapply v3_derive_eq.
  { apply v3d_sub; [apply v3d_lin, v3d_lin, v3d_sub; [apply v3d_const|apply v3d_id]|].
    apply v3d_mv; [apply update_rot_derive; exact U|apply v3d_const]. }
  cbv beta. rewrite update_rot_0 by exact U. rewrite m3v_mul. set (r := m3v (quat_2_Rot q) (V3 0 0 g)). rewrite !m3v_sub.
  set (A := m3v (quat_2_Rot (ps_qa x)) (m3v (Dm (ps_model x) (ps_da x)) dba)).
  assert (Z : m3v (quat_2_Rot (ps_qa x)) (m3v (Dm (ps_model x) (ps_da x)) v3zero) = v3zero).
  { destruct (quat_2_Rot (ps_qa x)), (Dm (ps_model x) (ps_da x)). apply v3_ext; cbn; ring. }
  rewrite Z. destruct (quat_2_Rot q). apply v3_ext; cbn; ring.
Qed.

Lemma v3_derive_unique f x a b : v3_derive f x a -> v3_derive f x b -> a = b.
Proof.
  intros (A1 & A2 & A3) (B1 & B2 & B3). apply v3_ext.
  - rewrite <- (is_derive_unique _ _ _ A1). apply is_derive_unique. exact B1.
  - rewrite <- (is_derive_unique _ _ _ A2). apply is_derive_unique. exact B2.
  - rewrite <- (is_derive_unique _ _ _ A3). apply is_derive_unique. exact B3.
Qed.
Lemma rest_rows R0 g th dbg dba :
  let J := mvec 9 (rest_jac R0 g) (fun c => nth c (vlist th ++ vlist dbg ++ vlist dba) 0) in
  rows3 J 0 = v3neg dbg /\ rows3 J 3 = v3neg (v3add dba (m3v (skew_x (m3v R0 (V3 0 0 g))) th)).
Proof.
  cbv zeta. unfold rows3, mvec, rest_jac, vlist. split; apply v3_ext; cbn; ring.
Qed.
Lemma m3_by_cols A B : (forall v, m3v A v = m3v B v) -> A = B.
Proof.
  intros H. pose proof (H (V3 1 0 0)) as H1. pose proof (H (V3 0 1 0)) as H2. pose proof (H (V3 0 0 1)) as H3.
  destruct A, B. cbn in H1, H2, H3. injection H1 as a1 a2 a3. injection H2 as b1 b2 b3. injection H3 as c1 c2 c3.
  apply m3_ext; cbn; lra.
Qed.

Lemma rest_jac_exact_iff x q bg ba g m : unit_q q ->
  (rest_jac_exact x q bg ba g m <->
   m3mul (quat_2_Rot (ps_qw x)) (Dm (ps_model x) (ps_dw x)) = m3id /\
   m3mul (quat_2_Rot (ps_qa x)) (Dm (ps_model x) (ps_da x)) = m3id /\ Tg_of (ps_tg x) = m3zero).
Proof.
  intros U. split.
  - intros H.
    assert (A : forall dbg dba, m3v (m3mul (quat_2_Rot (ps_qw x)) (Dm (ps_model x) (ps_dw x)))
        (v3sub (m3v (Tg_of (ps_tg x)) (m3v (m3mul (quat_2_Rot (ps_qa x)) (Dm (ps_model x) (ps_da x))) dba)) dbg) = v3neg dbg).
    { intros dbg dba. destruct (H v3zero dbg dba) as [H1 _]. cbv zeta in H1. rewrite (proj1 (rest_rows _ _ _ _ _)) in H1.
      exact (v3_derive_unique _ _ _ _ (rest_rate_derive x bg ba m dbg dba) H1). }
    assert (B : forall dba, m3v (m3mul (quat_2_Rot (ps_qa x)) (Dm (ps_model x) (ps_da x))) dba = dba).
    { intros dba. destruct (H v3zero v3zero dba) as [_ H1]. cbv zeta in H1. rewrite (proj2 (rest_rows _ _ _ _ _)) in H1.
      pose proof (v3_derive_unique _ _ _ _ (rest_force_derive x q ba g m v3zero dba U) H1) as E. cbv zeta in E.
      set (P := m3v _ dba) in *. set (Q := m3v (skew_x _) v3zero) in *. clearbody P Q.
      destruct P, Q, dba. cbn in E. injection E as E1 E2 E3. apply v3_ext; cbn; lra. }
    assert (EA : m3mul (quat_2_Rot (ps_qa x)) (Dm (ps_model x) (ps_da x)) = m3id).
    { apply m3_by_cols. intros v. rewrite B, m3v_id. reflexivity. }
    assert (EW : m3mul (quat_2_Rot (ps_qw x)) (Dm (ps_model x) (ps_dw x)) = m3id).
    { apply m3_by_cols. intros v. specialize (A (v3neg v) v3zero). rewrite EA, m3v_id in A.
      replace (v3sub (m3v (Tg_of (ps_tg x)) v3zero) (v3neg v)) with v in A by (destruct (Tg_of (ps_tg x)); apply v3_ext; cbn; ring).
      rewrite A, m3v_id. apply v3_ext; cbn; ring. }
    split; [exact EW|]. split; [exact EA|]. apply m3_by_cols. intros v. specialize (A v3zero v). rewrite EW, EA, !m3v_id in A.
    set (P := m3v _ v) in *. clearbody P. destruct P. cbn in A. injection A as E1 E2 E3. apply v3_ext; cbn; lra.
  - intros (EW & EA & ET) th dbg dba. cbv zeta.
    rewrite (proj1 (rest_rows _ _ _ _ _)), (proj2 (rest_rows _ _ _ _ _)). split.
    + eapply v3_derive_eq; [apply rest_rate_derive|]. rewrite EW, EA, ET, !m3v_id. apply v3_ext; cbn; ring.
    + eapply v3_derive_eq; [apply rest_force_derive; exact U|]. rewrite EA, m3v_id. reflexivity.
Qed.
