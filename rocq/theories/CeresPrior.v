(** C91: proofs about Factor_GenericPrior. *)
From Coq Require Import Reals List Bool Arith Lia Lra Psatz.
From Coquelicot Require Import Coquelicot.
From Verif Require Import RBool Outcome GeoModel GeoSpec GeoProofs ExpProofs ExpSeries JacSo3 Calc3 Lin TypesModel ManifoldSpec StateModel StateEkf PropModel CamModel CamSpec HelpModel HelpSpec HelpAsm HelpRep HelpGeo CpiModel CeresModel CeresSpec CeresQuat CeresImg CeresImu CeresZero CeresLog.
Import ListNotations.
Open Scope R_scope.

(** ** construction *)
Lemma prior_new_unknown llt tri n ni ng x ts Info grad t : In t ts -> known t = false -> prior_new llt tri n ni ng x ts Info grad = Exit.
Proof.
  intros H K. unfold prior_new, guard. assert (E : forallb known ts = false). { apply not_true_is_false. intros A. rewrite forallb_forall in A. rewrite (A t H) in K. discriminate. }
  rewrite E. reflexivity.
Qed.
Lemma prior_new_ok llt tri n ni ng x ts Info grad f : prior_new llt tri n ni ng x ts Info grad = Ok f ->
  (forall t, In t ts -> known t = true) /\ n = total psize ts /\ ni = total perr ts /\ ng = total perr ts /\
  exists L Inv, llt ni Info = Some L /\ tri ni (mtr L) = Some Inv /\ f = mkPF ts x (mtr L) (mvec ni Inv grad).
Proof.
  unfold prior_new. intros E. apply guard_ok in E; [|discriminate]. destruct E as (K & E). apply guard_ok in E; [|discriminate]. destruct E as (Q & E).
  apply andb_true_iff in Q as (Q & Q3). apply andb_true_iff in Q as (Q1 & Q2). apply Nat.eqb_eq in Q1, Q2, Q3.
  rewrite forallb_forall in K. do 4 (split; auto). destruct (llt ni Info) as [L|]; [|discriminate]. destruct (tri ni (mtr L)) as [Inv|] eqn:ET; [|discriminate].
  injection E as <-. exists L, Inv. auto.
Qed.
Lemma prior_new_bad llt tri n ni ng x ts Info grad : (forall t, In t ts -> known t = true) ->
  n <> total psize ts \/ ni <> total perr ts \/ ng <> total perr ts -> prior_new llt tri n ni ng x ts Info grad = UB.
Proof.
  intros K H. unfold prior_new, guard. assert (E : forallb known ts = true) by (apply forallb_forall; exact K). rewrite E.
  destruct (Nat.eqb_spec n (total psize ts)), (Nat.eqb_spec ni (total perr ts)), (Nat.eqb_spec ng (total perr ts)); cbn; auto. lia.
Qed.
Lemma prior_new_nan llt tri n ni ng x ts Info grad : (forall t, In t ts -> known t = true) ->
  n = total psize ts -> ni = total perr ts -> ng = total perr ts ->
  llt ni Info = None \/ (exists L, llt ni Info = Some L /\ tri ni (mtr L) = None) -> prior_new llt tri n ni ng x ts Info grad = Exit.
Proof.
  intros K -> -> -> H. unfold prior_new, guard. assert (E : forallb known ts = true) by (apply forallb_forall; exact K). rewrite E, !Nat.eqb_refl. cbn.
  destruct H as [->|(L & -> & ->)]; reflexivity.
Qed.

(** ** the loop *)
Definition one_r (lin : vec) (t : ptype) (x : pval) (g : nat) : vec :=
  match t, x with
  | PQuat, VQ q => v3vec (v3neg (theta_err q (q4at lin g)))
  | PYaw, VQ q => fun _ => - vz (theta_err q (q4at lin g))
  | PVec _, VV v => fun i => v i - lin (g + i)%nat
  | _, _ => fun _ => 0
  end.
Definition one_J (f : pfac) (t : ptype) (x : pval) (l g : nat) : mat :=
  match t, x with
  | PQuat, VQ q => pad4 (mmul 3 (col_from (pf_S f) l) (m3mat (prior_H (q4at (pf_lin f) g) q)))
  | PYaw, VQ q => pad4 (mmul 1 (col_from (pf_S f) l) (fun _ j => m3mat (prior_H (q4at (pf_lin f) g) q) 2%nat j))
  | _, _ => col_from (pf_S f) l
  end.
Fixpoint raw_r (lin : vec) (ts : list ptype) (xs : list pval) (l g : nat) (i : nat) : R :=
  match ts, xs with
  | t :: ts', x :: xs' => if ((l <=? i) && (i <? l + perr t))%nat%bool then one_r lin t x g (i - l)%nat else raw_r lin ts' xs' (l + perr t) (g + psize t) i
  | _, _ => 0
  end.
Fixpoint raw_J (f : pfac) (ts : list ptype) (xs : list pval) (l g : nat) : list mat :=
  match ts, xs with t :: ts', x :: xs' => one_J f t x l g :: raw_J f ts' xs' (l + perr t) (g + psize t) | _, _ => [] end.
Definition shape (t : ptype) (x : pval) (_ _ : nat) : Prop :=
  match t, x with (PQuat | PYaw), VQ _ => True | PVec n, VV _ => (n = 1 \/ n = 3 \/ n = 8)%nat | _, _ => False end.
Lemma blocks_imp {A} (P Q : ptype -> A -> nat -> nat -> Prop) : (forall t x l g, P t x l g -> Q t x l g) ->
  forall ts xs l g, blocks P ts xs l g -> blocks Q ts xs l g.
Proof. intros H. induction ts as [|t ts IH]; destruct xs as [|x xs]; cbn; auto. intros l g (A1 & A2). auto. Qed.
Lemma ok_shape lin : forall ts xs l g, blocks (block_ok lin) ts xs l g -> blocks shape ts xs l g.
Proof. apply blocks_imp. intros t x l g. destruct t, x; cbn; tauto. Qed.
Lemma one_ok f t x l g : shape t x l g -> prior_one f t x l g = Ok (one_r (pf_lin f) t x g, one_J f t x l g).
Proof.
  destruct t, x; cbn [shape prior_one one_r one_J]; try tauto; intros H.
  unfold guard, known. destruct H as [->|[->| ->]]; reflexivity.
Qed.
Lemma raw_low lin : forall ts xs l g i, (i < l)%nat -> raw_r lin ts xs l g i = 0.
Proof.
  induction ts as [|t ts IH]; intros xs l g i H; [destruct xs; reflexivity|]. destruct xs as [|x xs]; [reflexivity|]. cbn [raw_r].
  destruct (Nat.leb_spec l i); [lia|]. cbn [andb]. apply IH. lia.
Qed.
Lemma loop_ok f : forall ts xs l g res, blocks shape ts xs l g -> exists r, prior_loop f ts xs l g res = Ok (r, raw_J f ts xs l g) /\
  forall i, r i = if ((l <=? i) && (i <? l + total perr ts))%nat%bool then raw_r (pf_lin f) ts xs l g i else res i.
Proof.
  induction ts as [|t ts IH]; intros [|x xs] l g res H; cbn [blocks] in H; try tauto.
  - exists res. split; [reflexivity|]. intros i. cbn [total fold_right]. destruct (Nat.leb_spec l i), (Nat.ltb_spec i (l + 0)); cbn; auto. lia.
  - destruct H as (H1 & H2). cbn [prior_loop]. rewrite (one_ok f t x l g H1). cbn [obind fst snd].
    destruct (IH xs _ _ (fun i => if ((l <=? i) && (i <? l + perr t))%nat%bool then one_r (pf_lin f) t x g (i - l)%nat else res i) H2) as (r & E & Hr).
    rewrite E. cbn [obind fst snd]. exists r. split; [reflexivity|]. intros i. rewrite Hr. cbn [total fold_right raw_r]. fold (total perr ts).
    destruct (Nat.leb_spec (l + perr t) i), (Nat.ltb_spec i (l + perr t + total perr ts)), (Nat.leb_spec l i), (Nat.ltb_spec i (l + (perr t + total perr ts))), (Nat.ltb_spec i (l + perr t)); cbn; auto; lia.
Qed.
Lemma eval_ok f xs : blocks shape (pf_types f) xs 0 0 ->
  exists r, prior_eval f xs = Ok (r, raw_J f (pf_types f) xs 0 0) /\
  forall i, r i = mvec (total perr (pf_types f)) (pf_S f) (raw_r (pf_lin f) (pf_types f) xs 0 0) i + pf_b f i.
Proof.
  intros H. unfold prior_eval. destruct (loop_ok f (pf_types f) xs 0 0 (fun _ => 0) H) as (r & E & Hr). rewrite E. cbn [obind fst snd].
  eexists. split; [reflexivity|]. intros i. cbv beta. f_equal. apply mvec_ext_r. intros j Hj. rewrite Hr.
  destruct (Nat.leb_spec 0 j), (Nat.ltb_spec j (0 + total perr (pf_types f))); cbn [andb]; auto; lia.
Qed.

(** ** what the rows say *)
Lemma neg_log q q' : unit_q q -> unit_q q' -> log_inside (m3mul (m3tr (quat_2_Rot q)) (quat_2_Rot q')) -> turn_of (v3neg (theta_err q q')) q' q.
Proof.
  intros U U' H. unfold theta_err. pose proof (quat_2_Rot_is_rot _ U) as (A1 & A2 & A3). pose proof (quat_2_Rot_is_rot _ U') as (B1 & B2 & B3).
  assert (RW : is_rot (m3mul (m3tr (quat_2_Rot q)) (quat_2_Rot q'))).
  { apply is_rot_mul; [apply is_rot_tr|]; apply quat_2_Rot_is_rot; auto. }
  destruct (log_inside_exp _ RW H) as (E & N & S). set (w := log_so3 _) in *. split; [rewrite neg_norm; exact N|].
  exists (exp_so3 (v3neg w)). split.
  - apply exp_so3_is_mexp. rewrite neg_norm. destruct S as [->|S]; [left; apply EvalThms.norm_v3zero|right; lra].
  - rewrite exp_so3_neg, E, m3tr_mul, m3tr_tr, <- m3mul_assoc, B1, m3mul_id_l. reflexivity.
Qed.
Lemma raw_err lin : forall ts xs l g e, blocks (block_ok lin) ts xs l g ->
  (forall i, (l <= i < l + total perr ts)%nat -> e i = raw_r lin ts xs l g i) -> blocks (block_err lin e) ts xs l g.
Proof.
  induction ts as [|t ts IH]; intros [|x xs] l g e H E; cbn [blocks] in *; auto. destruct H as (H1 & H2).
  change (total perr (t :: ts)) with (perr t + total perr ts)%nat in E. split.
  - destruct t, x; cbn [block_ok block_err] in *; try tauto.
    + destruct H1 as (U & U' & HL). cbn [perr] in E. assert (S : seg3 e l = v3neg (theta_err q (q4at lin g))).
      { unfold seg3. rewrite !E by lia. cbn [raw_r perr]. destruct (Nat.leb_spec l l); [|lia]. destruct (Nat.ltb_spec l (l + 3)); [|lia].
        destruct (Nat.leb_spec l (S l)); [|lia]. destruct (Nat.ltb_spec (S l) (l + 3)); [|lia]. destruct (Nat.leb_spec l (S (S l))); [|lia]. destruct (Nat.ltb_spec (S (S l)) (l + 3)); [|lia].
        cbn [andb one_r]. replace (l - l)%nat with 0%nat by lia. replace (S l - l)%nat with 1%nat by lia. replace (S (S l) - l)%nat with 2%nat by lia. reflexivity. }
      rewrite S. apply neg_log; auto.
    + destruct H1 as (U & U' & HL). exists (v3neg (theta_err q (q4at lin g))). split; [apply neg_log; auto|]. cbn [perr] in E. rewrite E by lia. cbn [raw_r perr].
      destruct (Nat.leb_spec l l); [|lia]. destruct (Nat.ltb_spec l (l + 1)); [|lia]. reflexivity.
    + intros i Hi. rewrite E by (cbn [perr]; lia). cbn [raw_r perr]. destruct (Nat.leb_spec l (l + i)); [|lia]. destruct (Nat.ltb_spec (l + i) (l + n)); [|lia].
      cbn [andb one_r]. replace (l + i - l)%nat with i by lia. reflexivity.
  - apply IH; auto. intros i Hi. rewrite E by lia. cbn [raw_r]. destruct (Nat.ltb_spec i (l + perr t)); [lia|]. rewrite andb_false_r. reflexivity.
Qed.
Lemma prior_value f xs : blocks (block_ok (pf_lin f)) (pf_types f) xs 0 0 ->
  exists e r Js, prior_eval f xs = Ok (r, Js) /\ blocks (block_err (pf_lin f) e) (pf_types f) xs 0 0 /\
  forall i, r i = mvec (total perr (pf_types f)) (pf_S f) e i + pf_b f i.
Proof.
  intros H. destruct (eval_ok f xs (ok_shape _ _ _ _ _ H)) as (r & E & Hr). exists (raw_r (pf_lin f) (pf_types f) xs 0 0), r, (raw_J f (pf_types f) xs 0 0).
  split; [exact E|]. split; [|exact Hr]. apply raw_err; auto.
Qed.

(** ** derivative *)
Definition one_D (lin : vec) (t : ptype) (x : pval) (d : pdir) (g : nat) : vec :=
  match t, x, d with
  | PQuat, VQ q, DQ d => v3vec (m3v (prior_H (q4at lin g) q) d)
  | PYaw, VQ q, DQ d => fun _ => vz (m3v (prior_H (q4at lin g) q) d)
  | PVec _, VV v, DV d => d
  | _, _, _ => fun _ => 0
  end.
Fixpoint raw_D (lin : vec) (ts : list ptype) (xs : list pval) (ds : list pdir) (l g : nat) (i : nat) : R :=
  match ts, xs, ds with
  | t :: ts', x :: xs', d :: ds' => if ((l <=? i) && (i <? l + perr t))%nat%bool then one_D lin t x d g (i - l)%nat else raw_D lin ts' xs' ds' (l + perr t) (g + psize t) i
  | _, _, _ => 0
  end.
Lemma theta_derive q q' d : unit_q q -> unit_q q' -> log_inside (m3mul (m3tr (quat_2_Rot q)) (quat_2_Rot q')) ->
  v3_derive (fun s => v3neg (theta_err (jpl_plus q (v3scal s d)) q')) 0 (m3v (prior_H q' q) d).
Proof.
  intros U U' H. pose proof (quat_2_Rot_is_rot _ U') as RL. pose proof RL as (B1 & B2 & B3).
  set (W := fun s => m3mul (m3tr (quat_2_Rot (jpl_plus q (v3scal s d)))) (quat_2_Rot q')).
  assert (W0 : W 0 = m3mul (m3tr (quat_2_Rot q)) (quat_2_Rot q')) by (unfold W; rewrite plus_0 by auto; reflexivity).
  pose proof (log_derive W (m3v (m3tr (quat_2_Rot q')) d)) as L.
  eapply v3_derive_eq; [apply v3d_neg; apply L|].
  - intros s. unfold W. apply is_rot_mul; [apply is_rot_tr|exact RL]. apply quat_2_Rot_is_rot. apply plus_turn. auto.
  - unfold W. eapply m3_derive_eq; [apply m3d_mul; [apply m3d_tr; apply plus_derive; auto|apply m3d_const]|].
    cbv beta. rewrite !plus_0 by auto. rewrite (m3mul_assoc (m3tr (quat_2_Rot q))), (rot_skew _ _ RL).
    assert (X : m3v (quat_2_Rot q') (m3v (m3tr (quat_2_Rot q')) d) = d) by (rewrite <- m3v_mul, B1; apply m3v_id). rewrite X.
    generalize (quat_2_Rot q) (quat_2_Rot q'). intros. rewrite <- m3mul_assoc. rewrite m3tr_mul.
    replace (m3tr (m3scal (-1) (skew_x d))) with (skew_x d) by (apply m3_ext; cbn; ring).
    generalize (m3mul (m3mul (m3tr m) (skew_x d)) m0). intros A. replace (m3mul _ m3zero) with m3zero by (apply m3_ext; cbn; ring). apply m3_ext; cbn; ring.
  - rewrite W0. exact H.
  - rewrite W0. unfold prior_H, theta_err. generalize (m3inv (Jr_so3 (log_so3 (m3mul (m3tr (quat_2_Rot q)) (quat_2_Rot q'))))) (m3tr (quat_2_Rot q')). intros A B.
    rewrite m3v_mul. generalize (m3v B d). intros. apply v3_ext; cbn; ring.
Qed.
Lemma one_derive lin t x d l g k : block_ok lin t x l g -> dir_ok t d l g -> (k < perr t)%nat ->
  is_derive (fun s => one_r lin t (pmove x d s) g k) 0 (one_D lin t x d g k).
Proof.
  destruct t, x, d; cbn [block_ok dir_ok pmove one_r one_D perr]; try tauto.
  - intros (U & U' & H) _ Hk. destruct (theta_derive q _ d U U' H) as (A & B & C). destruct k as [|[|[|k]]]; [exact A|exact B|exact C|lia].
  - intros (U & U' & H) _ Hk. destruct (theta_derive q _ d U U' H) as (_ & _ & C). exact C.
  - intros _ _ Hk. eapply is_derive_eq; [apply der_minus; [apply der_plus; [apply der_const|apply (der_mult (fun s => s) (fun _ => d k)); [apply (is_derive_id (K:=R_AbsRing))|apply der_const]]|apply der_const]|].
    cbv beta. change (0 + (1 * d k + 0 * 0) - 0 = d k). ring.
Qed.
Lemma raw_derive_all lin : forall ts xs ds l g i, blocks (block_ok lin) ts xs l g -> blocks dir_ok ts ds l g ->
  is_derive (fun s => raw_r lin ts (pmoves xs ds s) l g i) 0 (raw_D lin ts xs ds l g i).
Proof.
  induction ts as [|t ts IH]; intros [|x xs] [|d ds] l g i H D; cbn [blocks] in *; try tauto.
  - exact (der_const 0 0).
  - destruct H as (H1 & H2), D as (D1 & D2). cbn [pmoves raw_r raw_D].
    destruct (Nat.leb_spec l i), (Nat.ltb_spec i (l + perr t)); cbn [andb]; try (apply IH; auto).
    apply (one_derive lin t x d l g); auto. lia.
Qed.
Lemma split_rows N S (a b : vec) l p i : (l + p <= N)%nat -> (forall j, (j < l + p)%nat -> b j = 0) ->
  mvec N S (fun j => if ((l <=? j) && (j <? l + p))%nat%bool then a (j - l)%nat else b j) i = mvec p (col_from S l) a i + mvec N S b i.
Proof.
  intros HN HB. unfold mvec. replace N with (l + (p + (N - (l + p))))%nat at 1 2 by lia. rewrite !sumn_add.
  rewrite (sumn_zero l) by (intros j Hj; cbv beta; destruct (Nat.leb_spec l j); [lia|]; cbn [andb]; rewrite HB by lia; ring).
  rewrite (sumn_zero l (fun k => S i k * b k)) by (intros j Hj; cbv beta; rewrite HB by lia; ring).
  rewrite (sumn_zero p (fun k => S i (l + k)%nat * b (l + k)%nat)) by (intros j Hj; cbv beta; rewrite HB by lia; ring).
  rewrite !Rplus_0_l. f_equal.
  - apply sumn_ext. intros j Hj. destruct (Nat.leb_spec l (l + j)); [|lia]. destruct (Nat.ltb_spec (l + j) (l + p)); [|lia]. cbn [andb]. unfold col_from. replace (l + j - l)%nat with j by lia. reflexivity.
  - apply sumn_ext. intros j Hj. destruct (Nat.leb_spec l (l + (p + j))); [|lia]. destruct (Nat.ltb_spec (l + (p + j)) (l + p)); [lia|]. reflexivity.
Qed.
Lemma rawD_low lin : forall ts xs ds l g i, (i < l)%nat -> raw_D lin ts xs ds l g i = 0.
Proof.
  induction ts as [|t ts IH]; intros xs ds l g i H; [reflexivity|]. destruct xs as [|x xs]; [reflexivity|]. destruct ds as [|d ds]; [reflexivity|]. cbn [raw_D].
  destruct (Nat.leb_spec l i); [lia|]. cbn [andb]. apply IH. lia.
Qed.
Lemma one_predict f t x d l g i : block_ok (pf_lin f) t x l g -> dir_ok t d l g ->
  match d with DQ d => mvec 3 (local4 (one_J f t x l g)) (v3vec d) i | DV d => mvec (psize t) (one_J f t x l g) d i end =
  mvec (perr t) (col_from (pf_S f) l) (one_D (pf_lin f) t x d g) i.
Proof.
  destruct t, x, d; cbn [block_ok dir_ok one_J one_D perr psize]; try tauto; intros _ _.
  - rewrite local_pad, mvec_mmul. apply mvec_ext_r. intros k Hk. apply m3mat_vec. exact Hk.
  - rewrite local_pad, mvec_mmul. apply mvec_ext_r. intros k Hk. unfold mvec. cbn [sumn]. unfold v3vec, m3mat. cbn. ring.
Qed.
Lemma predict_all f N : forall ts xs ds l g i, blocks (block_ok (pf_lin f)) ts xs l g -> blocks dir_ok ts ds l g -> (l + total perr ts <= N)%nat ->
  ppredict ts (raw_J f ts xs l g) ds i = mvec N (pf_S f) (raw_D (pf_lin f) ts xs ds l g) i.
Proof.
  induction ts as [|t ts IH]; intros [|x xs] [|d ds] l g i H D HN; cbn [blocks] in *; try tauto.
  - symmetry. apply mvec_zero. intros; reflexivity.
  - destruct H as (H1 & H2), D as (D1 & D2). change (total perr (t :: ts)) with (perr t + total perr ts)%nat in HN.
    cbn [raw_J ppredict]. rewrite (one_predict f t x d l g i H1 D1). rewrite (IH xs ds _ _ i H2 D2) by lia.
    symmetry. cbn [raw_D]. apply split_rows; [lia|]. intros j Hj. apply rawD_low. lia.
Qed.
Lemma moved_shape lin : forall ts xs ds l g s, blocks (block_ok lin) ts xs l g -> blocks dir_ok ts ds l g -> blocks shape ts (pmoves xs ds s) l g.
Proof.
  induction ts as [|t ts IH]; intros [|x xs] [|d ds] l g s H D; cbn [blocks pmoves] in *; auto; try tauto.
  destruct H as (H1 & H2), D as (D1 & D2). split; [|apply IH; auto]. destruct t, x, d; cbn in *; tauto.
Qed.
Lemma prior_derive f xs ds : blocks (block_ok (pf_lin f)) (pf_types f) xs 0 0 -> blocks dir_ok (pf_types f) ds 0 0 ->
  exists Js r0, prior_eval f xs = Ok (r0, Js) /\ (forall s, exists r J, prior_eval f (pmoves xs ds s) = Ok (r, J)) /\
  forall i, is_derive (fun s => res_of (prior_eval f (pmoves xs ds s)) i) 0 (ppredict (pf_types f) Js ds i).
Proof.
  intros H D. destruct (eval_ok f xs (ok_shape _ _ _ _ _ H)) as (r0 & E & _).
  exists (raw_J f (pf_types f) xs 0 0), r0. split; [exact E|]. split.
  { intros s. destruct (eval_ok f (pmoves xs ds s) (moved_shape _ _ _ _ _ _ s H D)) as (r & E' & _). exists r. eexists. exact E'. }
  intros i. set (n := total perr (pf_types f)).
  apply (der_ext (fun s => mvec n (pf_S f) (raw_r (pf_lin f) (pf_types f) (pmoves xs ds s) 0 0) i + pf_b f i)).
  { intros s. destruct (eval_ok f (pmoves xs ds s) (moved_shape _ _ _ _ _ _ s H D)) as (r & E' & Hr). rewrite E'. cbn [res_of]. symmetry. apply Hr. }
  eapply is_derive_eq; [apply der_plus; [|apply der_const]|].
  - apply (mvec_derive (S i) n (pf_S f) (fun s => raw_r (pf_lin f) (pf_types f) (pmoves xs ds s) 0 0) 0 (raw_D (pf_lin f) (pf_types f) xs ds 0 0)); [|lia].
    intros k _. apply raw_derive_all; auto.
  - rewrite (predict_all f n) by auto. ring.
Qed.

(** ** the cost and the constant term *)
Lemma mvec_plus' n A x y i : mvec n A (fun k => x k + y k) i = mvec n A x i + mvec n A y i.
Proof. apply mvec_plus. Qed.
Lemma prior_cost llt tri n ni ng x ts Info grad f xs : prior_new llt tri n ni ng x ts Info grad = Ok f ->
  (forall L, llt ni Info = Some L -> cholesky ni Info L) -> (forall i, (i < ni)%nat -> grad i = 0) ->
  blocks (block_ok x) ts xs 0 0 ->
  exists e r Js, prior_eval f xs = Ok (r, Js) /\ blocks (block_err x e) ts xs 0 0 /\ dot ni r r = quad ni Info e.
Proof.
  intros N HL HG H. destruct (prior_new_ok _ _ _ _ _ _ _ _ _ _ N) as (_ & _ & E2 & _ & L & Inv & EL & _ & ->).
  destruct (prior_value (mkPF ts x (mtr L) (mvec ni Inv grad)) xs H) as (e & r & Js & EV & HB & Hr). cbn [pf_types pf_lin pf_S pf_b] in *.
  exists e, r, Js. split; [exact EV|]. split; [exact HB|]. rewrite <- (chol_quad ni Info L e (HL L EL)).
  apply dot_ext; intros i Hi; rewrite Hr, <- E2, (mvec_zero ni Inv grad i) by exact HG; ring.
Qed.
(** with the constant term: what the code solves is sqrtI b = grad *)
Lemma prior_b llt tri n ni ng x ts Info grad f : prior_new llt tri n ni ng x ts Info grad = Ok f ->
  (forall L I, llt ni Info = Some L -> tri ni (mtr L) = Some I -> inverse ni (mtr L) I) -> veq ni (mvec ni (pf_S f) (pf_b f)) grad.
Proof.
  intros N HT. destruct (prior_new_ok _ _ _ _ _ _ _ _ _ _ N) as (_ & _ & _ & _ & L & Inv & EL & ET & ->). cbn [pf_S pf_b]. destruct (HT _ _ EL ET) as (H & _).
  intros i Hi. rewrite <- mvec_mmul. rewrite (mvec_ext_l ni (mmul ni (mtr L) Inv) mid) by (intros; apply H; auto). apply mid_mvec. exact Hi.
Qed.
