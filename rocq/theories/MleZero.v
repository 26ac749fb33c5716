(** C92: when the cost of the least-squares problem vanishes. *)
From Coq Require Import Reals List Arith ZArith Bool Sorted Lia Lra.
From Coquelicot Require Import Coquelicot.
From Verif Require Import RBool Outcome GeoModel GeoSpec GeoProofs ExpProofs ExpSeries Lin EquivProofs TypesModel ImuModel ImuSpec DbModel DbSpec InitModel StateModel PropModel CamModel HelpModel HelpSpec CpiModel CpiSpec CpiProofs CpiEx CpiJac CeresModel CeresSpec CeresQuat CeresImg CeresZero CeresPrior
  DynModel DynSpec DynGuess MleModel MleSpec MleBuild.
Import ListNotations.
Open Scope R_scope.

(** ** a turn has one rotation vector *)
Lemma mexp_unique M E E' : is_mexp M E -> is_mexp M E' -> E = E'.
Proof.
  intros (A0 & A1 & A2 & A3 & A4 & A5 & A6 & A7 & A8) (B0 & B1 & B2 & B3 & B4 & B5 & B6 & B7 & B8).
  assert (U : forall f, entry_series f M E -> entry_series f M E' -> f E = f E').
  { intros f H H'. apply is_series_unique in H. apply is_series_unique in H'. congruence. }
  apply m3_ext; apply U; assumption.
Qed.
Lemma norm_0 : v3norm v3zero = 0.
Proof. unfold v3norm, v3dot. cbn. replace (0 * 0 + 0 * 0 + 0 * 0) with 0 by ring. apply sqrt_0. Qed.
Lemma mexp_zero E : is_mexp (skew_x v3zero) E <-> E = m3id.
Proof.
  assert (H : is_mexp (skew_x v3zero) m3id).
  { replace m3id with (exp_so3 v3zero); [apply exp_so3_is_mexp; left; apply norm_0|]. rewrite exp_so3_eq by (left; apply norm_0). apply m3_ext; cbn; ring. }
  split; [intros A; exact (mexp_unique _ _ _ A H)|intros ->; exact H].
Qed.

Lemma rod_trace u a b : m3trace (rodrigues u a b) = 3 - 2 * b * (v3norm u * v3norm u).
Proof. rewrite v3norm_sq. unfold m3trace, v3dot. cbn. ring. Qed.
Lemma cos_inj a b : 0 <= a < PI -> 0 <= b < PI -> cos a = cos b -> a = b.
Proof.
  intros A B E. destruct (Rtotal_order a b) as [H|[H|H]]; [|exact H|].
  - assert (cos b < cos a) by (apply cos_decreasing_1; lra). lra.
  - assert (cos a < cos b) by (apply cos_decreasing_1; lra). lra.
Qed.
Lemma mexp_cos u E : is_mexp (skew_x u) E -> m3trace E = 1 + 2 * cos (v3norm u).
Proof.
  intros H. destruct (Req_dec (v3norm u) 0) as [Z|Z].
  - rewrite Z, cos_0. apply v3norm_zero in Z as ->. apply mexp_zero in H as ->. unfold m3trace. cbn. ring.
  - pose proof (v3norm_nonneg u). rewrite (mexp_unique _ _ _ H (rod_mexp u ltac:(lra))), rod_trace. field. exact Z.
Qed.
Lemma mexp_inj u u' E : v3norm u < PI -> v3norm u' < PI -> is_mexp (skew_x u) E -> is_mexp (skew_x u') E -> u = u'.
Proof.
  intros L L' H H'. pose proof (v3norm_nonneg u) as P. pose proof (v3norm_nonneg u') as P'.
  assert (N : v3norm u = v3norm u'). { apply cos_inj; [lra|lra|]. apply mexp_cos in H. apply mexp_cos in H'. lra. }
  destruct (Req_dec (v3norm u) 0) as [Z|Z]. { rewrite (v3norm_zero u Z). rewrite N in Z. rewrite (v3norm_zero u' Z). reflexivity. }
  pose proof (mexp_unique _ _ _ H (rod_mexp u ltac:(lra))) as X. pose proof (mexp_unique _ _ _ H' (rod_mexp u' ltac:(lra))) as X'. rewrite <- N in X'. rewrite X in X'. clear X H H'.
  assert (S : 0 < sin (v3norm u) / v3norm u). { apply Rdiv_lt_0_compat; [apply sin_gt_0|]; lra. }
  set (s := sin (v3norm u) / v3norm u) in *. set (c := (1 - cos (v3norm u)) / (v3norm u * v3norm u)) in *. clearbody s c.
  destruct u as [x y z], u' as [x' y' z']. unfold rodrigues in X'.
  pose proof (f_equal (fun M => m21 M - m12 M) X') as Q1. pose proof (f_equal (fun M => m02 M - m20 M) X') as Q2. pose proof (f_equal (fun M => m10 M - m01 M) X') as Q3. cbn in Q1, Q2, Q3.
  f_equal; apply Rmult_eq_reg_l with (2 * s); lra.
Qed.
Lemma rot_cancel q A B : unit_q q -> m3mul (quat_2_Rot q) A = m3mul (quat_2_Rot q) B -> A = B.
Proof.
  intros U E. destruct (quat_2_Rot_is_rot q U) as (H1 & H2 & _). apply (f_equal (m3mul (m3tr (quat_2_Rot q)))) in E. rewrite <- !m3mul_assoc in E.
  first [rewrite H1 in E | rewrite H2 in E]. rewrite !m3mul_id_l in E. exact E.
Qed.
Lemma turn_unique u u' q' q : unit_q q' -> turn_of u q' q -> turn_of u' q' q -> u = u'.
Proof.
  intros U (L & E & H & Q) (L' & E' & H' & Q'). rewrite Q in Q'. apply rot_cancel in Q'; [|exact U]. subst E'. eapply mexp_inj; eauto.
Qed.
Lemma turn_zero u q' q : unit_q q' -> turn_of u q' q -> (u = v3zero <-> quat_2_Rot q = quat_2_Rot q').
Proof.
  intros U T. split.
  - intros ->. destruct T as (_ & E & H & Q). apply mexp_zero in H as ->. rewrite Q. apply m3_ext; cbn; ring.
  - intros Q. apply (turn_unique u v3zero q' q U T). split; [rewrite norm_0; apply PI_RGT_0|]. exists m3id. split; [apply mexp_zero; reflexivity|]. rewrite Q. apply m3_ext; cbn; ring.
Qed.

(** ** diagonal weights *)
Definition weights (n : nat) (A : mat) : Prop := forall i j, (i < n)%nat -> (j < n)%nat -> if Nat.eqb i j then 0 < A i j else A i j = 0.
Lemma diag_quad n A x : weights n A -> quad n A x = sumn n (fun i => A i i * (x i * x i)).
Proof.
  intros W. unfold quad. apply sumn_ext. intros i Hi. rewrite (sumn_delta n i); [ring|exact Hi|]. intros j Hj Q. specialize (W i j Hi Hj). destruct (Nat.eqb_spec i j); [congruence|]. rewrite W. ring.
Qed.
Lemma sumn_all_zero n f : (forall i, (i < n)%nat -> 0 <= f i) -> sumn n f = 0 -> forall i, (i < n)%nat -> f i = 0.
Proof.
  induction n as [|n IH]; intros P E i Hi; [lia|]. cbn [sumn] in E. pose proof (P n ltac:(lia)). pose proof (sumn_nonneg n f ltac:(intros; apply P; lia)).
  destruct (Nat.eq_dec i n) as [->|Q]; [lra|]. apply IH; [intros; apply P; lia|lra|lia].
Qed.
Lemma weights_zero n A x : weights n A -> 0 <= quad n A x /\ (quad n A x = 0 <-> forall i, (i < n)%nat -> x i = 0).
Proof.
  intros W. rewrite (diag_quad n A x W). assert (D : forall i, (i < n)%nat -> 0 < A i i) by (intros i Hi; specialize (W i i Hi Hi); rewrite Nat.eqb_refl in W; exact W).
  assert (P : forall i, (i < n)%nat -> 0 <= A i i * (x i * x i)). { intros i Hi. pose proof (Rle_0_sqr (x i)) as Q. unfold Rsqr in Q. pose proof (D i Hi). apply Rmult_le_pos; lra. }
  split; [apply sumn_nonneg, P|]. split.
  - intros E i Hi. pose proof (sumn_all_zero n _ P E i Hi) as Q. cbv beta in Q. apply Rmult_integral in Q. destruct Q as [Q|Q]; [pose proof (D i Hi); lra|]. apply Rmult_integral in Q. tauto.
  - intros E. apply sumn_zero. intros i Hi. rewrite E by exact Hi. ring.
Qed.
Lemma first_weights : weights 10 first_info.
Proof. intros i j _ _. unfold first_info. destruct (Nat.eqb i j); [|reflexivity]. destruct (i <? 4)%nat; [|destruct (i <? 7)%nat]; lra. Qed.
Lemma ext_weights : weights 6 ext_info.
Proof. intros i j _ _. unfold ext_info. destruct (Nat.eqb i j); [|reflexivity]. destruct (i <? 3)%nat; lra. Qed.
Lemma int_weights : weights 8 int_info.
Proof. intros i j _ _. unfold int_info. destruct (Nat.eqb i j); [|reflexivity]. destruct (i <? 4)%nat; lra. Qed.

(** ** the terms *)
Definition term_is (A : assign) (t : term) (Z : Prop) : Prop := exists v, term_sq A t = Ok v /\ 0 <= v /\ (v = 0 <-> Z).
Lemma prior_is F n ni x ts Info f xs Z : factors F ni Info -> weights ni Info -> prior_new (fa_llt F) (fa_tri F) n ni ni x ts Info (fun _ => 0) = Ok f ->
  blocks (block_ok x) ts xs 0 0 -> (forall e, blocks (block_err x e) ts xs 0 0 -> ((forall i, (i < ni)%nat -> e i = 0) <-> Z)) ->
  exists v, (do r <- prior_eval f xs; Ok (dot ni (fst r) (fst r))) = Ok v /\ 0 <= v /\ (v = 0 <-> Z).
Proof.
  intros (L & K & E1 & Ch & E2) W N B HZ. destruct (prior_cost _ _ _ _ _ _ _ _ _ f xs N) as (e & r & Js & E & Be & D); [intros L' EL; rewrite E1 in EL; injection EL as <-; exact Ch|auto|exact B|].
  exists (quad ni Info e). rewrite E. cbn [obind fst]. rewrite D. split; [reflexivity|]. destruct (weights_zero ni Info e W) as (P & Q). split; [exact P|]. rewrite Q. apply HZ, Be.
Qed.
Lemma q4_eta q : Q4 (qx q) (qy q) (qz q) (qw q) = q. Proof. destruct q; reflexivity. Qed.
Lemma v3_parts (e : vec) (u w : v3) l : (forall i, (i < 3)%nat -> e (l + i)%nat = v3vec u i - v3vec w i) -> ((forall i, (i < 3)%nat -> e (l + i)%nat = 0) <-> u = w).
Proof.
  intros H. split.
  - intros Z. assert (G : forall i, (i < 3)%nat -> v3vec u i = v3vec w i) by (intros i Hi; specialize (Z i Hi); rewrite H in Z by exact Hi; lra).
    apply v3_ext; [apply (G 0%nat)|apply (G 1%nat)|apply (G 2%nat)]; lia.
  - intros -> i Hi. rewrite H by exact Hi. ring.
Qed.
Lemma first_is F x0 f A x l : factors F 10 first_info -> first_prior F x0 = Ok f -> as_x A = x :: l -> unit_q (cl_q x) -> near_q (cl_q x) (cl_q x0) -> term_is A (TFirst f) (anchored x0 x).
Proof.
  intros Fa N E U (U0 & Lg). unfold term_is. cbn [term_sq]. rewrite E. eapply (prior_is F 13 10 (first_lin x0) _ first_info f); [exact Fa|exact first_weights|exact N| |].
  - cbn [blocks block_ok]. change (q4at (first_lin x0) 0) with (Q4 (qx (cl_q x0)) (qy (cl_q x0)) (qz (cl_q x0)) (qw (cl_q x0))). rewrite q4_eta. repeat split; auto; try (right; left; reflexivity); apply Lg.
  - intros e. cbn [blocks block_err perr psize Nat.add]. change (q4at (first_lin x0) 0) with (Q4 (qx (cl_q x0)) (qy (cl_q x0)) (qz (cl_q x0)) (qw (cl_q x0))). rewrite q4_eta.
    intros ((u & T & Eu) & B1 & B2 & B3 & _).
    assert (P1 : forall i, (i < 3)%nat -> e (1 + i)%nat = v3vec (cl_p x) i - v3vec (cl_p x0) i). { intros i Hi. etransitivity; [exact (B1 i Hi)|]. destruct i as [|[|[|i]]]; [reflexivity..|lia]. }
    assert (P2 : forall i, (i < 3)%nat -> e (4 + i)%nat = v3vec (cl_bg x) i - v3vec (cl_bg x0) i). { intros i Hi. etransitivity; [exact (B2 i Hi)|]. destruct i as [|[|[|i]]]; [reflexivity..|lia]. }
    assert (P3 : forall i, (i < 3)%nat -> e (7 + i)%nat = v3vec (cl_ba x) i - v3vec (cl_ba x0) i). { intros i Hi. etransitivity; [exact (B3 i Hi)|]. destruct i as [|[|[|i]]]; [reflexivity..|lia]. }
    apply v3_parts in P1, P2, P3. unfold anchored. rewrite <- P1, <- P2, <- P3. split.
    + intros Z. split; [exists u; split; [exact T|rewrite <- Eu; apply Z; lia]|]. split; [|split]; intros i Hi; apply Z; lia.
    + intros ((u' & T' & Z) & Z1 & Z2 & Z3). rewrite (turn_unique _ _ _ _ U0 T' T) in Z. intros i Hi.
      destruct i as [|i]; [rewrite Eu; exact Z|]. destruct (Nat.lt_ge_cases i 3) as [H|H]; [apply (Z1 i H)|]. destruct (Nat.lt_ge_cases i 6) as [H'|H'].
      * replace (S i) with (4 + (i - 3))%nat by lia. apply Z2. lia.
      * replace (S i) with (7 + (i - 6))%nat by lia. apply Z3. lia.
Qed.
Lemma ext_is F e0 f A c e : factors F 6 ext_info -> prior_new (fa_llt F) (fa_tri F) 7 6 6 (ext_lin e0) [PQuat; PVec 3] ext_info (fun _ => 0) = Ok f -> nth_error (as_c A) c = Some e ->
  unit_q (fst e) -> near_q (fst e) (fst e0) -> term_is A (TExt f c) (quat_2_Rot (fst e) = quat_2_Rot (fst e0) /\ snd e = snd e0).
Proof.
  intros Fa N E U (U0 & Lg). unfold term_is. cbn [term_sq]. rewrite E. eapply (prior_is F 7 6 (ext_lin e0) _ ext_info f); [exact Fa|exact ext_weights|exact N| |].
  - cbn [blocks block_ok]. change (q4at (ext_lin e0) 0) with (Q4 (qx (fst e0)) (qy (fst e0)) (qz (fst e0)) (qw (fst e0))). rewrite q4_eta. repeat split; auto; try (right; left; reflexivity); apply Lg.
  - intros er. cbn [blocks block_err perr psize Nat.add]. change (q4at (ext_lin e0) 0) with (Q4 (qx (fst e0)) (qy (fst e0)) (qz (fst e0)) (qw (fst e0))). rewrite q4_eta. intros (T & B1 & _).
    assert (P1 : forall i, (i < 3)%nat -> er (3 + i)%nat = v3vec (snd e) i - v3vec (snd e0) i). { intros i Hi. etransitivity; [exact (B1 i Hi)|]. destruct i as [|[|[|i]]]; [reflexivity..|lia]. }
    apply v3_parts in P1. rewrite <- P1, <- (turn_zero _ _ _ U0 T). split.
    + intros Z. split; [|intros i Hi; apply Z; lia]. apply v3_ext; cbn; apply Z; lia.
    + intros (Z0 & Z1) i Hi. unfold seg3, v3zero in Z0. injection Z0 as X0 X1 X2. destruct i as [|[|[|i]]]; auto. apply (Z1 i). lia.
Qed.
Lemma int_is F k0 f A c k : factors F 8 int_info -> prior_new (fa_llt F) (fa_tri F) 8 8 8 k0 [PVec 8] int_info (fun _ => 0) = Ok f -> nth_error (as_k A) c = Some k ->
  term_is A (TInt f c) (veq 8 k k0).
Proof.
  intros Fa N E. unfold term_is. cbn [term_sq]. rewrite E. eapply (prior_is F 8 8 k0 _ int_info f); [exact Fa|exact int_weights|exact N| |].
  - cbn [blocks block_ok]. auto.
  - intros er. cbn [blocks block_err perr psize Nat.add]. intros (B & _). split; intros Z i Hi; specialize (Z i Hi); specialize (B i Hi); lra.
Qed.
Lemma mean_unit o l q : rates rate_ok true (yo_bg o) l -> cp_q (mean_of o l) = Some q -> unit_q q.
Proof.
  intros Hr E. set (x := mkBody m3id v3zero v3zero). destruct (moves_exists v3zero (map (piece true (yo_bg o) (yo_ba o)) l) x) as (y & My).
  destruct (means_thm true (yo_Qc o) (yo_bg o) (yo_ba o) v3zero l x y is_rot_id Hr My) as (_ & _ & _ & _ & H). apply (H q E).
Qed.
Lemma dot_sq_zero n x : 0 <= dot n x x /\ (dot n x x = 0 <-> veq n x (fun _ => 0)).
Proof.
  split; [apply sumn_nonneg; intros; apply Rle_0_sqr|]. split; [apply dot_zero|]. intros H. apply sumn_zero. intros i Hi. rewrite H by exact Hi. ring.
Qed.
Lemma imu_is F o l f A i j x y : rates rate_ok true (yo_bg o) l -> (exists I, fa_solve F (cp_P (mean_of o l)) = Some I /\ injective 15 (mtr (fa_chol F I))) ->
  imu_factor (fa_solve F) (fa_chol F) (up_gravity o) (mean_of o l) = Ok f -> nth_error (as_x A) i = Some x -> nth_error (as_x A) j = Some y -> unit_q (cl_q x) -> unit_q (cl_q y) ->
  exists q, cp_q (mean_of o l) = Some q /\ term_is A (TImu f i j) (follows (measure o l q) x y).
Proof.
  intros Hr (I & E1 & Inj) E Ex Ey Ux Uy. destruct (factor_inv _ _ _ _ _ E) as (q & S & info & Eq & E2 & -> & ->). rewrite E1 in E2. injection E2 as <-.
  exists q. split; [exact Eq|]. unfold term_is. cbn [term_sq]. rewrite Ex, Ey. eexists. split; [reflexivity|].
  match goal with |- context [imu_res ?g x y] => set (f := g) end. destruct (dot_sq_zero 15 (imu_res f x y)) as (P & Q). split; [exact P|]. rewrite Q.
  rewrite (imu_zero f x y Ux Uy (mean_unit o l q Hr Eq) Inj). reflexivity.
Qed.
Lemma ln_zero s : 0 <= s -> 0 <= ln (1 + s) /\ (ln (1 + s) = 0 <-> s = 0).
Proof.
  intros H. assert (A : 0 < s -> 0 < ln (1 + s)). { intros P. rewrite <- ln_1. apply ln_increasing; lra. }
  destruct (Req_dec s 0) as [->|N]; [rewrite Rplus_0_r, ln_1; split; [lra|tauto]|]. specialize (A ltac:(lra)). split; [lra|]. split; intros; lra.
Qed.
Lemma img_is f A i k c x p e kv : im_sigma f <> 0 -> im_gate f = 1 -> nth_error (as_x A) i = Some x -> nth_error (as_f A) k = Some p -> nth_error (as_c A) c = Some e -> nth_error (as_k A) c = Some kv ->
  term_is A (TImg f i k c) (predicted (im_cam f) kv e x p 0%nat = im_uv f 0%nat /\ predicted (im_cam f) kv e x p 1%nat = im_uv f 1%nat).
Proof.
  intros Sg G E1 E2 E3 E4. unfold term_is. cbn [term_sq]. rewrite E1, E2, E3, E4. cbv zeta. eexists. split; [reflexivity|].
  match goal with |- context [img_res f ?a] => set (a1 := a) end. destruct (dot_sq_zero 2 (img_res f a1)) as (P & Q). destruct (ln_zero _ P) as (P' & Q'). split; [exact P'|]. rewrite Q', Q.
  assert (V : forall n, (n < 2)%nat -> (img_res f a1 n = 0 <-> predicted (im_cam f) kv e x p n = im_uv f n)).
  { intros n Hn. rewrite img_value, G by exact Hn. change (pixel f a1 n) with (predicted (im_cam f) kv e x p n). split; [|intros ->; ring].
    intros Z. apply Rmult_integral in Z. destruct Z as [Z|Z]; [|lra]. exfalso. unfold Rdiv in Z. apply Rmult_integral in Z. destruct Z as [Z|Z]; [lra|]. exact (Rinv_neq_0_compat _ Sg Z). }
  rewrite <- !V by lia. split; [intros H; split; apply H; lia|]. intros (H0 & H1) [|[|n]] Hn; auto; lia.
Qed.

(** ** the sum *)
Lemma total_is A l : (forall t, In t l -> exists Z, term_is A t Z) -> exists v, total_sq A l = Ok v /\ 0 <= v /\ (v = 0 <-> forall t Z, In t l -> term_is A t Z -> Z).
Proof.
  induction l as [|t l IH]; intros H; cbn [total_sq].
  - exists 0. split; [reflexivity|]. split; [lra|]. split; [intros _ t Z []|reflexivity].
  - destruct (H t (or_introl eq_refl)) as (Z & v & E & P & Q). destruct IH as (w & E' & P' & Q'); [intros; apply H; right; auto|].
    rewrite E, E'. cbn [obind]. exists (v + w). split; [reflexivity|]. split; [lra|]. split.
    + intros S t' Z' [<-|I] T. { destruct T as (v' & Ev & _ & R). rewrite E in Ev. injection Ev as <-. apply R. lra. } apply (proj1 Q' ltac:(lra) t' Z' I T).
    + intros S. assert (v = 0). { apply Q. apply (S t Z (or_introl eq_refl)). exists v. auto. } assert (w = 0). { apply Q'. intros t' Z' I T. apply (S t' Z'); [right; exact I|exact T]. } lra.
Qed.
Lemma nth_ex {A} (l : list A) i : (i < length l)%nat -> exists x, nth_error l i = Some x.
Proof. intros H. destruct (nth_error l i) eqn:E; [eauto|]. apply nth_error_None in E. lia. Qed.
Lemma nth_uniq {A} (l : list A) i j x : NoDup l -> nth_error l i = Some x -> nth_error l j = Some x -> i = j.
Proof. intros N Hi Hj. apply (proj1 (NoDup_nth_error l) N); [apply nth_error_Some; congruence|congruence]. Qed.
Lemma about_inv P ids cams t s : about P ids cams t = Some s -> exists f i k c id cam tm, t = TImg f i k c /\ nth_error ids k = Some id /\ nth_error cams c = Some cam /\ nth_error P i = Some tm /\ s = (id, cam, tm, (im_uv f 0%nat, im_uv f 1%nat)).
Proof.
  destruct t as [| | | |f i k c]; cbn [about]; try discriminate. destruct (nth_error ids k) as [id|] eqn:E1; [|discriminate]. destruct (nth_error cams c) as [cam|] eqn:E2; [|discriminate].
  destruct (nth_error P i) as [tm|] eqn:E3; [|discriminate]. intros E. injection E as <-. exists f, i, k, c, id, cam, tm. auto 6.
Qed.
Lemma map_in_l {A B} (f : A -> option B) l m x : map f l = map Some m -> In x l -> exists y, In y m /\ f x = Some y.
Proof. intros E H. apply (in_map f) in H. rewrite E in H. apply in_map_iff in H. destruct H as (y & Q & I). eauto. Qed.
Lemma map_in_r {A B} (f : A -> option B) l m y : map f l = map Some m -> In y m -> exists x, In x l /\ f x = Some y.
Proof. intros E H. apply (in_map Some) in H. rewrite <- E in H. apply in_map_iff in H. destruct H as (x & Q & I). eauto. Qed.
Lemma span_fun o data a b l l' : span o data a b l -> span o data a b l' -> l = l'.
Proof. intros (r & E & ->) (r' & E' & ->). rewrite E in E'. injection E' as <-. reflexivity. Qed.
(** C92: the cost is defined, never negative, and zero exactly where everything fits *)
Lemma zero_thm F o d data gu pr A : built F o d data gu pr -> priors_ok F -> spans_ok F (mo_y o) data (map ptime (gu_poses gu)) ->
  steady (mo_y o) data (map ptime (gu_poses gu)) -> mo_sigma o <> 0 -> values o gu pr A ->
  exists c, cost pr A = Ok c /\ 0 <= c /\ (c = 0 <-> fits o d data gu pr A).
Proof.
  intros B (F10 & F6 & F8) Sp St Sg V. unfold built in B. cbv zeta in B. set (P := map ptime (gu_poses gu)) in *.
  destruct B as ((B1 & B0) & (B2 & _) & (B3 & _) & _ & _ & f0 & imus & cals & imgs & ET & (e0 & l0 & EP & E0) & (I1 & I2) & (C1 & C2) & G1 & G2).
  destruct V as (V1 & V2 & V3 & V4 & V5 & V6 & V7 & V8). rewrite B1 in V1. pose proof (sorted_nodup _ B0) as NP.
  assert (LP : length P = S (length l0)) by (unfold P; rewrite EP; cbn; rewrite map_length; reflexivity).
  assert (NC : NoDup (pr_cams pr)). { clear - B2. induction B2 as [|a l H IH]; constructor; [|assumption]. intros I. rewrite Forall_forall in H0. specialize (H0 a I). lia. }
  destruct (as_x A) as [|x0 xs] eqn:EX; [cbn in V1; lia|].
  assert (T0 : term_is A (TFirst f0) (anchored (start_of (mo_y o) e0) x0)).
  { apply (first_is F _ f0 A x0 xs); auto. apply V5. left. reflexivity. apply (V7 x0 xs e0 l0); auto. }
  assert (TI : forall t, In t imus -> exists i a b r x y q, next_to P i a b /\ span (mo_y o) data a b r /\ nth_error (as_x A) i = Some x /\ nth_error (as_x A) (S i) = Some y /\ cp_q (mean_of (mo_y o) r) = Some q /\ nth_error imus i = Some t /\ term_is A t (follows (measure (mo_y o) r q) x y)).
  { intros t Ht. apply In_nth_error in Ht. destruct Ht as (i & Hi). destruct (I2 i t Hi) as (f & a & b & r & -> & Hn & Hs & Hf). assert (Li : (i < length imus)%nat) by (apply nth_error_Some; congruence).
    destruct (nth_ex (as_x A) i ltac:(rewrite EX; lia)) as (x & Ex). destruct (nth_ex (as_x A) (S i) ltac:(rewrite EX; lia)) as (y & Ey).
    destruct (imu_is F (mo_y o) r f A i (S i) x y (St i a b r Hn Hs) (Sp i a b r Hn Hs) Hf Ex Ey) as (q & Eq & T); [apply V5; rewrite <- EX; eapply nth_error_In; eauto..|].
    exists i, a, b, r, x, y, q. auto 8. }
  assert (TC : forall t, In t cals -> exists c cam, nth_error (pr_cams pr) c = Some cam /\
     ((exists e e1, nth_error (as_c A) c = Some e /\ alook (yo_ext (mo_y o)) cam = Some e1 /\ nth_error cals (2 * c) = Some t /\ term_is A t (quat_2_Rot (fst e) = quat_2_Rot (fst e1) /\ snd e = snd e1)) \/
      (exists k m k1, nth_error (as_k A) c = Some k /\ alook (mo_int o) cam = Some (m, k1) /\ nth_error cals (S (2 * c)) = Some t /\ term_is A t (veq 8 k k1)))).
  { intros t Ht. apply In_nth_error in Ht. destruct Ht as (j & Hj). assert (Lj : (j < 2 * length (pr_cams pr))%nat) by (rewrite <- C1; apply nth_error_Some; congruence).
    destruct (Nat.Even_or_Odd j) as [(c & ->)|(c & ->)].
    - destruct (nth_ex (pr_cams pr) c ltac:(lia)) as (cam & Hc). destruct (C2 c cam Hc) as (e1 & m & k1 & fe & fk & Q1 & Q2 & Q3 & Q4 & Q5 & Q6).
      destruct (nth_ex (as_c A) c ltac:(lia)) as (e & He). exists c, cam. split; [exact Hc|]. left. exists e, e1. rewrite Q3 in Hj. injection Hj as <-. split; [exact He|]. split; [exact Q1|]. split; [exact Q3|].
      apply (ext_is F e1 fe A c e); auto. apply V6. eapply nth_error_In; eauto. eapply V8; eauto.
    - destruct (nth_ex (pr_cams pr) c ltac:(lia)) as (cam & Hc). destruct (C2 c cam Hc) as (e1 & m & k1 & fe & fk & Q1 & Q2 & Q3 & Q4 & Q5 & Q6).
      destruct (nth_ex (as_k A) c ltac:(lia)) as (k & Hk). exists c, cam. split; [exact Hc|]. right. exists k, m, k1. replace (2 * c + 1)%nat with (S (2 * c)) in Hj by lia. rewrite Q5 in Hj. injection Hj as <-. split; [exact Hk|]. split; [exact Q2|]. split; [exact Q5|].
      apply (int_is F k1 fk A c k); auto. }
  assert (TG : forall t, In t imgs -> exists f i k c id cam tm x p e kv m k1, t = TImg f i k c /\ In (id, cam, tm, (im_uv f 0%nat, im_uv f 1%nat)) (wanted d P (map fst (gu_feats gu))) /\
     nth_error (pr_fids pr) k = Some id /\ nth_error (pr_cams pr) c = Some cam /\ nth_error P i = Some tm /\ nth_error (as_x A) i = Some x /\ nth_error (as_f A) k = Some p /\ nth_error (as_c A) c = Some e /\ nth_error (as_k A) c = Some kv /\ alook (mo_int o) cam = Some (m, k1) /\
     term_is A t (predicted m kv e x p 0%nat = im_uv f 0%nat /\ predicted m kv e x p 1%nat = im_uv f 1%nat)).
  { intros t Ht. rewrite Forall_forall in G2. destruct (G2 t Ht) as (f & i & k & c & cam & m & k1 & -> & Hc & Hm & H1 & H2 & H3).
    destruct (map_in_l _ _ _ _ G1 Ht) as (s & Is & Ea). destruct (about_inv _ _ _ _ _ Ea) as (f' & i' & k' & c' & id & cam' & tm & Et & A1 & A2 & A3 & ->). injection Et as <- <- <- <-. rewrite Hc in A2. injection A2 as <-.
    destruct (nth_ex (as_x A) i) as (x & Ex). { rewrite EX, V1. apply nth_error_Some. congruence. }
    destruct (nth_ex (as_f A) k) as (p & Ep). { rewrite V4. apply nth_error_Some. congruence. }
    destruct (nth_ex (as_c A) c) as (e & Ee). { rewrite V2. apply nth_error_Some. congruence. }
    destruct (nth_ex (as_k A) c) as (kv & Ek). { rewrite V3. apply nth_error_Some. congruence. }
    exists f, i, k, c, id, cam, tm, x, p, e, kv, m, k1. split; [reflexivity|]. split; [exact Is|]. repeat (split; [assumption|]). subst m. apply img_is; auto. congruence. }
  destruct (total_is A (pr_terms pr)) as (v & Ev & Pv & Qv).
  { rewrite ET. intros t [<-|I]; [eauto|]. apply in_app_or in I. destruct I as [I|I]; [|apply in_app_or in I; destruct I as [I|I]].
    - destruct (TI t I) as (i & a & b & r & x & y & q & _ & _ & _ & _ & _ & _ & T). eauto.
    - destruct (TC t I) as (c & cam & _ & [(e & e1 & _ & _ & _ & T)|(k & m & k1 & _ & _ & _ & T)]); eauto.
    - destruct (TG t I) as (f & i & k & c & id & cam & tm & x & p & e & kv & m & k1 & H). eexists. apply H. }
  exists (v / 2). unfold cost. rewrite Ev. cbn [obind]. split; [reflexivity|]. split; [lra|].
  assert (HV : v / 2 = 0 <-> v = 0) by lra. rewrite HV, Qv, ET. clear HV. unfold fits. fold P. split.
  - intros H. split; [|split; [|split; [|split]]].
    + intros x l e l' X Q. rewrite EP in Q. injection Q as <- <-. rewrite EX in X. injection X as <- <-. apply (H (TFirst f0)); [left; reflexivity|exact T0].
    + intros i a b l x y q Hn Hs Ex Ey Eq. assert (Li : (i < length imus)%nat). { destruct Hn as (_ & Hn). assert (S i < length P)%nat by (apply nth_error_Some; congruence). lia. }
      destruct (nth_ex imus i Li) as (t & Ht). destruct (I2 i t Ht) as (f & a' & b' & r & -> & (N1 & N2) & Hs' & Hf). destruct Hn as (M1 & M2). rewrite M1 in N1. rewrite M2 in N2. injection N1 as <-. injection N2 as <-.
      rewrite <- (span_fun _ _ _ _ _ _ Hs Hs') in *. destruct (imu_is F (mo_y o) l f A i (S i) x y (St i a b l (conj M1 M2) Hs) (Sp i a b l (conj M1 M2) Hs) Hf Ex Ey) as (q' & Eq' & T); [apply V5; rewrite <- EX; eapply nth_error_In; eauto..|].
      rewrite Eq in Eq'. injection Eq' as <-. apply (H (TImu f i (S i))); [right; apply in_or_app; left; eapply nth_error_In; eauto|exact T].
    + intros c cam e e1 Hc He Ha. destruct (C2 c cam Hc) as (e1' & m & k1 & fe & fk & Q1 & Q2 & Q3 & Q4 & Q5 & Q6). rewrite Ha in Q1. injection Q1 as <-.
      apply (H (TExt fe c)); [right; apply in_or_app; right; apply in_or_app; left; eapply nth_error_In; eauto|]. apply (ext_is F e1 fe A c e); auto. apply V6. eapply nth_error_In; eauto. eapply V8; eauto.
    + intros c cam k m k1 Hc Hk Ha. destruct (C2 c cam Hc) as (e1 & m' & k1' & fe & fk & Q1 & Q2 & Q3 & Q4 & Q5 & Q6). rewrite Ha in Q2. injection Q2 as <- <-.
      apply (H (TInt fk c)); [right; apply in_or_app; right; apply in_or_app; left; eapply nth_error_In; eauto|]. apply (int_is F k1 fk A c k); auto.
    + intros i k c id cam t u x p e kv m k1 Iw Hi Hk Hc Hx Hp He Hkv Ha. destruct (map_in_r _ _ _ _ G1 Iw) as (tt & It & Ab). destruct (TG tt It) as (f & i' & k' & c' & id' & cam' & tm & x' & p' & e' & kv' & m' & k1' & -> & _ & A1 & A2 & A3 & A4 & A5 & A6 & A7 & A8 & T).
      cbn [about] in Ab. rewrite A1, A2, A3 in Ab. injection Ab as -> -> -> <-.
      assert (i' = i) by exact (nth_uniq P i' i t NP A3 Hi). assert (k' = k) by exact (nth_uniq _ k' k id B3 A1 Hk). assert (c' = c) by exact (nth_uniq _ c' c cam NC A2 Hc). subst i' k' c'.
      rewrite Hx in A4. rewrite Hp in A5. rewrite He in A6. rewrite Hkv in A7. rewrite Ha in A8. injection A4 as <-. injection A5 as <-. injection A6 as <-. injection A7 as <-. injection A8 as <- <-.
      apply (H _ _ ltac:(right; apply in_or_app; right; apply in_or_app; right; exact It) T).
  - intros (Z1 & Z2 & Z3 & Z4 & Z5) t Z I T.
    assert (D : forall Y, term_is A t Y -> Y -> Z). { intros Y (w & Ew & _ & Qw) y. destruct T as (w' & Ew' & _ & Qw'). rewrite Ew in Ew'. injection Ew' as <-. apply Qw', Qw, y. }
    destruct I as [<-|I]; [apply (D _ T0), (Z1 x0 xs e0 l0); auto|]. apply in_app_or in I. destruct I as [I|I]; [|apply in_app_or in I; destruct I as [I|I]].
    + destruct (TI t I) as (i & a & b & r & x & y & q & A1 & A2 & A3 & A4 & A5 & _ & T1). apply (D _ T1). eapply Z2; eauto.
    + destruct (TC t I) as (c & cam & Hc & [(e & e1 & A1 & A2 & _ & T1)|(k & m & k1 & A1 & A2 & _ & T1)]); apply (D _ T1); [eapply Z3|eapply Z4]; eauto.
    + destruct (TG t I) as (f & i & k & c & id & cam & tm & x & p & e & kv & m & k1 & -> & A0 & A1 & A2 & A3 & A4 & A5 & A6 & A7 & A8 & T1). apply (D _ T1). exact (Z5 i k c id cam tm _ x p e kv m k1 A0 A3 A1 A2 A4 A5 A6 A7 A8).
Qed.

(** C92: the true values are a minimum *)
Lemma truth_fits o d data gu pr A : steady (mo_y o) data (map ptime (gu_poses gu)) -> values o gu pr A -> truth o d data gu pr A -> fits o d data gu pr A.
Proof.
  intros St (V1 & V2 & V3 & V4 & V5 & _) (T1 & T2 & T3 & T4 & T5 & T6). unfold fits. cbv zeta. set (P := map ptime (gu_poses gu)) in *. split; [|split; [|split; [|split]]].
  - intros x l e l' X Q. destruct (T3 x l e l' X Q) as (H1 & H2). destruct (T1 x) as (B1 & B2); [rewrite X; left; reflexivity|]. split; [exact H2|]. split; [exact H1|]. destruct e as [[[t q] p] v]. split; assumption.
  - intros i a b l x x' q Hn Hs Hx Hx' Hq. destruct (T1 x (nth_error_In _ _ Hx)) as (B1 & B2). destruct (T1 x' (nth_error_In _ _ Hx')) as (B3 & B4).
    destruct (true_follows (fun _ => Some mid) (fun _ => mid) true (yo_Qc (mo_y o)) (yo_bg (mo_y o)) (yo_ba (mo_y o)) (up_gravity (mo_y o)) l x x'
      (mkCF (cp_DT (mean_of (mo_y o) l)) (up_gravity (mo_y o)) (cp_al (mean_of (mo_y o) l)) (cp_be (mean_of (mo_y o) l)) q (cp_ba (mean_of (mo_y o) l)) (cp_bw (mean_of (mo_y o) l)) (cp_Jq (mean_of (mo_y o) l)) (cp_Jb (mean_of (mo_y o) l)) (cp_Ja (mean_of (mo_y o) l)) (cp_Hb (mean_of (mo_y o) l)) (cp_Ha (mean_of (mo_y o) l)) (mtr mid))) as (_ & H).
    { apply V5, (nth_error_In _ _ Hx). } { apply V5, (nth_error_In _ _ Hx'). } { apply (St i a b l Hn Hs). }
    { unfold imu_factor. fold (mean_of (mo_y o) l). rewrite Hq. reflexivity. } { exact B1. } { exact B2. } { exact B3. } { exact B4. } { exact (T2 i a b l x x' Hn Hs Hx Hx'). }
    exact H.
  - intros c cam e e0 Hc He Ha. rewrite (T4 c cam Hc), Ha in He. injection He as <-. auto.
  - intros c cam k m k0 Hc Hk Ha. rewrite (T5 c cam Hc), Ha in Hk. injection Hk as <-. intros i _. reflexivity.
  - intros i k c id cam t u x p e kv m k0 Iw Hi Hk Hc Hx Hp He Hkv Ha. pose proof (T4 c cam Hc) as Q. rewrite He in Q. pose proof (T5 c cam Hc) as Q'. rewrite Hkv, Ha in Q'. injection Q' as ->.
    exact (T6 i k c id cam t u x p e m k0 Iw Hi Hk Hc Hx Hp (eq_sym Q) Ha).
Qed.
Lemma truth_thm F o d data gu pr A : built F o d data gu pr -> priors_ok F -> spans_ok F (mo_y o) data (map ptime (gu_poses gu)) ->
  steady (mo_y o) data (map ptime (gu_poses gu)) -> mo_sigma o <> 0 -> values o gu pr A -> truth o d data gu pr A ->
  cost pr A = Ok 0 /\ forall A', values o gu pr A' -> exists c, cost pr A' = Ok c /\ 0 <= c.
Proof.
  intros B P Sp St Sg V T. split.
  - destruct (zero_thm F o d data gu pr A B P Sp St Sg V) as (c & E & _ & Q). rewrite E. f_equal. apply Q. apply truth_fits; assumption.
  - intros A' V'. destruct (zero_thm F o d data gu pr A' B P Sp St Sg V') as (c & E & Pc & _). eauto.
Qed.
