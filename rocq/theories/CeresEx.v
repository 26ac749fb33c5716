(** Concrete cases for C88 to C91. *)
From Coq Require Import Reals List Bool Arith Lia Lra Psatz.
From Coquelicot Require Import Coquelicot.
From Verif Require Import RBool Outcome GeoModel GeoSpec GeoProofs ExpSeries JacSo3 Calc3 Lin TypesModel ManifoldSpec StateModel StateEkf PropModel PropSpec CamModel CamSpec HelpModel HelpSpec CpiModel CpiSpec CpiProofs CpiJac CpiEx CeresModel CeresSpec CeresQuat CeresImg CeresImu CeresRows CeresZero CeresBad CeresLog CeresPrior.
Import ListNotations.
Open Scope R_scope.

Lemma minus_then_plus x y : unit_q x -> unit_q y -> 1 / 10 ^ 8 <= v3norm (qvec (quat_multiply y (quat_inv x))) ->
  quat_2_Rot (jpl_plus x (jpl_minus y x)) = quat_2_Rot y.
Proof. intros X Y H. destruct (plus_minus x y X Y) as [(A & _)|A]; [lra|exact A]. Qed.

(** a fifth of the way round, and a rotation vector of one radian *)
Definition eq1 : q4 := Q4 0 (3 / 5) 0 (4 / 5).
Definition eq2 : q4 := Q4 (3 / 5) 0 0 (4 / 5).
Lemma eq_unit : unit_q eq1 /\ unit_q eq2.
Proof. unfold unit_q; cbn; split; lra. Qed.
Lemma one_rad : v3norm (V3 1 0 0) < PI /\ 1 / 10 ^ 8 <= sin (v3norm (V3 1 0 0) / 2).
Proof.
  assert (N : v3norm (V3 1 0 0) = 1). { unfold v3norm, v3dot. cbn [vx vy vz]. replace (1 * 1 + 0 * 0 + 0 * 0) with 1 by ring. apply sqrt_1. }
  rewrite N. pose proof PI_4. pose proof PI2_1. split; [lra|].
  assert (S : 1 / 2 - (1 / 2) ^ 3 / 6 <= sin (1 / 2)).
  { pose proof (SIN (1 / 2) ltac:(lra) ltac:(lra)) as (L & _). unfold sin_lb, sin_approx, sum_f_R0, sin_term in L. simpl in L. lra. }
  simpl in S. lra.
Qed.
Lemma eq_apart : 1 / 10 ^ 8 <= v3norm (qvec (quat_multiply eq2 (quat_inv eq1))).
Proof.
  destruct eq_unit as (A & B). rewrite multiply_pos; auto using quat_inv_unit.
  - replace (qvec _) with (V3 (12 / 25) (- (12 / 25)) (9 / 25)) by (apply v3_ext; unfold v3dot; cbn; unfold v3dot; cbn; lra).
    unfold v3norm, v3dot. cbn [vx vy vz]. apply Rle_trans with (sqrt (1 / 10 ^ 8 * (1 / 10 ^ 8))); [rewrite sqrt_square; lra|apply sqrt_le_1_alt; lra].
  - unfold v3dot; cbn; unfold v3dot; cbn; lra.
Qed.

(** a camera two metres from a point, for both distortion models *)
Definition ex_ip : ipar := mkIP eq1 (V3 1 2 3) (V3 1 2 5) eq2 (V3 0 1 2) (fun i => nth i [400; 410; 320; 240; -3 / 10; 1 / 10; 1 / 1000; 1 / 500] 0).
Lemma ex_regular c : regular c (img_pC ex_ip).
Proof.
  assert (E : img_pC ex_ip = V3 (- (48 / 25)) (961 / 625) (1348 / 625)) by (apply v3_ext; cbn; lra). rewrite E.
  split; [cbn; lra|]. destruct c; [exact I|]. unfold radius, projected. cbn.
  apply Rle_lt_trans with (sqrt (1 / 100000000 * (1 / 100000000))); [rewrite sqrt_square; lra|apply sqrt_lt_1_alt; lra].
Qed.

(** ** C90 *)
(** two states a fifth of a turn apart, moving *)
Definition ex_f : cfac := mkCF (1 / 2) (V3 0 0 10) (V3 1 0 0) (V3 0 1 0) eq2 (V3 1 1 1) (V3 0 0 1) (m3scal (1 / 2) m3id) m3id m3id (m3scal 2 m3id) m3id (mscal 3 mid).
Definition ex_c1 : clone := mkCl eq1 (V3 0 0 1) (V3 1 2 3) (V3 2 2 2) (V3 4 5 6).
Definition ex_c2 : clone := mkCl (quat_multiply eq2 eq1) (V3 0 0 2) (V3 1 0 3) (V3 2 2 2) (V3 4 5 7).
Lemma ex_c2_unit : unit_q (cl_q ex_c2).
Proof. destruct eq_unit. apply mult_unit; auto. Qed.
Lemma ex_qb : imu_qb ex_f ex_c1 = qid.
Proof. rewrite qb_small. replace (m3v _ _) with (v3scal 0 v3zero) by (apply v3_ext; cbn; ring). apply small_0. Qed.
Lemma ex_q12 : imu_q12 ex_c1 ex_c2 = eq2.
Proof.
  destruct eq_unit as (A & B). unfold imu_q12. cbn [ex_c1 ex_c2 cl_q].
  assert (E : quat_multiply eq2 eq1 = quat_mul_raw eq2 eq1) by (apply multiply_pos; auto; unfold v3dot; cbn; unfold v3dot; cbn; lra).
  rewrite E. rewrite multiply_pos; auto using quat_inv_unit, quat_mul_raw_unit.
  - apply raw_inv_cancel. auto.
  - rewrite raw_inv_cancel by auto. cbn. lra.
Qed.
Lemma ex_small : small_turn (imu_q12 ex_c1 ex_c2) /\ small_turn (quat_multiply (quat_inv (cf_q ex_f)) (imu_qb ex_f ex_c1)).
Proof.
  destruct eq_unit as (A & B). rewrite ex_q12, ex_qb. split; [split; [exact B|cbn; lra]|].
  assert (U : unit_q qid) by (unfold unit_q; cbn; ring). split; [apply mult_unit; auto using quat_inv_unit|].
  rewrite multiply_pos; auto using quat_inv_unit; rewrite raw_id_r; cbn; lra.
Qed.
Lemma mid3_inj : injective 15 (cf_S ex_f).
Proof.
  intros v H i Hi. specialize (H i Hi). cbn [ex_f cf_S] in H.
  assert (E : mvec 15 (mscal 3 mid) v i = 3 * v i). { replace (v i) with (mvec 15 mid v i) by (apply mid_mvec; exact Hi). unfold mvec, mscal. rewrite <- sumn_scal. apply sumn_ext. intros. ring. }
  rewrite E in H. lra.
Qed.
(** a state that follows the factor exactly, with a gyroscope bias other than the one used *)
Definition ex_c3 : clone :=
  mkCl (quat_multiply (quat_inv (small_quat (m3v (cf_Jq ex_f) (V3 2 0 0)))) (quat_multiply eq2 eq1)) (V3 2 0 1)
    (v3add (v3sub (V3 1 2 3) (V3 0 0 5)) (m3v (m3tr (quat_2_Rot eq1)) (V3 2 1 0)))
    (V3 1 1 1) (v3add (v3sub (v3add (V3 4 5 6) (V3 (1 / 2) 1 (3 / 2))) (V3 0 0 (5 / 4))) (m3v (m3tr (quat_2_Rot eq1)) (V3 3 0 0))).
Definition ex_c0 : clone := mkCl eq1 (V3 2 0 1) (V3 1 2 3) (V3 1 1 1) (V3 4 5 6).
Lemma ex_follows : unit_q (cl_q ex_c0) /\ unit_q (cl_q ex_c3) /\ unit_q (cf_q ex_f) /\ CeresSpec.follows ex_f ex_c0 ex_c3.
Proof.
  destruct eq_unit as (A & B). pose proof (mult_unit _ _ B A) as M. destruct (small_unit (m3v (cf_Jq ex_f) (V3 2 0 0))) as (U & _). pose proof (quat_inv_unit _ U) as UI.
  split; [exact A|]. split; [apply mult_unit; auto|]. split; [exact B|].
  unfold CeresSpec.follows, corrected. cbv zeta. cbn [ex_c0 ex_c3 ex_f cl_q cl_bg cl_ba cl_v cl_p cf_q cf_bg cf_ba cf_dt cf_g cf_be cf_al cf_Jq cf_Jb cf_Ja cf_Hb cf_Ha].
  assert (D : v3sub (V3 2 0 1) (V3 0 0 1) = V3 2 0 0) by (apply v3_ext; cbn; ring). assert (Z : v3sub (V3 1 1 1) (V3 1 1 1) = v3zero) by (apply v3_ext; cbn; ring). rewrite D, Z.
  split; [|split; [reflexivity|split; [reflexivity|]]].
  - rewrite !quat_multiply_rot by auto. rewrite quat_inv_rot. cbn [ex_f cf_Jq] in *. rewrite small_rot. symmetry. apply m3mul_assoc.
  - generalize (m3tr (quat_2_Rot eq1)). intros T. split; apply v3_ext; cbn; field.
Qed.
(** the clone a moved body ends at *)
Definition clone_after (avg : bool) (Qc : mat) (bw ba g : v3) (l : list reading) (x : clone) : clone :=
  let c := cpi_run (cpi_new avg Qc bw ba) l in let T := duration l in let R1 := quat_2_Rot (cl_q x) in
  mkCl (rot_2_quat (m3mul (cp_R c) R1)) bw (v3add (v3sub (cl_v x) (v3scal T g)) (m3v (m3tr R1) (cp_be c))) ba
       (v3add (v3sub (v3add (cl_p x) (v3scal T (cl_v x))) (v3scal (T ^ 2 / 2) g)) (m3v (m3tr R1) (cp_al c))).
Lemma clone_moves avg Qc bw ba g l x : unit_q (cl_q x) -> rates rate_ok avg bw l -> cp_q (cpi_run (cpi_new avg Qc bw ba) l) <> None ->
  let y := clone_after avg Qc bw ba g l x in
  unit_q (cl_q y) /\ cl_bg y = bw /\ cl_ba y = ba /\ moves g (map (piece avg bw ba) l) (body_of x) (body_of y).
Proof.
  intros X Hr E y. destruct (moves_exists g (map (piece avg bw ba) l) (body_of x)) as ([Q v p] & Mv).
  destruct (means_thm avg Qc bw ba g l (body_of x) _ (quat_2_Rot_is_rot _ X) Hr Mv) as (_ & M2 & M3 & M4 & M5).
  destruct (cp_q (cpi_run (cpi_new avg Qc bw ba) l)) as [q|] eqn:Eq; [|congruence]. destruct (M5 q eq_refl) as (U & RQ). cbn [bo_R bo_v bo_p body_of] in M2, M3, M4.
  assert (HR : is_rot Q) by (rewrite M2, <- RQ; apply is_rot_mul; apply quat_2_Rot_is_rot; auto).
  destruct (rot_2_quat_spec Q HR) as (R1 & _ & R2). subst y. unfold clone_after. cbv zeta. rewrite <- M2, <- M3, <- M4. cbn [cl_q cl_bg cl_ba]. repeat (split; [auto; fail|]).
  unfold body_of. cbn [cl_q cl_v cl_p]. rewrite R2. exact Mv.
Qed.
Lemma fast_q Qc bw ba l r : rd_t1 r - rd_t0 r <> 0 -> cp_q (cpi_run (cpi_new true Qc bw ba) (l ++ [r])) <> None.
Proof.
  intros H. unfold cpi_run. rewrite fold_left_app. cbn [fold_left]. unfold cpi_feed at 1. destruct (Reqb_spec (rd_t1 r - rd_t0 r) 0); [contradiction|]. cbn [cp_q]. discriminate.
Qed.
Definition ex_fast : list reading := [mkRd (1 / 2) (1 / 2) (V3 7 7 7) (V3 7 7 7) (V3 8 8 8) (V3 8 8 8); mkRd 0 (1 / 2) (V3 0 3 1) (V3 1 0 10) (V3 0 5 1) (V3 3 0 10)].
Lemma ex_fast_rates : rates rate_fast true exc_bw ex_fast.
Proof.
  intros r [E|[E|[]]]; subst r; cbn [rd_t0 rd_t1 rd_w0 rd_w1].
  - left. lra.
  - right. unfold rate_fast. rewrite exc_norm. lra.
Qed.
Lemma some_factor g c : cp_q c <> None -> exists f, imu_factor (fun _ => Some mid) (fun A => A) g c = Ok f.
Proof. intros H. unfold imu_factor. destruct (cp_q c) as [q|]; [|congruence]. cbn [imu_sqrtI obind]. eexists. reflexivity. Qed.
Lemma exc_q Qc bw ba : cp_q (cpi_run (cpi_new true Qc bw ba) exc_l) <> None.
Proof. apply (fast_q Qc bw ba (firstn 2 exc_l) (mkRd (1 / 2) 2 (V3 0 0 1) (V3 1 2 10) (V3 0 0 1) (V3 1 4 10))). cbn. lra. Qed.
Lemma ex_fast_q Qc bw ba : cp_q (cpi_run (cpi_new true Qc bw ba) ex_fast) <> None.
Proof. apply (fast_q Qc bw ba (firstn 1 ex_fast) (mkRd 0 (1 / 2) (V3 0 3 1) (V3 1 0 10) (V3 0 5 1) (V3 3 0 10))). cbn. lra. Qed.
Lemma ex_true : exists f, imu_factor (fun _ => Some mid) (fun A => A) exc_g (cpi_run (cpi_new true mid exc_bw exc_ba) exc_l) = Ok f /\
  let x := mkCl eq1 exc_bw (V3 1 2 3) exc_ba (V3 4 5 6) in let y := clone_after true mid exc_bw exc_ba exc_g exc_l x in
  unit_q (cl_q x) /\ unit_q (cl_q y) /\ rates rate_ok true exc_bw exc_l /\ cl_bg y = exc_bw /\ cl_ba y = exc_ba /\
  moves exc_g (map (piece true exc_bw exc_ba) exc_l) (body_of x) (body_of y).
Proof.
  destruct (some_factor exc_g _ (exc_q mid exc_bw exc_ba)) as (f & E). exists f. split; [exact E|]. cbv zeta. destruct eq_unit as (A & _). pose proof (rates_in_ok _ _ _ exc_rates) as Hr.
  destruct (clone_moves true mid exc_bw exc_ba exc_g exc_l (mkCl eq1 exc_bw (V3 1 2 3) exc_ba (V3 4 5 6)) A Hr (exc_q _ _ _)) as (U & B & C & D). tauto.
Qed.
Lemma ex_bias e a : exists f, imu_factor (fun _ => Some mid) (fun A => A) exc_g (cpi_run (cpi_new true mid exc_bw exc_ba) ex_fast) = Ok f /\
  rates rate_fast true exc_bw ex_fast /\
  let x := mkCl eq1 exc_bw (V3 1 2 3) exc_ba (V3 4 5 6) in
  let y := fun s => clone_after true mid (v3add exc_bw (v3scal s e)) (v3add exc_ba (v3scal s a)) exc_g ex_fast x in
  unit_q (cl_q x) /\
  locally 0 (fun s => unit_q (cl_q (y s)) /\ cl_bg (y s) = v3add exc_bw (v3scal s e) /\ cl_ba (y s) = v3add exc_ba (v3scal s a) /\
     moves exc_g (map (piece true (v3add exc_bw (v3scal s e)) (v3add exc_ba (v3scal s a))) ex_fast) (body_of x) (body_of (y s))).
Proof.
  destruct (some_factor exc_g _ (ex_fast_q mid exc_bw exc_ba)) as (f & E). exists f. split; [exact E|]. split; [exact ex_fast_rates|]. cbv zeta. destruct eq_unit as (A & _). split; [exact A|].
  generalize (near_rates true exc_bw e ex_fast ex_fast_rates). apply filter_imp. intros s Hr. apply clone_moves; [exact A|exact Hr|apply ex_fast_q].
Qed.
Definition ex_P : cpi := mkCpi true mzero v3zero v3zero 1 v3zero v3zero m3id (Some eq1) m3id m3id m3id m3id m3id (mscal 4 mid).
Lemma diag_mul n a b : meq n n (mmul n (mscal a mid) (mscal b mid)) (mscal (a * b) mid).
Proof.
  intros i j Hi Hj. unfold mmul, mscal. transitivity (mvec n mid (fun k => a * b * mid k j) i).
  - unfold mvec. apply sumn_ext. intros. ring.
  - rewrite mid_mvec by exact Hi. reflexivity.
Qed.
Lemma mid_tr i j : mtr mid i j = mid i j.
Proof. unfold mtr, mid. rewrite Nat.eqb_sym. reflexivity. Qed.
Lemma diag_chol n a : 0 <= a -> cholesky n (mscal (a * a) mid) (mscal a mid).
Proof.
  intros _. split; [intros i j H1 H2; unfold mscal, mid; destruct (Nat.eqb_spec i j); [lia|ring]|].
  intros i j Hi Hj. rewrite <- (diag_mul n a a i j Hi Hj). unfold mmul. apply sumn_ext. intros k Hk. f_equal. unfold mtr, mscal. f_equal. apply mid_tr.
Qed.
Lemma diag_inv n a : a <> 0 -> inverse n (mscal a mid) (mscal (/ a) mid).
Proof.
  intros H. split; intros i j Hi Hj; rewrite diag_mul by auto; unfold mscal; [rewrite Rinv_r by auto|rewrite Rinv_l by auto]; ring.
Qed.
Lemma ex_P_ok : (exists f, imu_factor (fun _ => Some (mscal (/ 4) mid)) (fun _ => mscal (1 / 2) mid) exc_g ex_P = Ok f) /\
  inverse 15 (cp_P ex_P) (mscal (/ 4) mid) /\ cholesky 15 (mscal (/ 4) mid) (mscal (1 / 2) mid).
Proof.
  split; [eexists; reflexivity|]. split; [apply diag_inv; lra|]. pose proof (diag_chol 15 (1 / 2) ltac:(lra)) as H. replace (1 / 2 * (1 / 2)) with (/ 4) in H by field. exact H.
Qed.

(** ** C91 *)
Definition ex_lin : vec := fun i => nth i [0; 0; 0; 1; 1; 2; 3] 0.
Definition ex_ts : list ptype := [PYaw; PVec 3].
Definition ex_xs : list pval := [VQ (Q4 0 0 (3 / 5) (4 / 5)); VV (v3vec (V3 4 5 6))].
Lemma ex_blocks : blocks (block_ok ex_lin) ex_ts ex_xs 0 0.
Proof.
  unfold ex_ts, ex_xs. cbn [blocks perr psize]. split; [|split; [right; left; reflexivity|exact I]].
  unfold block_ok. split; [unfold unit_q; cbn; lra|]. split; [unfold unit_q, q4at; cbn; lra|]. right. unfold m3trace. cbn. split; lra.
Qed.
Lemma ex_prior : prior_new (fun n A => Some (mscal 2 mid)) (fun n A => Some (mscal (/ 2) mid)) 7 4 4 ex_lin ex_ts (mscal 4 mid) (fun _ => 0) =
  Ok (mkPF ex_ts ex_lin (mtr (mscal 2 mid)) (mvec 4 (mscal (/ 2) mid) (fun _ => 0))).
Proof. reflexivity. Qed.
(** the two scalar blocks with Info = [1 1; 1 2]: A' b is not the gradient *)
Definition two (a b c d : R) : mat := fun i j => match i, j with 0%nat, 0%nat => a | 0%nat, 1%nat => b | 1%nat, 0%nat => c | 1%nat, 1%nat => d | _, _ => 0 end.
Lemma grad_wrong : exists L Inv Info grad f, cholesky 2 Info L /\ inverse 2 (mtr L) Inv /\
  prior_new (fun _ _ => Some L) (fun _ _ => Some Inv) 2 2 2 (fun _ => 0) [PVec 1; PVec 1] Info grad = Ok f /\
  ~ veq 2 (mvec 2 (mtr (pf_S f)) (pf_b f)) grad.
Proof.
  exists (two 1 0 1 1), (two 1 (-1) 0 1), (two 1 1 1 2), (fun i => match i with 0%nat => 1 | _ => 0 end).
  eexists. split; [|split; [|split; [reflexivity|]]].
  - split.
    + intros i j H1 H2. assert (i = 0 /\ j = 1)%nat as (-> & ->) by lia. reflexivity.
    + intros i j Hi Hj. destruct i as [|[|i]]; [| |lia]; (destruct j as [|[|j]]; [| |lia]); unfold mmul, mtr; cbn; ring.
  - split; intros i j Hi Hj; (destruct i as [|[|i]]; [| |lia]); (destruct j as [|[|j]]; [| |lia]); unfold mmul, mtr, mid; cbn; ring.
  - cbn [pf_S pf_b]. intros H. specialize (H 1%nat ltac:(lia)). unfold mvec, mtr in H. cbn in H. lra.
Qed.
