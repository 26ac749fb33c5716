(** C90: where the IMU term vanishes, what its square is, and its dependence on the biases to first order. *)
From Coq Require Import Reals List Bool Arith Lia Lra Psatz.
From Coquelicot Require Import Coquelicot.
From Verif Require CamProofs.
From Verif Require Import RBool Outcome GeoModel GeoSpec GeoProofs ExpSeries JacSo3 Calc3 Lin TypesModel ManifoldSpec StateModel StateEkf PropModel PropSpec CamModel CamSpec HelpModel HelpSpec HelpAsm HelpRep HelpGeo CpiModel CpiSpec CpiProofs CpiJac CeresModel CeresSpec CeresQuat CeresImg CeresImu CeresRows.
Import ListNotations.
Open Scope R_scope.

Lemma small_rot d : quat_2_Rot (small_quat d) = cayley d.
Proof.
  assert (U : unit_q qid) by (unfold unit_q; cbn; ring). pose proof (update_rot d qid U) as H.
  rewrite quat_multiply_rot in H by (auto; apply small_unit).
  assert (I : quat_2_Rot qid = m3id) by (apply m3_ext; cbn; ring). rewrite I, !m3mul_id_r in H. exact H.
Qed.
Lemma qp_rot f x y : unit_q (cl_q x) -> unit_q (cl_q y) -> unit_q (cf_q f) ->
  quat_2_Rot (imu_qp f x y) = m3mul (m3mul (m3mul (quat_2_Rot (cl_q y)) (m3tr (quat_2_Rot (cl_q x)))) (m3tr (quat_2_Rot (cf_q f))))
     (cayley (m3v (cf_Jq f) (v3sub (cl_bg x) (cf_bg f)))).
Proof.
  intros X Y B. pose proof (quat_inv_unit _ X) as IX. pose proof (quat_inv_unit _ B) as IB.
  assert (QB : unit_q (imu_qb f x)) by (rewrite qb_small; apply small_unit).
  assert (A1 : unit_q (imu_q12 x y)) by (apply mult_unit; auto). assert (A2 : unit_q (imu_qm f x y)) by (apply mult_unit; auto).
  unfold imu_qp. rewrite quat_multiply_rot by auto. unfold imu_qm. rewrite quat_multiply_rot by auto. unfold imu_q12. rewrite quat_multiply_rot by auto.
  rewrite !quat_inv_rot, qb_small, small_rot. reflexivity.
Qed.
Lemma id_quat q : unit_q q -> (qvec q = v3zero <-> quat_2_Rot q = m3id).
Proof.
  intros U. split.
  - intros E. assert (X : qx q = 0) by exact (f_equal vx E). assert (Y : qy q = 0) by exact (f_equal vy E). assert (Z : qz q = 0) by exact (f_equal vz E).
    unfold unit_q in U. rewrite X, Y, Z in U. assert (W : qw q * qw q = 1) by lra.
    apply m3_ext; cbn; rewrite ?X, ?Y, ?Z; try ring; rewrite W; ring.
  - intros E. assert (V : unit_q qid) by (unfold unit_q; cbn; ring).
    assert (I : quat_2_Rot qid = m3id) by (apply m3_ext; cbn; ring). rewrite <- I in E.
    destruct (quat_2_Rot_inj q qid U V E) as [->| ->]; apply v3_ext; cbn; ring.
Qed.
Lemma stack5_zero a b c d e : veq 15 (stack5 a b c d e) (fun _ => 0) <-> a = v3zero /\ b = v3zero /\ c = v3zero /\ d = v3zero /\ e = v3zero.
Proof.
  split.
  - intros H. assert (G : forall k, (k < 15)%nat -> stack5 a b c d e k = 0) by exact H. clear H.
    repeat split; apply v3_ext; cbn [v3zero vx vy vz];
    [exact (G 0%nat ltac:(lia))|exact (G 1%nat ltac:(lia))|exact (G 2%nat ltac:(lia))|exact (G 3%nat ltac:(lia))|exact (G 4%nat ltac:(lia))|exact (G 5%nat ltac:(lia))|exact (G 6%nat ltac:(lia))|exact (G 7%nat ltac:(lia))|exact (G 8%nat ltac:(lia))
    |exact (G 9%nat ltac:(lia))|exact (G 10%nat ltac:(lia))|exact (G 11%nat ltac:(lia))|exact (G 12%nat ltac:(lia))|exact (G 13%nat ltac:(lia))|exact (G 14%nat ltac:(lia))].
  - intros (-> & -> & -> & -> & ->) i Hi. do 15 (destruct i as [|i]; [reflexivity|]). lia.
Qed.
Lemma sub_zero a b : v3sub a b = v3zero <-> a = b.
Proof.
  split; [|intros ->; apply v3_ext; cbn; ring]. intros H.
  apply v3_ext; [apply (f_equal vx) in H|apply (f_equal vy) in H|apply (f_equal vz) in H]; cbn in H; lra.
Qed.
Lemma rot_move Rr a b : is_rot Rr -> (m3v Rr a = b <-> a = m3v (m3tr Rr) b).
Proof.
  intros (H1 & H2 & _). split.
  - intros <-. rewrite <- m3v_mul. assert (E : m3mul (m3tr Rr) Rr = m3id) by auto. rewrite E, m3v_id. reflexivity.
  - intros ->. rewrite <- m3v_mul. assert (E : m3mul Rr (m3tr Rr) = m3id) by auto. rewrite E, m3v_id. reflexivity.
Qed.
Lemma raw_zero f x y : unit_q (cl_q x) -> unit_q (cl_q y) -> unit_q (cf_q f) ->
  (veq 15 (imu_raw f x y) (fun _ => 0) <-> follows f x y).
Proof.
  intros X Y B. unfold imu_raw. cbv zeta. rewrite stack5_zero. unfold follows. cbv zeta.
  pose proof (quat_2_Rot_is_rot _ X) as RX. pose proof (quat_2_Rot_is_rot _ Y) as RY. pose proof (quat_2_Rot_is_rot _ B) as RB.
  assert (RC : is_rot (cayley (m3v (cf_Jq f) (v3sub (cl_bg x) (cf_bg f))))) by (rewrite <- small_rot; apply quat_2_Rot_is_rot, small_unit).
  destruct (qp_total f x y X Y B) as (_ & U & _).
  assert (Q : v3scal 2 (qvec (imu_qp f x y)) = v3zero <-> quat_2_Rot (cl_q y) = m3mul (corrected f x) (quat_2_Rot (cl_q x))).
  { transitivity (qvec (imu_qp f x y) = v3zero).
    - split; [|intros ->; apply v3_ext; cbn; ring]. intros H. apply v3_ext; [apply (f_equal vx) in H|apply (f_equal vy) in H|apply (f_equal vz) in H]; cbn in *; lra.
    - rewrite (id_quat _ U), (qp_rot f x y X Y B). unfold corrected.
      set (R2 := quat_2_Rot (cl_q y)) in *. set (R1 := quat_2_Rot (cl_q x)) in *. set (Rb := quat_2_Rot (cf_q f)) in *. set (C := cayley _) in *. clearbody R2 R1 Rb C.
      destruct RX as (X1 & X2 & X3), RB as (B1 & B2 & B3), RC as (C1 & C2 & C3).
      assert (EX : m3mul (m3tr R1) R1 = m3id) by auto. assert (EB : m3mul (m3tr Rb) Rb = m3id) by auto. assert (EC : m3mul (m3tr C) C = m3id) by auto.
      assert (EX' : m3mul R1 (m3tr R1) = m3id) by auto. assert (EB' : m3mul Rb (m3tr Rb) = m3id) by auto. assert (EC' : m3mul C (m3tr C) = m3id) by auto.
      split; intros H.
      + assert (G : m3mul (m3mul (m3mul (m3mul R2 (m3tr R1)) (m3tr Rb)) C) (m3mul (m3tr C) (m3mul Rb R1)) = m3mul m3id (m3mul (m3tr C) (m3mul Rb R1))) by (rewrite H; reflexivity).
        rewrite m3mul_id_l in G. rewrite !m3mul_assoc in G.
        rewrite <- (m3mul_assoc C (m3tr C)), EC', m3mul_id_l in G. rewrite <- (m3mul_assoc (m3tr Rb) Rb), EB, m3mul_id_l, EX, m3mul_id_r in G.
        rewrite G. symmetry. apply m3mul_assoc.
      + rewrite H. rewrite !m3mul_assoc. rewrite <- (m3mul_assoc R1 (m3tr R1)), EX', m3mul_id_l. rewrite <- (m3mul_assoc Rb (m3tr Rb)), EB', m3mul_id_l. exact EC. }
  rewrite Q, !sub_zero.
  assert (V : v3sub (v3sub (v3sub (m3v (quat_2_Rot (cl_q x)) (imu_dv f x y)) (m3v (cf_Jb f) (v3sub (cl_bg x) (cf_bg f)))) (m3v (cf_Hb f) (v3sub (cl_ba x) (cf_ba f)))) (cf_be f) = v3zero <->
     cl_v y = v3add (v3sub (cl_v x) (v3scal (cf_dt f) (cf_g f))) (m3v (m3tr (quat_2_Rot (cl_q x))) (v3add (cf_be f) (v3add (m3v (cf_Jb f) (v3sub (cl_bg x) (cf_bg f))) (m3v (cf_Hb f) (v3sub (cl_ba x) (cf_ba f))))))).
  { set (j := m3v (cf_Jb f) _). set (h := m3v (cf_Hb f) _). transitivity (m3v (quat_2_Rot (cl_q x)) (imu_dv f x y) = v3add (cf_be f) (v3add j h)).
    - split; intros H; [|rewrite H; apply v3_ext; cbn; ring].
      apply v3_ext; [apply (f_equal vx) in H|apply (f_equal vy) in H|apply (f_equal vz) in H]; cbn [v3sub v3add v3zero vx vy vz] in *; lra.
    - rewrite (rot_move _ _ _ RX). unfold imu_dv. set (u := m3v (m3tr _) _). split; intros H.
      + apply v3_ext; [apply (f_equal vx) in H|apply (f_equal vy) in H|apply (f_equal vz) in H]; cbn [v3sub v3add v3scal vx vy vz] in *; lra.
      + rewrite H. apply v3_ext; cbn [v3sub v3add v3scal vx vy vz]; ring. }
  assert (P : v3sub (v3sub (v3sub (m3v (quat_2_Rot (cl_q x)) (imu_dp f x y)) (m3v (cf_Ja f) (v3sub (cl_bg x) (cf_bg f)))) (m3v (cf_Ha f) (v3sub (cl_ba x) (cf_ba f)))) (cf_al f) = v3zero <->
     cl_p y = v3add (v3sub (v3add (cl_p x) (v3scal (cf_dt f) (cl_v x))) (v3scal (cf_dt f ^ 2 / 2) (cf_g f))) (m3v (m3tr (quat_2_Rot (cl_q x))) (v3add (cf_al f) (v3add (m3v (cf_Ja f) (v3sub (cl_bg x) (cf_bg f))) (m3v (cf_Ha f) (v3sub (cl_ba x) (cf_ba f))))))).
  { set (j := m3v (cf_Ja f) _). set (h := m3v (cf_Ha f) _). transitivity (m3v (quat_2_Rot (cl_q x)) (imu_dp f x y) = v3add (cf_al f) (v3add j h)).
    - split; intros H; [|rewrite H; apply v3_ext; cbn; ring].
      apply v3_ext; [apply (f_equal vx) in H|apply (f_equal vy) in H|apply (f_equal vz) in H]; cbn [v3sub v3add v3zero vx vy vz] in *; lra.
    - rewrite (rot_move _ _ _ RX). unfold imu_dp. set (u := m3v (m3tr _) _). split; intros H.
      + apply v3_ext; [apply (f_equal vx) in H|apply (f_equal vy) in H|apply (f_equal vz) in H]; cbn [v3sub v3add v3scal vx vy vz] in *; lra.
      + rewrite H. apply v3_ext; cbn [v3sub v3add v3scal vx vy vz]; field. }
  rewrite sub_zero in V, P. rewrite V, P. tauto.
Qed.
Lemma imu_zero f x y : unit_q (cl_q x) -> unit_q (cl_q y) -> unit_q (cf_q f) -> injective 15 (cf_S f) ->
  (veq 15 (imu_res f x y) (fun _ => 0) <-> follows f x y).
Proof.
  intros X Y B I. rewrite <- raw_zero by auto. split; [apply I|]. intros H i Hi. unfold imu_res. apply mvec_zero. exact H.
Qed.

(** ** the square of the term *)
Lemma chol_quad n A L v : cholesky n A L -> dot n (mvec n (mtr L) v) (mvec n (mtr L) v) = quad n A v.
Proof.
  intros (_ & H). rewrite quad_dot. rewrite <- dot_mvec_tr. unfold dot. apply sumn_ext. intros i Hi. f_equal.
  rewrite <- mvec_mmul. apply mvec_ext_l. intros j Hj. apply H; auto.
Qed.
Lemma chol_inj n A L P : cholesky n A L -> inverse n P A -> injective n (mtr L).
Proof.
  intros (_ & H) (H1 & _) v Z i Hi.
  assert (E : veq n (mvec n A v) (fun _ => 0)).
  { intros k Hk. transitivity (mvec n (mmul n L (mtr L)) v k). { apply mvec_ext_l. intros. symmetry. apply H; auto. }
    rewrite mvec_mmul. apply mvec_zero. exact Z. }
  transitivity (mvec n (mmul n P A) v i).
  - rewrite (mvec_ext_l n (mmul n P A) mid v i) by (intros; apply H1; auto). symmetry. apply mid_mvec. exact Hi.
  - rewrite mvec_mmul. apply mvec_zero. exact E.
Qed.

(** the factor of a preintegration *)
Lemma run_keeps l : forall c, cp_bw (cpi_run c l) = cp_bw c /\ cp_ba (cpi_run c l) = cp_ba c.
Proof.
  induction l as [|r l IH]; intros c; [split; reflexivity|]. cbn [cpi_run fold_left]. fold (cpi_run (cpi_feed c r) l).
  destruct (IH (cpi_feed c r)) as (A & B). rewrite A, B. unfold cpi_feed. destruct (Reqb _ 0); auto.
Qed.
Lemma factor_inv solve llt g c f : imu_factor solve llt g c = Ok f -> exists q S info, cp_q c = Some q /\ solve (cp_P c) = Some info /\ S = mtr (llt info) /\
  f = mkCF (cp_DT c) g (cp_al c) (cp_be c) q (cp_ba c) (cp_bw c) (cp_Jq c) (cp_Jb c) (cp_Ja c) (cp_Hb c) (cp_Ha c) S.
Proof.
  unfold imu_factor, imu_sqrtI. destruct (cp_q c) as [q|]; [|discriminate]. destruct (solve (cp_P c)) as [info|]; [|discriminate]. cbn [obind].
  intros E. injection E as <-. exists q, (mtr (llt info)), info. auto.
Qed.
Lemma factor_cost solve llt g c f x y : imu_factor solve llt g c = Ok f ->
  (forall info, solve (cp_P c) = Some info -> inverse 15 (cp_P c) info /\ cholesky 15 info (llt info)) ->
  exists info, inverse 15 (cp_P c) info /\ dot 15 (imu_res f x y) (imu_res f x y) = quad 15 info (imu_raw f x y) /\ injective 15 (cf_S f).
Proof.
  intros E H. destruct (factor_inv _ _ _ _ _ E) as (q & S & info & _ & E2 & -> & ->). destruct (H info E2) as (H1 & H2).
  exists info. split; [exact H1|]. split; [|exact (chol_inj 15 info (llt info) (cp_P c) H2 H1)].
  unfold imu_res. cbn [cf_S]. exact (chol_quad 15 info (llt info) _ H2).
Qed.
Lemma true_follows solve llt avg Qc bw ba g l x y f : unit_q (cl_q x) -> unit_q (cl_q y) -> rates rate_ok avg bw l ->
  imu_factor solve llt g (cpi_run (cpi_new avg Qc bw ba) l) = Ok f ->
  cl_bg x = bw -> cl_ba x = ba -> cl_bg y = bw -> cl_ba y = ba ->
  moves g (map (piece avg bw ba) l) (body_of x) (body_of y) -> unit_q (cf_q f) /\ follows f x y.
Proof.
  intros X Y Hr E B1 B2 B3 B4 Mv. destruct (means_thm avg Qc bw ba g l (body_of x) (body_of y) (quat_2_Rot_is_rot _ X) Hr Mv) as (M1 & M2 & M3 & M4 & M5).
  destruct (factor_inv _ _ _ _ _ E) as (q & S & info & Eq & _ & _ & ->). destruct (M5 q Eq) as (U & RQ). destruct (run_keeps l (cpi_new avg Qc bw ba)) as (KB & KA).
  cbn [cf_q]. split; [exact U|]. unfold follows, corrected. cbv zeta. cbn [cf_q cf_bg cf_ba cf_dt cf_g cf_al cf_be cf_Jq cf_Jb cf_Ja cf_Hb cf_Ha].
  rewrite KB, KA, B1, B2, B3, B4, M1. cbn [cpi_new cp_bw cp_ba body_of bo_R bo_v bo_p] in *.
  assert (Z : forall u, v3sub u u = v3zero) by (intros; apply v3_ext; cbn; ring). rewrite !Z.
  assert (Z2 : forall A, m3v A v3zero = v3zero) by (intros; apply v3_ext; cbn; ring). rewrite !Z2.
  assert (Z3 : forall u, v3add u (v3add v3zero v3zero) = u) by (intros; apply v3_ext; cbn; ring). rewrite !Z3.
  split; [|auto]. replace v3zero with (v3scal 0 v3zero) by (apply v3_ext; cbn; ring). rewrite cayley_0, RQ.
  replace (m3tr m3id) with m3id by (apply m3_ext; reflexivity). rewrite m3mul_id_l. exact M2.
Qed.
Lemma true_motion solve llt avg Qc bw ba g l x y f : unit_q (cl_q x) -> unit_q (cl_q y) -> rates rate_ok avg bw l ->
  imu_factor solve llt g (cpi_run (cpi_new avg Qc bw ba) l) = Ok f ->
  cl_bg x = bw -> cl_ba x = ba -> cl_bg y = bw -> cl_ba y = ba ->
  moves g (map (piece avg bw ba) l) (body_of x) (body_of y) -> veq 15 (imu_res f x y) (fun _ => 0).
Proof.
  intros X Y Hr E B1 B2 B3 B4 Mv. destruct (true_follows solve llt avg Qc bw ba g l x y f) as (U & F); auto.
  apply (raw_zero f x y X Y U) in F. intros i Hi. unfold imu_res. apply mvec_zero. exact F.
Qed.

(** ** first order in the biases *)
Lemma qvec_of_rot q : unit_q q -> 0 <= qw q -> 0 < 1 + (m00 (quat_2_Rot q) + m11 (quat_2_Rot q) + m22 (quat_2_Rot q)) ->
  let r := quat_2_Rot q in let k := 2 * sqrt (1 + (m00 r + m11 r + m22 r)) in
  qvec q = V3 ((m12 r - m21 r) / k) ((m20 r - m02 r) / k) ((m01 r - m10 r) / k).
Proof.
  intros U P T r k. assert (E : 1 + (m00 r + m11 r + m22 r) = (2 * qw q) * (2 * qw q)).
  { unfold r. unfold unit_q in U. cbn. nra. }
  assert (K : k = 4 * qw q). { unfold k. rewrite E, sqrt_square by lra. ring. }
  assert (NW : qw q <> 0). { intros Z. fold r in T. rewrite E, Z in T. lra. }
  unfold qvec. rewrite K. apply v3_ext; cbn [vx vy vz]; unfold r; cbn; field; lra.
Qed.
Lemma qvec_flat (q : R -> q4) : locally 0 (fun s => unit_q (q s) /\ 0 <= qw (q s)) -> quat_2_Rot (q 0) = m3id ->
  m3_derive (fun s => quat_2_Rot (q s)) 0 m3zero -> v3_derive (fun s => v3scal 2 (qvec (q s))) 0 v3zero.
Proof.
  intros L R0 (D00 & D01 & D02 & D10 & D11 & D12 & D20 & D21 & D22). cbn [m3zero m00 m01 m02 m10 m11 m12 m20 m21 m22] in *.
  set (t := fun s => 1 + (m00 (quat_2_Rot (q s)) + m11 (quat_2_Rot (q s)) + m22 (quat_2_Rot (q s)))).
  assert (T0 : t 0 = 4) by (unfold t; rewrite R0; cbn; ring).
  assert (TD : is_derive t 0 0).
  { unfold t. eapply is_derive_eq; [apply der_plus; [apply der_const|apply der_plus; [apply der_plus; [exact D00|exact D11]|exact D22]]|ring]. }
  assert (LT : locally 0 (fun s => 0 < t s)).
  { assert (CT : continuous t 0) by (apply (ex_derive_continuous t); exists 0; exact TD). apply (CT (fun v => 0 < v)). rewrite T0. apply (open_gt 0). lra. }
  assert (KD : is_derive (fun s => 2 * sqrt (t s)) 0 0).
  { eapply is_derive_eq; [apply (der_mult (fun _ => 2) (fun s => sqrt (t s))); [apply der_const|apply CamProofs.der_sqrt; [rewrite T0; lra|exact TD]]|]. cbv beta. unfold Rdiv. ring. }
  assert (K0 : 2 * sqrt (t 0) <> 0). { rewrite T0. assert (0 < sqrt 4) by (apply sqrt_lt_R0; lra). lra. }
  assert (ND : forall a b : R -> R, a 0 = b 0 -> is_derive a 0 0 -> is_derive b 0 0 -> is_derive (fun s => 2 * ((a s - b s) / (2 * sqrt (t s)))) 0 0).
  { intros a b E A B. eapply is_derive_eq; [apply (der_mult (fun _ => 2) (fun s => (a s - b s) / (2 * sqrt (t s)))); [apply der_const|apply (der_div (fun s => a s - b s) (fun s => 2 * sqrt (t s))); [exact K0|apply der_minus; eassumption|exact KD]]|].
    cbv beta. rewrite E. field. intros Z. apply K0. rewrite Z. ring. }
  apply (v3_derive_ext_loc (fun s => let r := quat_2_Rot (q s) in let k := 2 * sqrt (t s) in V3 (2 * ((m12 r - m21 r) / k)) (2 * ((m20 r - m02 r) / k)) (2 * ((m01 r - m10 r) / k)))).
  { generalize (filter_and _ _ L LT). apply filter_imp. intros s ((U & P) & Ts). rewrite (qvec_of_rot (q s) U P Ts). reflexivity. }
  split; [|split]; cbv zeta; cbn [vx vy vz v3zero]; apply ND; auto; rewrite R0; reflexivity.
Qed.
Lemma near_rates avg bw e l : rates rate_fast avg bw l -> locally 0 (fun s => rates rate_ok avg (v3add bw (v3scal s e)) l).
Proof.
  induction l as [|r l IH]; intros Hr.
  - apply filter_forall. intros s r [].
  - assert (A : locally 0 (fun s => rates rate_ok avg (v3add bw (v3scal s e)) l)) by (apply IH; intros r' H; apply Hr; right; exact H).
    assert (B : locally 0 (fun s => rd_t1 r - rd_t0 r = 0 \/ rate_ok (unbiased avg (v3add bw (v3scal s e)) (rd_w0 r) (rd_w1 r)))).
    { destruct (Hr r (or_introl eq_refl)) as [Z|F].
      - apply filter_forall. intros s. left. exact Z.
      - assert (F' : thr < v3norm (unbiased avg (v3add bw (v3scal 0 e)) (rd_w0 r) (rd_w1 r))) by (rewrite unb_0; exact F).
        generalize (near_fast _ _ (unb_derive avg bw e (rd_w0 r) (rd_w1 r)) F'). apply filter_imp. intros s H. right. right. exact H. }
    generalize (filter_and _ _ A B). apply filter_imp. intros s (HA & HB) r' [<-|H]; auto.
Qed.
Lemma fast_in avg bw l : rates rate_fast avg bw l -> rates rate_in avg bw l.
Proof. intros H r Hr. destruct (H r Hr) as [Z|F]; [left; exact Z|right; right; exact F]. Qed.
Lemma bias_first_order solve llt avg Qc bw ba e a g l x (y : R -> clone) f : unit_q (cl_q x) -> rates rate_fast avg bw l ->
  imu_factor solve llt g (cpi_run (cpi_new avg Qc bw ba) l) = Ok f ->
  locally 0 (fun s => unit_q (cl_q (y s)) /\ cl_bg (y s) = v3add bw (v3scal s e) /\ cl_ba (y s) = v3add ba (v3scal s a) /\
     moves g (map (piece avg (v3add bw (v3scal s e)) (v3add ba (v3scal s a))) l) (body_of x) (body_of (y s))) ->
  vec_derive 15 (fun s => imu_res f (rebias x (v3add bw (v3scal s e)) (v3add ba (v3scal s a))) (y s)) 0 (fun _ => 0).
Proof.
  intros X Hr E H.
  pose proof (bias_thm avg Qc bw ba e a l (fast_in _ _ _ Hr)) as (D1 & D2 & D3).
  pose proof (near_rates avg bw e l Hr) as LR.
  set (c := fun s => cpi_run (cpi_new avg Qc (v3add bw (v3scal s e)) (v3add ba (v3scal s a))) l) in *.
  assert (LM : locally 0 (fun s => cp_DT (c s) = duration l /\ quat_2_Rot (cl_q (y s)) = m3mul (cp_R (c s)) (quat_2_Rot (cl_q x)) /\
     cl_v (y s) = v3add (v3sub (cl_v x) (v3scal (duration l) g)) (m3v (m3tr (quat_2_Rot (cl_q x))) (cp_be (c s))) /\
     cl_p (y s) = v3add (v3sub (v3add (cl_p x) (v3scal (duration l) (cl_v x))) (v3scal (duration l ^ 2 / 2) g)) (m3v (m3tr (quat_2_Rot (cl_q x))) (cp_al (c s))))).
  { generalize (filter_and _ _ LR H). apply filter_imp. intros s (Hs & _ & _ & _ & Mv).
    destruct (means_thm avg Qc _ _ g l (body_of x) (body_of (y s)) (quat_2_Rot_is_rot _ X) Hs Mv) as (M1 & M2 & M3 & M4 & _). auto. }
  assert (C0 : c 0 = cpi_run (cpi_new avg Qc bw ba) l) by (unfold c; f_equal; f_equal; apply v3_ext; cbn; ring).
  assert (Mv0 : exists M5 : forall q, cp_q (c 0) = Some q -> unit_q q /\ quat_2_Rot q = cp_R (c 0), True).
  { destruct (locally_singleton _ _ H) as (_ & _ & _ & Mv). destruct (means_thm avg Qc _ _ g l (body_of x) (body_of (y 0)) (quat_2_Rot_is_rot _ X) (locally_singleton _ _ LR) Mv) as (_ & _ & _ & _ & M5). exists M5; auto. }
  destruct Mv0 as (M5 & _). rewrite C0 in M5.
  destruct (factor_inv _ _ _ _ _ E) as (q & S & info & Eq & _ & _ & Ef). destruct (M5 q Eq) as (UQ & RQ).
  destruct (run_keeps l (cpi_new avg Qc bw ba)) as (KB & KA). cbn [cpi_new cp_bw cp_ba] in KB, KA.
  set (k := cpi_run (cpi_new avg Qc bw ba) l) in *.
  assert (ET : cp_DT k = duration l) by (rewrite <- C0; apply (locally_singleton _ _ LM)).
  set (xs := fun s => rebias x (v3add bw (v3scal s e)) (v3add ba (v3scal s a))).
  assert (DB : forall s, v3sub (cl_bg (xs s)) (cf_bg f) = v3scal s e) by (intros; rewrite Ef; cbn [xs rebias cl_bg cf_bg]; rewrite KB; apply v3_ext; cbn; ring).
  assert (DA : forall s, v3sub (cl_ba (xs s)) (cf_ba f) = v3scal s a) by (intros; rewrite Ef; cbn [xs rebias cl_ba cf_ba]; rewrite KA; apply v3_ext; cbn; ring).
  set (R1 := quat_2_Rot (cl_q x)) in *. pose proof (quat_2_Rot_is_rot _ X) as RX. fold R1 in RX.
  destruct RX as (O1 & O2 & _).
  assert (UF : unit_q (cf_q f)) by (rewrite Ef; exact UQ).
  assert (ROT : locally 0 (fun s => quat_2_Rot (imu_qp f (xs s) (y s)) = m3mul (m3mul (cp_R (c s)) (m3tr (cp_R k))) (cayley (v3scal s (m3v (cp_Jq k) e))))).
  { generalize (filter_and _ _ LM H). apply filter_imp. intros s ((_ & M2 & _) & Us & _). rewrite (qp_rot f (xs s) (y s) X Us UF). cbn [xs rebias cl_q]. fold R1.
    rewrite M2, (DB s). rewrite Ef. cbn [cf_q cf_Jq]. rewrite RQ. replace (m3v (cp_Jq k) (v3scal s e)) with (v3scal s (m3v (cp_Jq k) e)) by (apply v3_ext; cbn; ring).
    rewrite (m3mul_assoc (cp_R (c s)) R1), O1, m3mul_id_r. reflexivity. }
  assert (RK : is_rot (cp_R k)) by (rewrite <- RQ; apply quat_2_Rot_is_rot; exact UQ). destruct RK as (K1 & K2 & _).
  assert (Q1 : v3_derive (fun s => v3scal 2 (qvec (imu_qp f (xs s) (y s)))) 0 v3zero).
  { apply qvec_flat.
    - generalize H. apply filter_imp. intros s (Us & _). destruct (qp_total f (xs s) (y s) X Us UF) as (_ & U & P). auto.
    - rewrite (locally_singleton _ _ ROT). cbv beta. rewrite C0, K1, cayley_0. apply m3mul_id_l.
    - apply (m3_derive_ext_loc (fun s => m3mul (m3mul (cp_R (c s)) (m3tr (cp_R k))) (cayley (v3scal s (m3v (cp_Jq k) e))))).
      { generalize ROT. apply filter_imp. intros s ->. reflexivity. }
      eapply m3_derive_eq; [apply m3d_mul; [apply m3d_mul; [exact D1|apply m3d_const]|apply cayley_derive]|].
      cbv beta. rewrite C0, K1, cayley_0. rewrite (m3mul_assoc _ (cp_R k)), K1, !m3mul_id_r, m3mul_id_l.
      apply m3_ext; cbn; ring. }
  assert (L3 : forall u, m3v R1 (m3v (m3tr R1) u) = u) by (intros; rewrite <- m3v_mul, O1; apply m3v_id).
  assert (Q2 : v3_derive (fun s => v3sub (v3sub (v3sub (m3v R1 (imu_dv f (xs s) (y s))) (m3v (cf_Jb f) (v3sub (cl_bg (xs s)) (cf_bg f)))) (m3v (cf_Hb f) (v3sub (cl_ba (xs s)) (cf_ba f)))) (cf_be f)) 0 v3zero).
  { apply (v3_derive_ext_loc (fun s => v3sub (v3sub (v3sub (cp_be (c s)) (m3v (cp_Jb k) (v3scal s e))) (m3v (cp_Hb k) (v3scal s a))) (cp_be k))).
    - generalize LM. apply filter_imp. intros s (_ & _ & M3 & _). rewrite (DB s), (DA s).
      replace (m3v R1 (imu_dv f (xs s) (y s))) with (cp_be (c s)). { rewrite Ef. reflexivity. }
      unfold imu_dv. rewrite M3, Ef. cbn [xs rebias cl_v cf_dt cf_g]. rewrite ET. set (u := m3v (m3tr R1) _).
      replace (v3add (v3sub (v3add (v3sub (cl_v x) (v3scal (duration l) g)) u) (cl_v x)) (v3scal (duration l) g)) with u by (apply v3_ext; cbn; ring). unfold u. symmetry. apply L3.
    - assert (SC : forall u, v3_derive (fun s => v3scal s u) 0 u).
      { intros u. apply (v3_derive_ext (fun s => v3add v3zero (v3scal s u))); [intros; apply v3_ext; cbn; ring|apply v3d_id]. }
      eapply v3_derive_eq; [apply v3d_sub; [apply v3d_sub; [apply v3d_sub; [exact D3|apply v3d_lin, SC]|apply v3d_lin, SC]|apply v3d_const]|]. apply v3_ext; cbn; ring. }
  assert (Q3 : v3_derive (fun s => v3sub (v3sub (v3sub (m3v R1 (imu_dp f (xs s) (y s))) (m3v (cf_Ja f) (v3sub (cl_bg (xs s)) (cf_bg f)))) (m3v (cf_Ha f) (v3sub (cl_ba (xs s)) (cf_ba f)))) (cf_al f)) 0 v3zero).
  { apply (v3_derive_ext_loc (fun s => v3sub (v3sub (v3sub (cp_al (c s)) (m3v (cp_Ja k) (v3scal s e))) (m3v (cp_Ha k) (v3scal s a))) (cp_al k))).
    - generalize LM. apply filter_imp. intros s (_ & _ & _ & M4). rewrite (DB s), (DA s).
      replace (m3v R1 (imu_dp f (xs s) (y s))) with (cp_al (c s)). { rewrite Ef. reflexivity. }
      unfold imu_dp. rewrite M4, Ef. cbn [xs rebias cl_v cl_p cf_dt cf_g]. rewrite ET. set (u := m3v (m3tr R1) _). set (T := duration l).
      replace (v3add (v3sub (v3sub (v3add (v3sub (v3add (cl_p x) (v3scal T (cl_v x))) (v3scal (T ^ 2 / 2) g)) u) (cl_p x)) (v3scal T (cl_v x))) (v3scal (T ^ 2) (v3scal (5 / 10) g))) with u by (apply v3_ext; cbn; field). unfold u. symmetry. apply L3.
    - assert (SC : forall u, v3_derive (fun s => v3scal s u) 0 u).
      { intros u. apply (v3_derive_ext (fun s => v3add v3zero (v3scal s u))); [intros; apply v3_ext; cbn; ring|apply v3d_id]. }
      eapply v3_derive_eq; [apply v3d_sub; [apply v3d_sub; [apply v3d_sub; [exact D2|apply v3d_lin, SC]|apply v3d_lin, SC]|apply v3d_const]|]. apply v3_ext; cbn; ring. }
  assert (Q4 : v3_derive (fun s => v3sub (cl_bg (y s)) (cl_bg (xs s))) 0 v3zero).
  { apply (v3_derive_ext_loc (fun _ => v3zero)); [|apply v3d_const]. generalize H. apply filter_imp. intros s (_ & -> & _). apply v3_ext; cbn; ring. }
  assert (Q5 : v3_derive (fun s => v3sub (cl_ba (y s)) (cl_ba (xs s))) 0 v3zero).
  { apply (v3_derive_ext_loc (fun _ => v3zero)); [|apply v3d_const]. generalize H. apply filter_imp. intros s (_ & _ & -> & _). apply v3_ext; cbn; ring. }
  intros i Hi. eapply is_derive_eq; [exact (mvec_derive 15 15 (cf_S f) (fun s => imu_raw f (xs s) (y s)) 0 _ (stack5_derive _ _ _ _ _ 0 _ _ _ _ _ Q1 Q4 Q2 Q5 Q3) i Hi)|].
  apply mvec_zero. apply stack5_zero. auto 6.
Qed.
