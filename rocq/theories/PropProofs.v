(** Derivative of the corrected readings and of the discrete mean. *)
From Coq Require Import Reals Lra Psatz Bool List Arith Lia.
From Coquelicot Require Import Coquelicot.
From Verif Require Import Outcome RBool GeoModel GeoSpec GeoProofs GeoMore ExpProofs Se3Proofs JacSo3 Lin TypesModel StateModel.
From Verif Require Import ManifoldSpec ManifoldProofs Calc3 ImuModel PropModel PropSpec PropRows.
Import ListNotations.
Open Scope R_scope.

Lemma Dm_derive m v d : m3_derive (fun s => Dm m (bump s d v)) 0 (Dm m d).
Proof. destruct m; unfold bump; split9; cbn [Dm m00 m01 m02 m10 m11 m12 m20 m21 m22]; auto_derive; auto; ring. Qed.
Lemma Tg_derive v d : m3_derive (fun s => Tg_of (bump s d v)) 0 (Tg_of d).
Proof. unfold bump; split9; cbn [Tg_of m00 m01 m02 m10 m11 m12 m20 m21 m22]; auto_derive; auto; ring. Qed.
Lemma Dm_zero m : Dm m (fun _ => 0) = m3zero.
Proof. destruct m; reflexivity. Qed.
Lemma Tg_zero : Tg_of (fun _ => 0) = m3zero.
Proof. reflexivity. Qed.
Lemma bump_0 d v i : bump 0 d v i = v i.
Proof. unfold bump; ring. Qed.
Lemma Dm_ext m u v : (forall i, u i = v i) -> Dm m u = Dm m v.
Proof. intros H; destruct m; unfold Dm; rewrite !H; reflexivity. Qed.
Lemma Tg_ext u v : (forall i, u i = v i) -> Tg_of u = Tg_of v.
Proof. intros H; unfold Tg_of; rewrite !H; reflexivity. Qed.
Lemma shift_0 d x : shift 0 d x = x.
Proof. unfold shift; apply v3_ext; simpl; ring. Qed.

(** parts of the stacked error vector *)
Lemma ev_th x e : rows3 (err_vec x e) 0 = d_th e. Proof. destruct (d_th e) eqn:E; cbv [rows3 err_vec err_list vlist app nth]; rewrite E; reflexivity. Qed.
Lemma ev_p x e : rows3 (err_vec x e) 3 = d_p e. Proof. destruct (d_p e) eqn:E; cbv [rows3 err_vec err_list vlist app nth]; rewrite E; reflexivity. Qed.
Lemma ev_v x e : rows3 (err_vec x e) 6 = d_v e. Proof. destruct (d_v e) eqn:E; cbv [rows3 err_vec err_list vlist app nth]; rewrite E; reflexivity. Qed.
Lemma ev_bg x e : rows3 (err_vec x e) 9 = d_bg e. Proof. destruct (d_bg e) eqn:E; cbv [rows3 err_vec err_list vlist app nth]; rewrite E; reflexivity. Qed.
Lemma ev_ba x e : rows3 (err_vec x e) 12 = d_ba e. Proof. destruct (d_ba e) eqn:E; cbv [rows3 err_vec err_list vlist app nth]; rewrite E; reflexivity. Qed.

(** effective errors of the calibration quantities *)
Definition fDw (x : pst) (e : perr) : m3 := if ps_calib x then Dm (ps_model x) (d_dw e) else m3zero.
Definition fDa (x : pst) (e : perr) : m3 := if ps_calib x then Dm (ps_model x) (d_da e) else m3zero.
Definition fTg (x : pst) (e : perr) : m3 := if ps_calib x && ps_gsens x then Tg_of (d_tg e) else m3zero.
Definition fthA (x : pst) (e : perr) : v3 := match ps_calib x, ps_model x with true, RPNG => d_rot e | _, _ => v3zero end.
Definition fthW (x : pst) (e : perr) : v3 := match ps_calib x, ps_model x with true, KALIBR => d_rot e | _, _ => v3zero end.

Lemma ev_Dw x e w : csum 6 (compute_H_Dw (ps_model x) w) (eDw x (err_vec x e)) = m3v (fDw x e) w.
Proof.
  unfold compute_H_Dw. rewrite H_D_spec. f_equal. unfold eDw, fDw. destruct x as [md cal gs df im fj dw da tg qw qa]; cbn [ps_calib ps_model].
  destruct cal; [|apply Dm_zero]. destruct md; reflexivity.
Qed.
Lemma ev_Da x e w : csum 6 (compute_H_Da (ps_model x) w) (eDa x (err_vec x e)) = m3v (fDa x e) w.
Proof.
  unfold compute_H_Da. rewrite H_D_spec. f_equal. unfold eDa, fDa. destruct x as [md cal gs df im fj dw da tg qw qa]; cbn [ps_calib ps_model].
  destruct cal; [|apply Dm_zero]. destruct md; reflexivity.
Qed.
Lemma ev_Tg x e a : csum 9 (compute_H_Tg a) (eTg x (err_vec x e)) = m3v (fTg x e) a.
Proof.
  rewrite H_Tg_spec. f_equal. unfold eTg, fTg. destruct x as [md cal gs df im fj dw da tg qw qa]; cbn [ps_calib ps_gsens].
  destruct cal, gs; try reflexivity.
Qed.
Lemma ev_thA x e : ethA x (err_vec x e) = fthA x e.
Proof.
  unfold ethA, fthA, eth. destruct x as [md cal gs df im fj dw da tg qw qa]; cbn [ps_calib ps_gsens ps_model].
  destruct cal, md, gs; auto; destruct (d_rot e) eqn:E; cbv [rows3 err_vec err_list vlist app nth map seq ps_calib ps_gsens]; rewrite E; reflexivity.
Qed.
Lemma ev_thW x e : ethW x (err_vec x e) = fthW x e.
Proof.
  unfold ethW, fthW, eth. destruct x as [md cal gs df im fj dw da tg qw qa]; cbn [ps_calib ps_gsens ps_model].
  destruct cal, md, gs; auto; destruct (d_rot e) eqn:E; cbv [rows3 err_vec err_list vlist app nth map seq ps_calib ps_gsens]; rewrite E; reflexivity.
Qed.

(** ** curves of the perturbed quantities *)
Lemma turn_derive th q : unit_q q -> m3_derive (fun s => quat_2_Rot (turn s th q)) 0 (m3mul (m3scal (-1) (skew_x th)) (quat_2_Rot q)).
Proof. apply update_rot_derive. Qed.
Lemma turn_0 th q : unit_q q -> quat_2_Rot (turn 0 th q) = quat_2_Rot q.
Proof. apply update_rot_0. Qed.
Lemma const_turn q : m3_derive (fun _ => quat_2_Rot q) 0 (m3mul (m3scal (-1) (skew_x v3zero)) (quat_2_Rot q)).
Proof. eapply m3_derive_eq; [apply m3d_const|]. apply m3_ext; simpl; ring. Qed.

Lemma pert_Rw x e : pst_ok x ->
  m3_derive (fun s => quat_2_Rot (ps_qw (perturb x e s))) 0 (m3mul (m3scal (-1) (skew_x (fthW x e))) (quat_2_Rot (ps_qw x)))
  /\ quat_2_Rot (ps_qw (perturb x e 0)) = quat_2_Rot (ps_qw x).
Proof.
  intros (_ & U & _). unfold perturb, fthW; cbn [ps_qw].
  destruct (ps_calib x), (ps_model x); split; try apply const_turn; try apply turn_derive; try apply turn_0; auto.
Qed.
Lemma pert_Ra x e : pst_ok x ->
  m3_derive (fun s => quat_2_Rot (ps_qa (perturb x e s))) 0 (m3mul (m3scal (-1) (skew_x (fthA x e))) (quat_2_Rot (ps_qa x)))
  /\ quat_2_Rot (ps_qa (perturb x e 0)) = quat_2_Rot (ps_qa x).
Proof.
  intros (_ & _ & U). unfold perturb, fthA; cbn [ps_qa].
  destruct (ps_calib x), (ps_model x); split; try apply const_turn; try apply turn_derive; try apply turn_0; auto.
Qed.
Lemma pert_R x e : pst_ok x ->
  m3_derive (fun s => quat_2_Rot (iv_q (ps_imu (perturb x e s)))) 0 (m3mul (m3scal (-1) (skew_x (d_th e))) (quat_2_Rot (iv_q (ps_imu x))))
  /\ quat_2_Rot (iv_q (ps_imu (perturb x e 0))) = quat_2_Rot (iv_q (ps_imu x)).
Proof. intros (U & _ & _). split; [apply turn_derive|apply turn_0]; auto. Qed.
Lemma pert_unit x e s : pst_ok x -> unit_q (iv_q (ps_imu (perturb x e s))).
Proof. intros (U & _ & _). apply update_unit; auto. Qed.
Lemma pert_Dw x e :
  m3_derive (fun s => Dm (ps_model (perturb x e s)) (ps_dw (perturb x e s))) 0 (fDw x e)
  /\ Dm (ps_model x) (ps_dw (perturb x e 0)) = Dm (ps_model x) (ps_dw x).
Proof.
  unfold perturb, fDw; cbn [ps_model ps_dw]. destruct (ps_calib x); split; try apply Dm_derive; try apply m3d_const; auto.
  apply Dm_ext, bump_0.
Qed.
Lemma pert_Da x e :
  m3_derive (fun s => Dm (ps_model (perturb x e s)) (ps_da (perturb x e s))) 0 (fDa x e)
  /\ Dm (ps_model x) (ps_da (perturb x e 0)) = Dm (ps_model x) (ps_da x).
Proof.
  unfold perturb, fDa; cbn [ps_model ps_da]. destruct (ps_calib x); split; try apply Dm_derive; try apply m3d_const; auto.
  apply Dm_ext, bump_0.
Qed.
Lemma pert_Tg x e :
  m3_derive (fun s => Tg_of (ps_tg (perturb x e s))) 0 (fTg x e)
  /\ Tg_of (ps_tg (perturb x e 0)) = Tg_of (ps_tg x).
Proof.
  unfold perturb, fTg; cbn [ps_tg]. destruct (ps_calib x), (ps_gsens x); cbn [andb]; split; try apply Tg_derive; try apply m3d_const; auto.
  apply Tg_ext, bump_0.
Qed.
Lemma shift_derive d x : v3_derive (fun s => shift s d x) 0 d.
Proof. apply v3d_id. Qed.

(** error velocities of the averaged corrected readings *)
Definition vel_a (x : pst) (e : perr) (au : v3) : v3 :=
  let Ra := quat_2_Rot (ps_qa x) in let Da := Dm (ps_model x) (ps_da x) in
  v3add (v3sub (m3v Ra (m3v (fDa x e) au)) (m3v Ra (m3v Da (d_ba e))))
        (m3v (skew_x (m3v (m3mul Ra Da) au)) (fthA x e)).
Definition vel_w (x : pst) (e : perr) (wu au : v3) : v3 :=
  let Ra := quat_2_Rot (ps_qa x) in let Da := Dm (ps_model x) (ps_da x) in
  let Rw := quat_2_Rot (ps_qw x) in let Dw := Dm (ps_model x) (ps_dw x) in
  let Tg := Tg_of (ps_tg x) in
  v3add (v3add (m3v Rw (m3v (fDw x e) wu)) (m3v (skew_x (m3v (m3mul Rw Dw) wu)) (fthW x e)))
        (m3v Rw (m3v Dw (v3neg (v3add (v3add (d_bg e) (m3v (fTg x e) (m3v (m3mul Ra Da) au))) (m3v Tg (vel_a x e au)))))).

Lemma correct_0 x e m p : pst_ok x -> correct (perturb x e 0) m p = correct x m p.
Proof.
  intros H. unfold correct.
  destruct (pert_Rw x e H) as [_ E1], (pert_Ra x e H) as [_ E2], (pert_Dw x e) as [_ E3], (pert_Da x e) as [_ E4], (pert_Tg x e) as [_ E5].
  rewrite E1, E2. change (ps_model (perturb x e 0)) with (ps_model x). rewrite E3, E4, E5.
  replace (iv_ba (ps_imu (perturb x e 0))) with (iv_ba (ps_imu x)) by (symmetry; apply shift_0).
  replace (iv_bg (ps_imu (perturb x e 0))) with (iv_bg (ps_imu x)) by (symmetry; apply shift_0).
  reflexivity.
Qed.

Lemma vel_a_ok x e m p : pst_ok x -> v3_derive (fun s => c_aavg (correct (perturb x e s) m p)) 0 (vel_a x e (c_aunc (correct x m p))).
Proof.
  intros H. destruct (pert_Ra x e H) as [D2 E2], (pert_Da x e) as [D4 E4].
  unfold correct; cbn [c_aavg c_aunc].
  assert (Db : v3_derive (fun s => v3scal (/ 2) (v3add (v3sub (i_a m) (iv_ba (ps_imu (perturb x e s)))) (v3sub (i_a p) (iv_ba (ps_imu (perturb x e s)))))) 0 (v3neg (d_ba e))).
  { eapply v3_derive_eq.
    - apply v3d_scal, v3d_add; (apply v3d_sub; [apply v3d_const|apply (shift_derive (d_ba e) (iv_ba (ps_imu x)))]).
    - apply v3_ext; simpl; field. }
  eapply v3_derive_eq; [apply v3d_mv; [apply m3d_mul; [exact D2|exact D4]|exact Db]|].
  cbv beta. rewrite E2. change (ps_model (perturb x e 0)) with (ps_model x). rewrite E4.
  change (iv_ba (ps_imu (perturb x e 0))) with (shift 0 (d_ba e) (iv_ba (ps_imu x))). rewrite shift_0.
  unfold vel_a.
  generalize (quat_2_Rot (ps_qa x)) (Dm (ps_model x) (ps_da x)) (fDa x e) (fthA x e) (d_ba e)
    (v3scal (/ 2) (v3add (v3sub (i_a m) (iv_ba (ps_imu x))) (v3sub (i_a p) (iv_ba (ps_imu x))))).
  intros Q A B t b u. apply v3_ext; simpl; ring.
Qed.

Lemma vel_w_ok x e m p : pst_ok x ->
  v3_derive (fun s => c_wavg (correct (perturb x e s) m p)) 0 (vel_w x e (c_wunc (correct x m p)) (c_aunc (correct x m p))).
Proof.
  intros H. pose proof (vel_a_ok x e m p H) as Da_.
  destruct (pert_Rw x e H) as [D1 E1], (pert_Dw x e) as [D3 E3], (pert_Tg x e) as [D5 E5].
  assert (Du : v3_derive (fun s => c_wunc (correct (perturb x e s) m p)) 0
     (v3neg (v3add (v3add (d_bg e) (m3v (fTg x e) (c_aavg (correct x m p)))) (m3v (Tg_of (ps_tg x)) (vel_a x e (c_aunc (correct x m p))))))).
  { apply (v3_derive_ext (fun s => v3sub (v3sub (v3scal (/ 2) (v3add (i_w m) (i_w p))) (iv_bg (ps_imu (perturb x e s))))
              (m3v (Tg_of (ps_tg (perturb x e s))) (c_aavg (correct (perturb x e s) m p))))).
    { intros s. unfold correct; cbn [c_wunc c_aavg].
      generalize (m3mul (quat_2_Rot (ps_qa (perturb x e s))) (Dm (ps_model (perturb x e s)) (ps_da (perturb x e s)))) (Tg_of (ps_tg (perturb x e s)))
        (iv_ba (ps_imu (perturb x e s))) (iv_bg (ps_imu (perturb x e s))).
      intros M T a b. apply v3_ext; simpl; field. }
    eapply v3_derive_eq.
    - apply v3d_sub; [apply v3d_sub; [apply v3d_const|apply (shift_derive (d_bg e) (iv_bg (ps_imu x)))]|].
      apply v3d_mv; [exact D5|exact Da_].
    - cbv beta. rewrite E5, correct_0 by auto.
      generalize (vel_a x e (c_aunc (correct x m p))) (Tg_of (ps_tg x)) (fTg x e) (c_aavg (correct x m p)) (d_bg e).
      intros u T T' a b. apply v3_ext; simpl; ring. }
  apply (v3_derive_ext (fun s => m3v (m3mul (quat_2_Rot (ps_qw (perturb x e s))) (Dm (ps_model (perturb x e s)) (ps_dw (perturb x e s))))
      (c_wunc (correct (perturb x e s) m p)))); [intros; reflexivity|].
  eapply v3_derive_eq; [apply v3d_mv; [apply m3d_mul; [exact D1|exact D3]|exact Du]|].
  cbv beta. rewrite E1, correct_0 by auto. change (ps_model (perturb x e 0)) with (ps_model x). rewrite E3.
  unfold vel_w. change (c_aavg (correct x m p)) with (m3v (m3mul (quat_2_Rot (ps_qa x)) (Dm (ps_model x) (ps_da x))) (c_aunc (correct x m p))).
  generalize (v3add (v3add (d_bg e) (m3v (fTg x e) (m3v (m3mul (quat_2_Rot (ps_qa x)) (Dm (ps_model x) (ps_da x))) (c_aunc (correct x m p)))))
        (m3v (Tg_of (ps_tg x)) (vel_a x e (c_aunc (correct x m p))))).
  generalize (quat_2_Rot (ps_qw x)) (Dm (ps_model x) (ps_dw x)) (fDw x e) (fthW x e) (c_wunc (correct x m p)).
  intros Q A B t b u. apply v3_ext; simpl; ring.
Qed.
