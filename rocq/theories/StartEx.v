(** Concrete cases for C65 and C81. *)
From Coq Require Import Reals List Arith ZArith Bool Lia Lra.
From Verif Require Import RBool Outcome GeoModel Lin TypesModel StateModel StateSpec ReachModel ReachSpec StateInit StateEx ImuModel DbModel DbSpec InitModel InitSpec StartModel StartSpec StartThms.
Import ListNotations.
Open Scope R_scope.

(** fifteen features that rest until 3.2 and have moved ten pixels at 3.8; the newest image is at 4 *)
Definition exj_f (i : nat) : feature :=
  let us := [(3, 3); (0, 0); (0, 0); (0, 0); (10, 0); (20, 0)] in
  mkF i false [(0%nat, us)] [(0%nat, us)] [(0%nat, [1; 2; 5 / 2; 32 / 10; 38 / 10; 4])] (0%Z, 0, v3zero, v3zero).
Definition exj_g (i : nat) : feature :=
  let us := [(0, 0); (0, 0); (0, 0); (10, 0); (20, 0)] in
  mkF i false [(0%nat, us)] [(0%nat, us)] [(0%nat, [2; 5 / 2; 32 / 10; 38 / 10; 4])] (0%Z, 0, v3zero, v3zero).
Definition exj_db : db := map (fun i => (i, exj_f i)) (seq 0 15).
Definition exj_cut : db := map (fun i => (i, exj_g i)) (seq 0 15).
Definition exj_opts (dyn : bool) : dopts := mkDO (mkIO 2 1 (981 / 100)) 5 dyn 0.

Lemma lt_t a b : a < b -> Rltb a b = true.
Proof. intros. destruct (Rltb_spec a b); auto. lra. Qed.
Lemma lt_f a b : b <= a -> Rltb a b = false.
Proof. intros. destruct (Rltb_spec a b); auto. lra. Qed.
Lemma le_t a b : a <= b -> Rleb a b = true.
Proof. intros. destruct (Rleb_spec a b); auto. lra. Qed.
Lemma le_f a b : b < a -> Rleb a b = false.
Proof. intros. destruct (Rleb_spec a b); auto. lra. Qed.
Lemma eq_t a b : a = b -> Reqb a b = true.
Proof. intros. destruct (Reqb_spec a b); auto; tauto. Qed.
Lemma eq_f a b : a <> b -> Reqb a b = false.
Proof. intros. destruct (Reqb_spec a b); auto; tauto. Qed.
Ltac rb := repeat match goal with
  | |- context [Rltb ?a ?b] => first [rewrite (lt_t a b) by lra | rewrite (lt_f a b) by lra]
  | |- context [Rleb ?a ?b] => first [rewrite (le_t a b) by lra | rewrite (le_f a b) by lra]
  | |- context [Reqb ?a ?b] => first [rewrite (eq_t a b) by lra | rewrite (eq_f a b) by lra]
  end.

Lemma exj_clean i t : t = 4 - 2 - 10 / 100 -> clean_older_measurements t (exj_f i) = Ok (exj_g i).
Proof. intros ->. unfold clean_older_measurements, clean_feature, exj_f, exj_g. cbn. unfold clean_cam. cbn. rb. cbn. rb. cbn. rb. reflexivity. Qed.
Lemma exj_cleanup t : t = 4 - 2 - 10 / 100 -> cleanup_measurements t exj_db = Ok exj_cut.
Proof.
  intros Ht. unfold cleanup_measurements, exj_db, exj_cut. generalize (seq 0 15). induction l as [|i l IH]; [reflexivity|]. cbn [map clean_loop].
  rewrite exj_clean by auto. cbn [obind]. rewrite IH. reflexivity.
Qed.
Lemma exj_newest : newest_cam exj_db = 4.
Proof.
  assert (H : forall i m, m = -1 \/ m = 4 -> fold_left (fun m ct => fold_left std_max (snd ct) m) (f_ts (exj_f i)) m = 4).
  { intros i m [-> | ->]; cbn [exj_f f_ts fold_left snd]; unfold std_max; rb; reflexivity. }
  assert (G : forall l, fold_left (fun m f => fold_left (fun m ct => fold_left std_max (snd ct) m) (f_ts f) m) (map snd (map (fun i => (i, exj_f i)) l)) 4 = 4).
  { induction l as [|i l IH]; [reflexivity|]. cbn [map fold_left snd]. rewrite H by auto. exact IH. }
  assert (K : forall i l, newest_cam (map (fun i => (i, exj_f i)) (i :: l)) = 4).
  { intros i l. unfold newest_cam. cbn [map fold_left snd]. rewrite H by auto. apply G. }
  exact (K 0%nat (seq 1 14)).
Qed.
Lemma exj_scan0 i : disp_range_cams (exj_g i) (-1) 3 (f_ts (exj_g i)) = Ok [uvdist (0, 0) (0, 0)].
Proof. unfold exj_g. cbn. rb. cbn. reflexivity. Qed.
Lemma exj_scan1 i : disp_range_cams (exj_g i) 3 4 (f_ts (exj_g i)) = Ok [uvdist (0, 0) (10, 0)].
Proof. unfold exj_g. cbn. rb. cbn. reflexivity. Qed.
Lemma dist0 : uvdist (0, 0) (0, 0) = 0.
Proof. unfold uvdist. cbn. rewrite <- sqrt_0. f_equal. lra. Qed.
Lemma dist1 : uvdist (0, 0) (10, 0) = 10.
Proof. unfold uvdist. cbn [fst snd]. replace ((10 - 0) ^ 2 + (0 - 0) ^ 2) with (10 ^ 2) by lra. apply sqrt_pow2. lra. Qed.
Lemma collect_const g x l : (forall i : nat, g (exj_g i) = Ok [x]) -> collect g (map snd (map (fun i => (i, exj_g i)) l)) = Ok (repeat x (length l)).
Proof. intros H. induction l as [|i l IH]; [reflexivity|]. cbn [map collect snd]. rewrite H. cbn [obind]. rewrite IH. reflexivity. Qed.
Lemma rsum_rep x n : rsum (repeat x n) = INR n * x.
Proof. induction n; [cbn; lra|]. rewrite S_INR. cbn [repeat rsum]. rewrite IHn. lra. Qed.
Lemma exj_range lo hi x : (forall i, disp_range_cams (exj_g i) lo hi (f_ts (exj_g i)) = Ok [x]) ->
  exists dv, compute_disparity_range exj_cut hi lo = Ok (Some x, dv, 15%nat).
Proof.
  intros H. unfold compute_disparity_range, exj_cut. rewrite (collect_const _ x) by exact H. cbn [obind]. rewrite seq_length. unfold disp_stats. rewrite repeat_length, rsum_rep.
  eexists. f_equal. f_equal. f_equal. f_equal. cbn. lra.
Qed.
Lemma exj_flags dyn : disp_flags (exj_opts dyn) exj_cut 4 = Ok (Some (false, true)).
Proof.
  unfold disp_flags, exj_opts. cbn [do_disp do_stat io_window]. rb. replace (4 - 5 / 10 * 2) with 3 by lra. cbv zeta.
  destruct (exj_range _ _ _ exj_scan0) as (d0 & ->). cbn [obind]. destruct (exj_range _ _ _ exj_scan1) as (d1 & ->). cbn [obind fst snd Nat.ltb Nat.leb orb above].
  rewrite dist0, dist1. rb. reflexivity.
Qed.

Lemma inc_chron (l : list obs) : increasing (map otime l) -> forall l1 a l2 b l3, l = l1 ++ a :: l2 ++ b :: l3 -> otime a < otime b.
Proof.
  intros H l1. revert l H. induction l1 as [|x l1 IH]; intros l H a l2 b l3 ->; cbn [map app] in H; apply StateFrame.increasing_cons in H; destruct H as [A B].
  - apply A. rewrite map_app. apply in_or_app. right. left. reflexivity.
  - eapply IH; eauto.
Qed.
Lemma exj_ok : db_ok exj_db /\ strictly_chron exj_db.
Proof.
  split.
  - split; [unfold exj_db; rewrite map_map, map_id; apply seq_NoDup|]. intros id f H. unfold exj_db in H. apply in_map_iff in H. destruct H as (i & H & _). injection H as <- <-.
    split; [reflexivity|]. split; [cbn; constructor; [intros []|constructor]|]. intros cam. destruct cam; cbn; auto.
  - intros id f cam H. apply DbProofs.alook_in in H; [|unfold exj_db; rewrite map_map, map_id; apply seq_NoDup]. unfold exj_db in H. apply in_map_iff in H. destruct H as (i & H & _). injection H as <- <-.
    apply inc_chron. destruct cam as [|cam]; [|exact I]. cbn. repeat split; lra.
Qed.

(** a jerk: with the jerk waited for the static initializer runs, otherwise the dynamic one *)
Lemma exj_runs (data : list imu) :
  inertial_initialize (A := nat) (exj_opts true) (fun _ _ => Ok (Some 7%nat)) exj_db data false = Ok (VDyn (Some 7%nat), exj_cut, drop_before (19 / 10) data) /\
  inertial_initialize (A := nat) (exj_opts true) (fun _ _ => Ok (Some 7%nat)) exj_db [mkImu 0 v3zero v3zero] true = Ok (VStatic None, exj_cut, []).
Proof.
  assert (D : forall l, drop_before (4 - 2 - 10 / 100 + 0) l = drop_before (19 / 10) l) by (intros; f_equal; lra).
  split; unfold inertial_initialize; rewrite exj_newest; cbv zeta; cbn [exj_opts do_stat io_window do_dt]; rb; cbn [orb]; rewrite exj_cleanup by reflexivity; cbn [obind]; fold (exj_opts true);
    rewrite exj_flags; cbn [obind negb andb orb exj_opts do_stat io_thresh do_dyn]; rewrite D.
  - reflexivity.
  - rb. cbn [drop_before i_t]. rb. reflexivity.
Qed.

(** a manager whose initializer takes three images: the first and the third become clones *)
Definition ext_opts : opts := mkOpts true true true true true true 2 2 0.
Lemma ext_new : exists st, fresh ex_chi2 (s_time st) st /\ s_opts st = ext_opts.
Proof.
  destruct (new_state_ok ext_opts ex_cams) as (st & E & _ & D & _ & _ & O & C & Sl & _). exists st. split; auto. split; [|split; [exact C|split; [rewrite O; cbn; lia|reflexivity]]].
  eapply reach_new; [|exact E]. simpl. intros i Hi. assert (i = 0 \/ i = 1)%nat as [-> | ->] by lia; auto.
Qed.
Definition ext_pin (s : state) (t : R) : prop_in := ex_prop (s_opts s).
Lemma ext_pin_ok : pin_ok ext_pin.
Proof. intros s t. apply ex_prop_ok. Qed.
Lemma ext_forward : exists st st', fresh ex_chi2 (s_time st) st /\ increasing [s_time st; s_time st + 1; s_time st + 2; s_time st + 3] /\
  forward ext_pin [s_time st; s_time st + 1; s_time st + 2; s_time st + 3] (s_time st) st = Ok st' /\
  map fst (s_clones st') = [s_time st + 1; s_time st + 3].
Proof.
  destruct ext_new as (st & F & O). set (T := s_time st).
  assert (I : increasing [T; T + 1; T + 2; T + 3]).
  { cbn. repeat split; lra. }
  destruct F as (Rc & Hc & Hm & Ht).
  destruct (forward_loop ex_chi2 ext_pin [T + 1; T + 3] st ext_pin_ok) as (st' & E & F' & O' & C' & T').
  { apply fs_start; auto. } { cbn. repeat split; lra. }
  { intros t Hin. cbn in Hin. unfold T in *. decompose [or] Hin; subst; try lra; tauto. } { rewrite Hc, O. cbn. lia. }
  exists st, st'. split; [repeat split; auto|]. split; [exact I|]. split; [|rewrite C', Hc; reflexivity].
  unfold forward. rewrite O. fold T. cbn [filter]. rb. cbn [ext_opts o_max_clones]. cbn [length Z.ltb Z.compare guard Z.to_nat]. exact E.
Qed.
(** three images while the initializer runs, one more before the thread is gone, then the first that is answered with true *)
Definition ext_events (T : R) (st : state) : list tevent :=
  [TMsg (T - 1); TMsg (T + 1); TMsg (T + 2); TMsg (T + 3); TEnd (Some (T, st)); TMsg (T + 4); TStop; TMsg (T + 5)].
Lemma ext_run : exists st, orderly ex_chi2 false false false (ext_events (s_time st) st) /\ increasing (msg_times (ext_events (s_time st) st)) /\
  answers false false false (ext_events (s_time st) st) = [Some false; Some false; Some false; Some false; None; Some false; None; Some true].
Proof.
  destruct ext_new as (st & F & O). exists st. split; [|split; [|reflexivity]].
  - cbn [ext_events orderly negb orb andb]. split; [reflexivity|]. split; [reflexivity|]. split; [intros ts s E; injection E as <- <-; exact F|]. auto.
  - cbn [ext_events msg_times flat_map app]. cbn. repeat split; lra.
Qed.
