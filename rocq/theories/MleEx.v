(** Concrete cases for C92. *)
From Coq Require Import Reals List Arith ZArith Bool Sorted Lia Lra.
From Verif Require Import RBool Outcome GeoModel GeoSpec GeoProofs ExpSeries Lin TypesModel ImuModel ImuSpec DbModel DbSpec InitModel PropModel CamModel HelpModel HelpSpec CpiModel CpiSpec CpiProofs CeresModel CeresSpec
  StartModel StartEx DynModel DynSpec DynProofs DynThms DynEx StateSpec MleModel MleSpec MleBuild MleZero MleHand.
Import ListNotations.
Open Scope R_scope.

Definition exm_k : vec := fun i => if (i <? 2)%nat then 1 else 0.
Definition exm_o : mopts := mkMO exy_o [(0%nat, (CRadtan, exm_k))] 1 false false 10 10 100 100.
Definition exm_F : facs := mkFacs (fun _ A => Some (fun i j => if Nat.eqb i j then sqrt (A i j) else 0)) (fun _ _ => Some mid) (fun _ => Some mid) (fun _ => mid).
Definition exm_data : list imu := [rdg 2; rdg 3; rdg (7 / 2); rdg 4; rdg 5].
Definition exm_q : q4 := Q4 0 0 0 1.
Definition exm_gu : guess := mkGu [(3, exm_q, v3zero, V3 (-1 / 2) 0 0); (4, exm_q, v3zero, V3 (1 / 2) 0 0)] (map (fun i => (i, V3 0 0 4)) (seq 0 8)).
Lemma exm_unit : unit_q exm_q. Proof. unfold unit_q, exm_q. cbn. ring. Qed.
Lemma exm_factors n A : weights n A -> factors exm_F n A.
Proof.
  intros W. eexists _, mid. split; [reflexivity|]. split; [|reflexivity]. split.
  - intros i j Hij Hj. destruct (Nat.eqb_spec i j); [lia|reflexivity].
  - intros i j Hi Hj. unfold mmul, mtr. rewrite (sumn_delta n i); [|exact Hi|intros l Hl N; destruct (Nat.eqb_spec i l); [congruence|ring]]. rewrite Nat.eqb_refl, (Nat.eqb_sym j i). specialize (W i j Hi Hj).
    destruct (Nat.eqb_spec i j) as [->|N]; [apply sqrt_sqrt; lra|rewrite W; ring].
Qed.
Lemma exm_priors : priors_ok exm_F.
Proof. split; [apply exm_factors, first_weights|]. split; apply exm_factors; [apply ext_weights|apply int_weights]. Qed.
Lemma exm_inj : injective 15 (mtr mid).
Proof. intros v H i Hi. rewrite <- (H i Hi). unfold mvec, mtr, mid. rewrite (sumn_delta 15 i); [rewrite Nat.eqb_refl; ring|exact Hi|]. intros l _ N. destruct (Nat.eqb_spec l i); [congruence|ring]. Qed.
Lemma exm_spans P : spans_ok exm_F exy_o exm_data P.
Proof. intros i a b l _ _. exists mid. split; [reflexivity|exact exm_inj]. Qed.
Lemma exm_next i a b : next_to [3; 4] i a b -> i = 0%nat /\ a = 3 /\ b = 4.
Proof. intros (H1 & H2). destruct i as [|[|i]]; cbn in H1, H2; [|discriminate|destruct i; discriminate]. injection H1 as <-. injection H2 as <-. auto. Qed.
Lemma exm_span l : span exy_o exm_data 3 4 l -> l = pairs_of [rdg 3; rdg (7 / 2); rdg 4].
Proof. intros (rd & E & ->). change (yo_dt exy_o) with 0 in E. unfold exm_data in E. rewrite exy_select in E by lra. injection E as <-. reflexivity. Qed.
Lemma exm_steady : steady exy_o exm_data [3; 4].
Proof.
  intros i a b l Hn Hs. destruct (exm_next _ _ _ Hn) as (_ & -> & ->). rewrite (exm_span l Hs). intros r Hr. right; left. cbn [pairs_of] in Hr. destruct Hr as [<-|[<-|[]]]; unfold unbiased; cbn [rd_w0 rd_w1 rdg i_w yo_bg exy_o]; apply v3_ext; simpl; field.
Qed.
Lemma exm_chrono : chrono exm_data.
Proof. cbn; repeat split; intros b H; repeat (destruct H as [<-|H]; [cbn; lra|]); destruct H. Qed.
Lemma exm_ints : ints_known exm_o exy_cut.
Proof. intros id f cam ts H Hc. apply in_map_iff in H. destruct H as (i & E & _). injection E as <- <-. destruct Hc as [E|[]]. injection E as <- <-. exists (CRadtan, exm_k). reflexivity. Qed.
Lemma exm_built : exists pr, assemble exm_F exm_o exy_cut exm_data 4 exm_gu = Ok pr /\ In 4 (pr_times pr) /\ built exm_F exm_o exy_cut exm_data exm_gu pr.
Proof.
  destruct exy_any as (L & g & E). destruct (core_inv _ _ _ _ _ _ E) as (_ & _ & old & cs & E3 & E4 & E5). destruct exy_scan as (S1 & _ & _ & _).
  pose proof exy_valid as EV. pose proof (build_gen exm_F exm_o exy_cut exm_data 4 exm_gu old cs) as G. cbv zeta in G. change (mo_y exm_o) with exy_o in G.
  generalize dependent (scan exy_o exy_cut 4). intros s E3 E5 S1 EV G.
  apply G; [apply exy_dbok|apply exy_win|apply exy_np|apply exm_chrono|cbn; lra|apply exy_meas|apply exy_known|apply exm_ints|symmetry; exact S1| |exact E3|exact E4|exact E5|apply exm_priors|apply exm_spans].
  intros id H. assert (X : In (id, exy_g id) (valid_feats exy_o s exy_cut)).
  { rewrite EV. unfold exy_cut. apply in_map_iff. exists id. split; [reflexivity|]. unfold exm_gu in H. cbn [gu_feats] in H. rewrite map_map in H. cbn [fst] in H. rewrite map_id in H. exact H. }
  unfold valid_feats in X. apply filter_In in X. exact (proj2 X).
Qed.

(** values: the states and calibration of the guess, all features at [p] *)
Definition exm_A (pr : problem) (p : v3) : assign :=
  mkAs (map (start_of exy_o) (gu_poses exm_gu)) (map (fun _ => (exm_q, v3zero)) (pr_cams pr)) (map (fun _ => exm_k) (pr_cams pr)) (map (fun _ => p) (pr_fids pr)).
Lemma exm_near : near_q exm_q exm_q.
Proof. split; [apply exm_unit|]. left. apply m3_ext; cbn; field. Qed.
Lemma exm_cams pr cam : built exm_F exm_o exy_cut exm_data exm_gu pr -> In cam (pr_cams pr) -> cam = 0%nat.
Proof.
  intros (_ & (_ & B) & _) H. destruct (B cam H) as (id & f & ob & I & Ob & _). apply in_map_iff in I. destruct I as (i & E & _). injection E as <- <-. destruct cam; [reflexivity|]. destruct Ob.
Qed.
Lemma nth_const {X Y} (c : Y) (l : list X) i x y : nth_error l i = Some x -> nth_error (map (fun _ => c) l) i = Some y -> y = c.
Proof. intros H E. rewrite (map_nth_error _ _ _ H) in E. congruence. Qed.
Lemma exm_values pr p : built exm_F exm_o exy_cut exm_data exm_gu pr -> values exm_o exm_gu pr (exm_A pr p).
Proof.
  intros B. pose proof (exm_cams pr) as C. destruct (proj1 B) as (B1 & _). unfold values, exm_A. cbn [as_x as_c as_k as_f]. rewrite !map_length, B1. split; [reflexivity|]. do 3 (split; [reflexivity|]). split; [|split; [|split]].
  - intros x [<-|[<-|[]]]; apply exm_unit.
  - intros e H. apply in_map_iff in H. destruct H as (c & <- & _). apply exm_unit.
  - intros x l e l' E1 E2. cbn [exm_gu gu_poses map] in E1, E2. injection E1 as <- <-. injection E2 as <- <-. apply exm_near.
  - intros c cam e e0 H1 H2 H3. apply (nth_const _ _ _ _ _ H1) in H2. subst e. rewrite (C cam B (nth_error_In _ _ H1)) in H3. injection H3 as <-. apply exm_near.
Qed.
Lemma exm_move v w : v = V3 (-1 / 2) 0 0 -> w = V3 (1 / 2) 0 0 ->
  moves (up_gravity exy_o) (map (piece true v3zero v3zero) (pairs_of [rdg 3; rdg (7 / 2); rdg 4])) (mkBody (quat_2_Rot exm_q) v v3zero) (mkBody (quat_2_Rot exm_q) w v3zero).
Proof.
  intros -> ->. pose proof (straight_moves exy_a (up_gravity exy_o) [7 / 2 - 3; 4 - 7 / 2] (V3 (-1 / 2) 0 0) v3zero) as M. cbv zeta in M.
  replace (map (piece true v3zero v3zero) (pairs_of [rdg 3; rdg (7 / 2); rdg 4])) with (map (fun dt => (dt, v3zero, exy_a)) [7 / 2 - 3; 4 - 7 / 2]).
  2:{ cbn [pairs_of map]. unfold piece, unbiased. cbn [rd_t0 rd_t1 rd_w0 rd_w1 rd_a0 rd_a1 rdg i_t i_w i_a]. repeat f_equal; unfold exy_a; apply v3_ext; simpl; field. }
  replace (quat_2_Rot exm_q) with m3id by (apply m3_ext; cbn; field). eapply eq_ind; [exact M|]. unfold exy_a, up_gravity. f_equal; apply v3_ext; cbn; field.
Qed.
Lemma exm_pix c : let r := predicted CRadtan exm_k (exm_q, v3zero) c (V3 0 0 4) in cl_q c = exm_q -> cl_p c = v3zero -> r 0%nat = 0 /\ r 1%nat = 0.
Proof.
  intros r Q P. unfold r, predicted. rewrite Q, P. cbn [fst snd].
  replace (v3add _ _) with (V3 0 0 4) by (apply v3_ext; cbn; field). unfold projected, cam_distort, rt_distort. cbn. replace (0 / 4) with 0 by field. replace (0 * 0 + 0 * 0) with 0 by ring. rewrite sqrt_0. split; ring.
Qed.
Lemma exm_seen s P kept : In s (wanted exy_cut P kept) -> snd s = (0, 0).
Proof.
  unfold wanted. intros H. apply in_flat_map in H. destruct H as ([id f] & I & H). apply in_map_iff in I. destruct I as (i & E & _). injection E as <- <-. cbn [fst snd] in H. destruct (existsb _ kept); [|destruct H].
  cbn [exy_g f_ts map flat_map] in H. rewrite app_nil_r in H. apply in_map_iff in H. destruct H as (ob & <- & H). apply filter_In in H. destruct H as (H & _). cbn in H. destruct H as [<-|[<-|[]]]; reflexivity.
Qed.
Lemma exm_truth pr : built exm_F exm_o exy_cut exm_data exm_gu pr -> truth exm_o exy_cut exm_data exm_gu pr (exm_A pr (V3 0 0 4)).
Proof.
  intros B. pose proof (exm_cams pr) as C. unfold truth. cbv zeta. cbn [exm_A as_x as_c as_k as_f]. split; [|split; [|split; [|split; [|split]]]].
  - intros x [<-|[<-|[]]]; split; reflexivity.
  - intros i a b l x x' Hn Hs Hx Hx'. destruct (exm_next _ _ _ Hn) as (-> & -> & ->). rewrite (exm_span l Hs). cbn [nth_error map gu_poses exm_gu] in Hx, Hx'. injection Hx as <-. injection Hx' as <-. apply exm_move; reflexivity.
  - intros x l e l' E1 E2. cbn [exm_gu gu_poses map] in E1, E2. injection E1 as <- <-. injection E2 as <- <-. split; [reflexivity|]. exists v3zero. split; [|reflexivity]. split; [rewrite norm_0; apply PI_RGT_0|]. exists m3id. split; [apply mexp_zero; reflexivity|]. apply m3_ext; cbn; ring.
  - intros c cam Hc. rewrite (map_nth_error _ _ _ Hc), (C cam B (nth_error_In _ _ Hc)). reflexivity.
  - intros c cam Hc. rewrite (map_nth_error _ _ _ Hc), (C cam B (nth_error_In _ _ Hc)). reflexivity.
  - intros i k c id cam t u x p e m kv Iw Hi Hk Hc Hx Hp He Hm. apply exm_seen in Iw. cbn [snd] in Iw. subst u. apply (nth_const _ _ _ _ _ Hk) in Hp. subst p. rewrite (C cam B (nth_error_In _ _ Hc)) in He, Hm. injection He as <-. injection Hm as <- <-.
    apply exm_pix; destruct i as [|[|i]]; cbn in Hx; try (injection Hx as <-; reflexivity); destruct i; discriminate.
Qed.
(** with the features elsewhere the cost is positive *)
Lemma exm_off c : let r := predicted CRadtan exm_k (exm_q, v3zero) c (V3 4 0 4) in cl_q c = exm_q -> cl_p c = v3zero -> r 0%nat = 1.
Proof.
  intros r Q P. unfold r, predicted. rewrite Q, P. cbn [fst snd].
  replace (v3add _ _) with (V3 4 0 4) by (apply v3_ext; cbn; field). unfold projected, cam_distort, rt_distort. cbn. field.
Qed.
Lemma exm_wanted : In (0%nat, 0%nat, 3, (0, 0)) (wanted exy_cut [3; 4] (seq 0 8)).
Proof.
  unfold wanted. apply in_flat_map. exists (0%nat, exy_g 0). split; [left; reflexivity|]. cbn [fst snd existsb seq Nat.eqb orb]. cbn [exy_g f_ts map flat_map fst]. rewrite app_nil_r. apply in_map_iff. exists (3, (0, 0), (0, 0)). split; [reflexivity|]. apply filter_In. split; [left; reflexivity|]. apply tfind_in. left. reflexivity.
Qed.
Lemma exm_cost : exists pr, built exm_F exm_o exy_cut exm_data exm_gu pr /\ cost pr (exm_A pr (V3 0 0 4)) = Ok 0 /\ exists c, cost pr (exm_A pr (V3 4 0 4)) = Ok c /\ 0 < c.
Proof.
  destruct exm_built as (pr & _ & _ & B). exists pr. split; [exact B|]. split.
  - apply (truth_thm exm_F exm_o exy_cut exm_data exm_gu pr _ B exm_priors (exm_spans _) exm_steady ltac:(cbn; lra) (exm_values pr _ B) (exm_truth pr B)).
  - destruct (zero_thm exm_F exm_o exy_cut exm_data exm_gu pr _ B exm_priors (exm_spans _) exm_steady ltac:(cbn; lra) (exm_values pr (V3 4 0 4) B)) as (c & E & P & Q). exists c. split; [exact E|].
    destruct (Req_dec c 0) as [Z|Z]; [|lra]. exfalso. apply Q in Z. destruct Z as (_ & _ & _ & _ & Z).
    destruct B as ((B1 & _) & _ & (_ & B3) & _ & _ & f0 & imus & cals & imgs & _ & _ & _ & _ & G & _).
    destruct (map_in_r _ _ _ _ G exm_wanted) as (t & It & Ab). destruct (about_inv _ _ _ _ _ Ab) as (f & i & k & c0 & id & cam & tm & -> & A1 & A2 & A3 & A4). injection A4 as <- <- <- _ _.
    assert (i = 0%nat). { destruct i as [|[|i]]; [reflexivity|cbn in A3; injection A3 as A3; lra|destruct i; discriminate]. } subst i.
    destruct (Z 0%nat k c0 0%nat 0%nat 3 (0, 0) (start_of exy_o (3, exm_q, v3zero, V3 (-1 / 2) 0 0)) (V3 4 0 4) (exm_q, v3zero) exm_k CRadtan exm_k exm_wanted A3 A1 A2) as (Z0 & _); [reflexivity| | | |reflexivity|].
    + apply map_nth_error with (1 := A1). + apply map_nth_error with (1 := A2). + apply map_nth_error with (1 := A2).
    + rewrite exm_off in Z0 by reflexivity. cbn in Z0. lra.
Qed.

(** ** C93 *)
(** values with the states elsewhere *)
Definition exm_A5 (pr : problem) : assign :=
  let A := exm_A pr v3zero in mkAs (map (fun x => mkCl (cl_q x) (cl_bg x) (cl_v x) (cl_ba x) (V3 5 0 0)) (as_x A)) (as_c A) (as_k A) (as_f A).
Lemma exm_values5 pr : built exm_F exm_o exy_cut exm_data exm_gu pr -> values exm_o exm_gu pr (exm_A5 pr).
Proof.
  intros B. destruct (exm_values pr v3zero B) as (V1 & V2 & V3 & V4 & V5 & V6 & V7 & V8). unfold exm_A5. split; [cbn [as_x]; rewrite map_length; exact V1|]. do 3 (split; [assumption|]).
  split; [intros x H; cbn [as_x] in H; apply in_map_iff in H; destruct H as (x' & <- & I); apply (V5 x' I)|]. split; [exact V6|]. split; [|exact V8].
  intros x l e l' E1 E2. cbn [as_x exm_A exm_gu gu_poses map] in E1, E2. injection E1 as <- <-. injection E2 as <- <-. apply exm_near.
Qed.
Definition exm_old : handed := mkHd (mkCl exm_q v3zero v3zero v3zero v3zero) [] [].
Lemma exm_index : index Reqb 4 [3; 4] = Ok 1%nat.
Proof. cbn [index]. rewrite eq_f by lra. rewrite reqb_refl. reflexivity. Qed.
(** a call that fails late has already replaced the state it was given *)
Lemma late_failure : exists pr h, built exm_F exm_o exy_cut exm_data exm_gu pr /\ values exm_o exm_gu pr (exm_A5 pr) /\ finish exm_o pr 4 (exm_A5 pr) true (fun _ => None) exm_old = Ok (None, h) /\ hd_imu h <> hd_imu exm_old.
Proof.
  destruct exm_built as (pr & _ & _ & B). exists pr. assert (T : pr_times pr = [3; 4]) by apply (proj1 B). eexists. split; [exact B|]. split; [apply exm_values5, B|].
  unfold finish. rewrite T. cbn [exm_o mo_no_iter negb andb]. rewrite exm_index. cbn [obind exm_A5 exm_A as_x gu_poses exm_gu map nth_error]. split; [reflexivity|]. cbn [hd_imu exm_old cl_q cl_bg cl_v cl_ba start_of]. intros E. injection E as E1 E2. lra.
Qed.
(** the position of the IMU is not that of its clone *)
Lemma zeroed : exists pr h P p, built exm_F exm_o exy_cut exm_data exm_gu pr /\ values exm_o exm_gu pr (exm_A5 pr) /\ finish exm_o pr 4 (exm_A5 pr) true (fun _ => Some exh_B) exm_old = Ok (Some P, h) /\
  In (4, (cl_q (hd_imu h), p)) (hd_clones h) /\ p <> cl_p (hd_imu h).
Proof.
  destruct exm_built as (pr & _ & _ & B). exists pr. assert (T : pr_times pr = [3; 4]) by apply (proj1 B). eexists _, _, (V3 5 0 0). split; [exact B|]. split; [apply exm_values5, B|].
  unfold finish. rewrite T. cbn [exm_o mo_no_iter negb andb]. rewrite exm_index. cbn [obind exm_A5 exm_A as_x gu_poses exm_gu map nth_error]. split; [reflexivity|]. cbn [hd_imu hd_clones cl_q cl_p combine start_of]. split; [right; left; reflexivity|]. intros E. injection E as E1. lra.
Qed.
