(** Errors of whole trajectories. *)
From Coq Require Import Reals List Arith ZArith Bool Lia Lra Psatz.
From Verif Require Import RBool Outcome GeoModel GeoSpec GeoProofs InitModel EvalModel EvalSpec EvalProofs EvalStats EvalAlign EvalAlign2 EvalThms EvalErr CeresModel ErrModel ErrSpec ErrProofs ErrPose.
Import ListNotations.
Open Scope R_scope.

Lemma f2_length {A B} (Q : A -> B -> Prop) l l' : Forall2 Q l l' -> length l = length l'.
Proof. induction 1; cbn; congruence. Qed.
Lemma omap_all {A B} (f : A -> outcome B) (Q : A -> B -> Prop) l : (forall x, In x l -> exists y, f x = Ok y /\ Q x y) -> exists ys, omap f l = Ok ys /\ Forall2 Q l ys.
Proof.
  induction l as [|x l IH]; intros H; cbn [omap].
  - exists []. split; [reflexivity|constructor].
  - destruct (H x (or_introl eq_refl)) as (y & E & Hy). destruct IH as (ys & E' & F); [intros z I; apply H; right; exact I|]. rewrite E. cbn [obind]. rewrite E'. cbn [obind]. exists (y :: ys). split; [reflexivity|constructor; auto].
Qed.
Lemma omap_seq {B} (f : nat -> outcome B) (Q : nat -> B -> Prop) n : (forall i, (i < n)%nat -> exists y, f i = Ok y /\ Q i y) ->
  exists ys, omap f (seq 0 n) = Ok ys /\ length ys = n /\ forall i y, nth_error ys i = Some y -> Q i y.
Proof.
  intros H. destruct (omap_all f Q (seq 0 n)) as (ys & E & F). { intros i I. apply in_seq in I. apply H. lia. }
  exists ys. split; [exact E|]. split; [rewrite <- (f2_length _ _ _ F), seq_length; reflexivity|].
  intros i y N. assert (L : (i < n)%nat). { rewrite <- (seq_length n 0), (f2_length _ _ _ F). apply nth_error_Some. congruence. }
  assert (G : forall (l : list nat) (ys0 : list B) j b, Forall2 Q l ys0 -> nth_error ys0 j = Some b -> exists a, nth_error l j = Some a /\ Q a b).
  { clear. intros l ys j b F. revert j. induction F as [|x y l ys H F IH]; intros j N; [destruct j; discriminate|]. destruct j as [|j]; cbn in N |- *; [injection N as <-; eauto|auto]. }
  destruct (G _ _ _ _ F N) as (a & Na & Qa). rewrite (nth_error_nth' _ 0%nat) in Na by (rewrite seq_length; lia). rewrite seq_nth in Na by lia. injection Na as <-. exact Qa.
Qed.
Lemma vat_some {A} (l : list A) i : (i < length l)%nat -> exists x, vat l i = Ok x /\ nth_error l i = Some x /\ In x l.
Proof. intros H. apply nth_error_Some in H. destruct (nth_error l i) as [x|] eqn:E; [|congruence]. exists x. unfold vat. rewrite E. split; [reflexivity|]. split; [reflexivity|eapply nth_error_In; eauto]. Qed.
Lemma picks_length {A} (src : list A) idx l : picks src idx l -> length l = length idx.
Proof. intros H. symmetry. exact (f2_length _ _ _ H). Qed.

(** everything needed about a constructed result *)
Lemma result_facts svd est gt m r : traj_wf est -> traj_wf gt -> unit_traj est -> unit_traj gt -> orth_svd svd -> result_new svd est gt m = Ok r ->
  let N := length (t_poses (r_est r)) in
  (3 <= N)%nat /\ length (t_times (r_est r)) = N /\ length (r_gt2est r) = N /\ length (r_est2gt r) = N /\ length (t_poses (r_gt r)) = N /\ length (t_times (r_gt r)) = N /\
  (forall p, In p (t_poses (r_est r)) -> unit_q (po_q p)) /\ (forall p, In p (r_gt2est r) -> unit_q (po_q p)) /\
  (forall p, In p (r_est2gt r) -> unit_q (po_q p)) /\ (forall p, In p (t_poses (r_gt r)) -> unit_q (po_q p)) /\
  (t_co est = [] -> t_co (r_est r) = [] /\ t_cp (r_est r) = []) /\
  (t_co est <> [] -> length (t_co (r_est r)) = N /\ length (t_cp (r_est r)) = N /\ length (t_co (r_gt r)) = N /\ length (t_cp (r_gt r)) = N).
Proof.
  intros WE WG UE UG O H. destruct (result_new_spec svd est gt m r WE WG H) as (a1 & a2 & A1 & A2 & E1 & E2 & L3 & L1 & L2 & PA). cbv zeta.
  destruct (result_units svd est gt m r WE WG UE UG O H) as [Q3 Q4].
  destruct (association_spec 0 0.02 est gt WE WG) as (pairs & _ & _ & _ & A).
  destruct (length (t_times est) <? 3)%nat eqn:B.
  { exfalso. apply Nat.ltb_lt in B. rewrite PA in A. injection A as A A'. rewrite A in *. destruct WE as [WE _]. lia. }
  destruct A as (e & g & E & T & PT & P1 & P2 & C0 & C1). rewrite PA in E. injection E as E E'. rewrite <- E, <- E' in *. clear e g E E'.
  assert (Q1 : forall p, In p (t_poses (r_est r)) -> unit_q (po_q p)) by (intros p I; apply UE; eapply picks_in; eauto).
  assert (LP : length (t_poses (r_est r)) = length pairs) by (rewrite (picks_length _ _ _ P1), map_length; reflexivity).
  split; [exact L3|]. split; [exact L2|]. split; [rewrite E2, map_length; exact L1|]. split; [rewrite E1, map_length; reflexivity|]. split; [exact L1|]. split; [rewrite <- T; exact L2|].
  split; [exact Q1|]. split.
  { intros p I. rewrite E2 in I. apply in_map_iff in I. destruct I as (x & <- & I). destruct a2 as [[Rm t] s].
    apply (apply_align_spec Rm t s x (align_rot _ _ _ _ _ _ _ O Q4 Q1 A2) (Q4 x I)). }
  split; [exact Q3|]. split; [exact Q4|]. split.
  - intros Z. destruct (C0 Z) as (X & Y & _). auto.
  - intros NZ. destruct (C1 NZ) as (X & Y & Z1 & Z2). rewrite LP, (picks_length _ _ _ X), (picks_length _ _ _ Y), !map_length. split; [reflexivity|]. split; [reflexivity|].
    destruct (t_co gt) as [|c cs] eqn:G.
    + destruct (Z1 eq_refl) as [U V]. rewrite U, V, !repeat_length. auto.
    + destruct Z2 as [U V]; [discriminate|]. rewrite (picks_length _ _ _ U), (picks_length _ _ _ V), !map_length. auto.
Qed.

(** the covariance of pose [i], if the file had covariances *)
Definition cov_opt (est : traj) (cs : list m3) (i : nat) : option m3 := match t_co est with [] => None | _ => nth_error cs i end.
Definition nine (w : erow) : list R := [vx (er_pos w); vy (er_pos w); vz (er_pos w); vx (er_ori w); vy (er_ori w); vz (er_ori w); vx (er_rpy w); vy (er_rpy w); vz (er_rpy w)].
Lemma nine_component k w : (k < 9)%nat -> nth k (nine w) 0 = component k w.
Proof. intros H. do 9 (destruct k as [|k]; [reflexivity|]). lia. Qed.

Lemma cov_at_ok est r cs i N : length (t_times (r_est r)) = N -> (i < N)%nat -> (0 < N)%nat -> (t_co est = [] -> cs = []) -> (t_co est <> [] -> length cs = N) ->
  exists c, cov_at cs (length (t_times (r_est r)) =? length cs)%nat i = Ok c /\ c = cov_opt est cs i.
Proof.
  intros L I P Z NZ. unfold cov_at, cov_opt. rewrite L. destruct (t_co est) as [|c0 l0].
  - rewrite (Z eq_refl). cbn [length]. destruct (Nat.eqb_spec N 0); [lia|]. eauto.
  - rewrite (NZ ltac:(discriminate)), Nat.eqb_refl. destruct (vat_some cs i) as (c & E & E' & _). { rewrite (NZ ltac:(discriminate)); exact I. } rewrite E. cbn [obind]. exists (Some c). rewrite E'. auto.
Qed.

Lemma errors_thm svd est gt m r n st : traj_wf est -> traj_wf gt -> unit_traj est -> unit_traj gt -> orth_svd svd -> result_new svd est gt m = Ok r ->
  (1 <= n)%nat -> (forall k, 0 <= s_rmse (st k)) ->
  exists rows st', calculate_error n r st = Ok (rows, st') /\ length rows = length (t_poses (r_est r)) /\
    (forall i w, nth_error rows i = Some w -> exists e g, nth_error (t_times (r_est r)) i = Some (er_t w) /\ nth_error (t_poses (r_est r)) i = Some e /\ nth_error (r_gt2est r) i = Some g /\
      axis_errors e g (cov_opt est (t_co (r_est r)) i) (cov_opt est (t_cp (r_est r)) i) (er_pos w) (er_ori w) (er_rpy w) (er_bpos w) (er_bori w) (er_brpy w)) /\
    (forall k, (k < 9)%nat -> calc_facts (st k) (st' k) (map (fun w => nth k (nine w) 0) rows)).
Proof.
  intros WE WG UE UG O H Ln HS. destruct (result_facts svd est gt m r WE WG UE UG O H) as (L3 & LT & L2 & _ & _ & _ & U1 & U2 & _ & _ & Z & NZ). set (N := length (t_poses (r_est r))) in *.
  assert (X : exists rows, error_rows n r = Ok rows /\ length rows = N /\ (forall i w, nth_error rows i = Some w -> exists e g, nth_error (t_times (r_est r)) i = Some (er_t w) /\ nth_error (t_poses (r_est r)) i = Some e /\ nth_error (r_gt2est r) i = Some g /\
      axis_errors e g (cov_opt est (t_co (r_est r)) i) (cov_opt est (t_cp (r_est r)) i) (er_pos w) (er_ori w) (er_rpy w) (er_bpos w) (er_bori w) (er_brpy w))).
  { unfold error_rows. cbv zeta. fold N. apply (omap_seq _ (fun i w => exists e g, _)). intros i I.
    destruct (vat_some (t_poses (r_est r)) i I) as (e & Ee & Ne & Ie). destruct (vat_some (r_gt2est r) i) as (g & Eg & Ng & Ig); [lia|]. destruct (vat_some (t_times (r_est r)) i) as (t & Et & Nt & _); [lia|].
    destruct (cov_at_ok est r (t_co (r_est r)) i N) as (co & Eco & Hco); auto; [lia|intros Q; apply (Z Q)|intros Q; apply (NZ Q)|].
    destruct (cov_at_ok est r (t_cp (r_est r)) i N) as (cp & Ecp & Hcp); auto; [lia|intros Q; apply (Z Q)|intros Q; apply (NZ Q)|].
    rewrite Ee, Eg. cbn [obind]. rewrite Eco, Ecp, Et. cbn [obind]. destruct (error_one_spec n t e g co cp Ln (U1 e Ie) (U2 g Ig)) as (w & Ew & Tw & Aw).
    exists w. split; [exact Ew|]. exists e, g. rewrite Tw, <- Hco, <- Hcp. auto. }
  destruct X as (rows & E & L & F). exists rows. eexists. split; [unfold calculate_error; rewrite E; cbn [obind]; reflexivity|]. split; [exact L|]. split; [exact F|].
  intros k K. cbv beta. replace (map (fun w => nth k (nine w) 0) rows) with (map (component k) rows) by (apply map_ext; intros w; symmetry; apply nine_component; exact K). apply stats_spec; [apply HS|]. destruct rows; [cbn in L; lia|discriminate].
Qed.

Lemma nees_thm svd est gt m r ori pos : traj_wf est -> traj_wf gt -> unit_traj est -> unit_traj gt -> orth_svd svd -> result_new svd est gt m = Ok r ->
  t_co est <> [] -> (forall P, In P (t_co (r_est r)) \/ In P (t_cp (r_est r)) -> m3det P <> 0) ->
  (forall e g u a, In (e, g) (combine (t_poses (r_est r)) (r_gt2est r)) -> turned_body e g u a -> 1 / 10 ^ 10 <= 2 + 2 * cos a) ->
  0 <= s_rmse ori -> 0 <= s_rmse pos ->
  exists l o p, calculate_nees r ori pos = Ok (o, p) /\ length l = length (t_poses (r_est r)) /\
    (forall i x, nth_error l i = Some x -> exists e g co cp, nth_error (t_poses (r_est r)) i = Some e /\ nth_error (r_gt2est r) i = Some g /\
       nth_error (t_co (r_est r)) i = Some co /\ nth_error (t_cp (r_est r)) i = Some cp /\ nees e g co cp (fst x) (snd x)) /\
    calc_facts ori o (map fst l) /\ calc_facts pos p (map snd l).
Proof.
  intros WE WG UE UG O H NC DT HT HO HP. destruct (result_facts svd est gt m r WE WG UE UG O H) as (L3 & LT & L2 & _ & _ & LG & U1 & U2 & _ & _ & _ & NZ). set (N := length (t_poses (r_est r))) in *.
  destruct (NZ NC) as (C1 & C2 & C3 & C4).
  assert (X : exists l, nees_errors r = Ok l /\ length l = N /\ (forall i x, nth_error l i = Some x -> exists e g co cp, nth_error (t_poses (r_est r)) i = Some e /\ nth_error (r_gt2est r) i = Some g /\
       nth_error (t_co (r_est r)) i = Some co /\ nth_error (t_cp (r_est r)) i = Some cp /\ nees e g co cp (fst x) (snd x))).
  { unfold nees_errors. fold N. apply (omap_seq _ (fun i x => exists e g co cp, _)). intros i I.
    destruct (vat_some (t_poses (r_est r)) i I) as (e & Ee & Ne & Ie). destruct (vat_some (r_gt2est r) i) as (g & Eg & Ng & Ig); [lia|]. destruct (vat_some (t_times (r_est r)) i) as (t & Et & Nt & _); [lia|].
    destruct (vat_some (t_co (r_est r)) i) as (co & Eco & Nco & Ico); [lia|]. destruct (vat_some (t_cp (r_est r)) i) as (cp & Ecp & Ncp & Icp); [lia|].
    rewrite Ee, Eg, Eco, Ecp, Et. cbn [obind]. destruct (nees_one_spec e g co cp (U1 e Ie) (U2 g Ig)) as (xo & xp & E & F); [apply DT; auto|apply DT; auto| |].
    - intros u a T. apply (HT e g u a); [|exact T].
      assert (K : forall (a : list pose) (b : list pose) j x y, nth_error a j = Some x -> nth_error b j = Some y -> In (x, y) (combine a b)).
      { clear. induction a as [|u a IH]; intros [|v b] [|j] x y A B; cbn in *; try discriminate. - injection A as ->. injection B as ->. auto. - right. eapply IH; eauto. }
      eapply K; eauto.
    - exists (xo, xp). split; [exact E|]. exists e, g, co, cp. auto. }
  destruct X as (l & E & L & F). exists l. eexists _, _. split; [|split; [exact L|split; [exact F|]]].
  - unfold calculate_nees, has_cov. rewrite LT, LG, C1, C2, C3, C4, !Nat.eqb_refl. cbn [andb]. rewrite E. reflexivity.
  - split; apply stats_spec; auto; destruct l; cbn in *; try lia; discriminate.
Qed.
Lemma nees_without svd est gt m r ori pos : traj_wf est -> traj_wf gt -> unit_traj est -> unit_traj gt -> orth_svd svd -> result_new svd est gt m = Ok r ->
  t_co est = [] -> calculate_nees r ori pos = Ok (ori, pos).
Proof.
  intros WE WG UE UG O H NC. destruct (result_facts svd est gt m r WE WG UE UG O H) as (L3 & LT & _ & _ & _ & _ & _ & _ & _ & _ & Z & _). destruct (Z NC) as [Z1 _].
  unfold calculate_nees, has_cov. rewrite LT, Z1. cbn [length]. destruct (Nat.eqb_spec (length (t_poses (r_est r))) 0); [lia|]. reflexivity.
Qed.

Lemma planar_thm svd est gt m r ori pos : traj_wf est -> traj_wf gt -> unit_traj est -> unit_traj gt -> orth_svd svd -> result_new svd est gt m = Ok r ->
  0 <= s_rmse ori -> 0 <= s_rmse pos ->
  exists l o p, calculate_ate_2d r ori pos = Ok (o, p) /\ length l = length (t_poses (r_est r)) /\
    (forall i x, nth_error l i = Some x -> exists e g, nth_error (r_est2gt r) i = Some e /\ nth_error (t_poses (r_gt r)) i = Some g /\
       0 <= snd x /\ snd x * snd x = (vx (po_p g) - vx (po_p e)) * (vx (po_p g) - vx (po_p e)) + (vy (po_p g) - vy (po_p e)) * (vy (po_p g) - vy (po_p e)) /\
       (forall d, - PI < d < PI -> 1 / 10 ^ 10 <= 2 + 2 * cos d -> att g = m3mul (about_z d) (att e) -> exists k, fst x = - (180 / PI * k) /\ Rabs (k - d) <= 1 / 10 ^ 18)) /\
    calc_facts ori o (map fst l) /\ calc_facts pos p (map snd l).
Proof.
  intros WE WG UE UG O H HO HP. destruct (result_facts svd est gt m r WE WG UE UG O H) as (L3 & LT & _ & L2 & LG & _ & _ & _ & U1 & _ & _ & _). set (N := length (t_poses (r_est r))) in *.
  assert (X : exists l, ate2d_errors r = Ok l /\ length l = N /\ (forall i x, nth_error l i = Some x -> exists e g, nth_error (r_est2gt r) i = Some e /\ nth_error (t_poses (r_gt r)) i = Some g /\
       0 <= snd x /\ snd x * snd x = (vx (po_p g) - vx (po_p e)) * (vx (po_p g) - vx (po_p e)) + (vy (po_p g) - vy (po_p e)) * (vy (po_p g) - vy (po_p e)) /\
       (forall d, - PI < d < PI -> 1 / 10 ^ 10 <= 2 + 2 * cos d -> att g = m3mul (about_z d) (att e) -> exists k, fst x = - (180 / PI * k) /\ Rabs (k - d) <= 1 / 10 ^ 18))).
  { unfold ate2d_errors. rewrite L2. apply (omap_seq _ (fun i x => exists e g, _)). intros i I.
    destruct (vat_some (r_est2gt r) i) as (e & Ee & Ne & Ie); [lia|]. destruct (vat_some (t_poses (r_gt r)) i) as (g & Eg & Ng & Ig); [lia|]. destruct (vat_some (t_times (r_est r)) i) as (t & Et & Nt & _); [lia|].
    rewrite Ee, Eg, Et. cbn [obind]. eexists. split; [reflexivity|]. exists e, g. split; [exact Ne|]. split; [exact Ng|]. split; [apply sqrt_pos|]. split.
    - unfold ate2d_one. cbn [snd]. rewrite sqrt_sqrt; [cbn; ring|]. cbv zeta. apply Rplus_le_le_0_compat; apply Rle_0_sqr.
    - intros d D C T. apply ate2d_spec; auto. }
  destruct X as (l & E & L & F). exists l. eexists _, _. split; [unfold calculate_ate_2d; rewrite E; reflexivity|]. split; [exact L|]. split; [exact F|].
  split; apply stats_spec; auto; destruct l; cbn in *; try lia; discriminate.
Qed.
