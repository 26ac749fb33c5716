(** Control points built by feed_trajectory and the times they can be queried at (C40). *)
From Coq Require Import Reals List Bool Lia Lra Psatz Sorted ZArith.
From Verif Require Import RBool Outcome GeoModel GeoProofs ExpProofs Se3Proofs BsplModel BsplSpec BsplFind.
Import ListNotations.
Open Scope R_scope.

Lemma map_insert_in t p l e : In e (map_insert t p l) -> e = (t, p) \/ In e l.
Proof.
  induction l as [|[k q] l IH]; simpl; [intros [<-|[]]; auto|].
  destruct (Rltb_spec t k) as [L|L]; [intros [<-|Hi]; auto|]. destruct (Reqb_spec t k) as [E|E]; [auto|].
  intros [<-|Hi]; auto. destruct (IH Hi); auto.
Qed.
Lemma map_insert_key t p l : In t (map fst (map_insert t p l)).
Proof.
  induction l as [|[k q] l IH]; simpl; auto. destruct (Rltb_spec t k); simpl; auto.
  destruct (Reqb_spec t k) as [->|]; simpl; auto.
Qed.
Lemma map_insert_keep t p l e : In e l -> In e (map_insert t p l).
Proof.
  induction l as [|[k q] l IH]; simpl; [intros []|]. destruct (Rltb_spec t k); simpl; auto.
  destruct (Reqb_spec t k) as [->|]; simpl; auto. intros [<-|Hi]; auto.
Qed.
Lemma map_insert_sorted t p l : by_time l -> by_time (map_insert t p l).
Proof.
  unfold by_time. induction l as [|[k q] l IH]; simpl; intros H; [repeat constructor|].
  inversion H as [|? ? H1 H2]; subst. rewrite Forall_forall in H2.
  destruct (Rltb_spec t k) as [L|L].
  - constructor; [constructor; auto; rewrite Forall_forall; auto|]. constructor; [auto|].
    rewrite Forall_forall. intros e He. specialize (H2 e He). simpl in *. lra.
  - destruct (Reqb_spec t k) as [E|E]; [auto|]. constructor; [auto|].
    rewrite Forall_forall. intros e He. apply map_insert_in in He as [->|He]; simpl; [lra|apply H2; auto].
Qed.
Lemma map_insert_last t p l : (forall e, In e l -> fst e < t) -> map_insert t p l = l ++ [(t, p)].
Proof.
  induction l as [|[k q] l IH]; simpl; intros H; auto. specialize (H (k, q) (or_introl eq_refl)) as Hk. simpl in Hk.
  destruct (Rltb_spec t k); [lra|]. destruct (Reqb_spec t k); [lra|]. f_equal. apply IH. auto.
Qed.

Lemma traj_map_sorted pts : by_time (traj_map pts).
Proof.
  unfold traj_map. assert (G : forall l m, by_time m -> by_time (fold_left (fun m p => map_insert (tp_t p) (SE3 (m3tr (quat_2_Rot (tp_q p))) (tp_p p)) m) l m)).
  { induction l as [|a l IH]; simpl; auto. intros m Hm. apply IH. apply map_insert_sorted; auto. }
  apply G. constructor.
Qed.
Lemma traj_map_keys pts x : In x (map fst (traj_map pts)) <-> In x (map tp_t (removelast pts)).
Proof.
  unfold traj_map. set (f := fun m p => map_insert (tp_t p) (SE3 (m3tr (quat_2_Rot (tp_q p))) (tp_p p)) m).
  assert (G : forall l m, In x (map fst (fold_left f l m)) <-> In x (map fst m) \/ In x (map tp_t l)).
  { induction l as [|a l IH]; simpl; [tauto|]. intros m. rewrite IH. unfold f at 1. split.
    - intros [H|H]; auto. apply in_map_iff in H as (e & <- & He). apply map_insert_in in He as [->|He]; simpl; auto.
      left. apply in_map; auto.
    - intros [H|[<-|H]]; auto.
      + left. apply in_map_iff in H as (e & <- & He). apply in_map. apply map_insert_keep; auto.
      + left. apply map_insert_key. }
  rewrite G. simpl. tauto.
Qed.

Lemma key_min_sorted e l : by_time (e :: l) -> key_min (e :: l) = Some (fst e).
Proof.
  intros H. inversion H as [|? ? _ F]; subst. unfold key_min. cbn [fold_left]. clear H.
  induction F as [|x l Hx F IH]; simpl; auto. destruct (Rleb_spec (fst x) (fst e)); [lra|]. exact IH.
Qed.

Lemma by_time_last l d : by_time l -> l <> [] -> In (last l d) l /\ forall e, In e l -> fst e <= fst (last l d).
Proof.
  intros Hs Hn. destruct (rev_case l) as [->|(l' & x & ->)]; [contradiction|].
  rewrite last_last. apply by_time_app in Hs as (_ & _ & H). split; [apply in_or_app; right; left; auto|].
  intros e He. apply in_app_or in He as [He|[<-|[]]]; [|lra]. specialize (H e x He (or_introl eq_refl)). lra.
Qed.

(** on a sorted trajectory a time is bounded exactly when it lies in [first, last) *)
Lemma between_range t l e0 d : by_time (e0 :: l) ->
  ((exists a b, between t (e0 :: l) a b) <-> fst e0 <= t < fst (last (e0 :: l) d)).
Proof.
  intros Hs. destruct (by_time_last (e0 :: l) d Hs) as (Hl & Hm); [discriminate|]. split.
  - intros (a & b & l1 & l2 & E & Ht).
    assert (Hb : In b (e0 :: l)) by (rewrite E; apply in_or_app; right; right; left; auto).
    specialize (Hm b Hb).
    assert (Ha : In a (e0 :: l)) by (rewrite E; apply in_or_app; right; left; auto).
    assert (fst e0 <= fst a).
    { inversion Hs as [|? ? _ F]; subst. destruct Ha as [<-|Ha]; [lra|]. rewrite Forall_forall in F. specialize (F a Ha). lra. }
    lra.
  - intros Ht. destruct (split_at t (e0 :: l) Hs) as (A & B & E & HA & HB).
    destruct (rev_case A) as [->|(A' & a & ->)].
    { simpl in E. subst B. specialize (HB e0 (or_introl eq_refl)). lra. }
    destruct B as [|b B].
    { rewrite app_nil_r in E. rewrite E in Ht, Hl. specialize (HA _ Hl). lra. }
    exists a, b, A', B. rewrite E, <- app_assoc. split; [reflexivity|].
    split; [apply HA; apply in_or_app; right; left; auto|apply HB; left; auto].
Qed.

Lemma grid_S t dt n : grid t dt (S n) = t :: grid (t + dt) dt n.
Proof.
  unfold grid. cbn [seq map]. f_equal; [simpl; ring|]. rewrite <- seq_shift, map_map. apply map_ext. intros k.
  rewrite S_INR. ring.
Qed.

(** the loop adds exactly the grid times below the newest trajectory time, each with its interpolated pose *)
Lemma feed_loop_spec traj e0 tl dt : by_time (e0 :: traj) -> tl = fst (last (e0 :: traj) e0) -> 0 < dt ->
  forall fuel t ctrl, fst e0 <= t -> (forall e, In e ctrl -> fst e < t) -> tl <= t + INR fuel * dt ->
  exists n add, feed_loop (S fuel) t dt (e0 :: traj) ctrl = Ok (Some (ctrl ++ add)) /\
    map fst add = grid t dt n /\ (forall k, (k < n)%nat <-> t + INR k * dt < tl) /\
    (forall s P, In (s, P) add -> exists a b, between s (e0 :: traj) a b /\ P = ctrl_pose s a b).
Proof.
  intros Hs Htl Hdt. induction fuel as [|fuel IH]; intros t ctrl Ht Hc Hf.
  - simpl in Hf. exists 0%nat, []. cbn [feed_loop].
    destruct (between_thm t (e0 :: traj) Hs) as (r & -> & Hr). cbn [obind].
    destruct r as [[a b]|].
    { exfalso. assert (H : between t (e0 :: traj) a b) by (apply Hr; auto).
      assert (H' : exists a b, between t (e0 :: traj) a b) by eauto. apply (between_range t traj e0 e0 Hs) in H'. lra. }
    rewrite app_nil_r. split; [reflexivity|]. split; [reflexivity|]. split; [|intros ? ? []]. intros k; split; [lia|].
    intros H. exfalso. assert (0 <= INR k) by apply pos_INR. nra.
  - cbn [feed_loop]. destruct (between_thm t (e0 :: traj) Hs) as (r & -> & Hr). cbn [obind].
    destruct r as [[a b]|].
    + assert (H : between t (e0 :: traj) a b) by (apply Hr; auto).
      assert (H' : exists a b, between t (e0 :: traj) a b) by eauto. apply (between_range t traj e0 e0 Hs) in H'.
      rewrite map_insert_last by auto.
      destruct (IH (t + dt) (ctrl ++ [(t, ctrl_pose t a b)])) as (n & add & E & Em & En & Ea).
      * lra.
      * intros e He. apply in_app_or in He as [He|[<-|[]]]; [specialize (Hc e He)|simpl]; lra.
      * rewrite S_INR in Hf. lra.
      * exists (S n), ((t, ctrl_pose t a b) :: add). cbn [feed_loop] in E. rewrite E. split; [rewrite <- app_assoc; reflexivity|].
        split; [rewrite grid_S; simpl; f_equal; auto|]. split.
        -- intros [|k]; [simpl; split; [lra|lia]|]. rewrite S_INR. specialize (En k).
           replace (t + (INR k + 1) * dt) with (t + dt + INR k * dt) by ring. rewrite <- En. lia.
        -- intros s P [[= <- <-]|HI]; eauto.
    + exists 0%nat, []. rewrite app_nil_r. split; [reflexivity|]. split; [reflexivity|]. split; [|intros ? ? []]. intros k; split; [lia|].
      intros Hk. exfalso. assert (0 <= INR k) by apply pos_INR.
      assert (H' : fst e0 <= t < fst (last (e0 :: traj) e0)) by (split; [auto|nra]).
      apply (between_range t traj e0 e0 Hs) in H' as (a & b & H'). apply Hr in H'. discriminate.
Qed.

Lemma fuel_enough t dt tl : 0 < dt -> tl <= t + INR (S (Z.to_nat (up ((tl - t) / dt)))) * dt.
Proof.
  intros Hdt. set (x := (tl - t) / dt). destruct (archimed x) as (H & _).
  assert (x <= INR (Z.to_nat (up x))).
  { destruct (Z.le_gt_cases 0 (up x)) as [L|L].
    - rewrite INR_IZR_INZ, Z2Nat.id by auto. lra.
    - apply IZR_lt in L. assert (0 <= INR (Z.to_nat (up x))) by apply pos_INR. lra. }
  rewrite S_INR. assert (tl = t + x * dt) by (unfold x; field; lra). nra.
Qed.

Lemma sum_dt_avg a l : sum_dt (a :: l) = tp_t (last (a :: l) a) - tp_t a.
Proof.
  revert a. induction l as [|b l IH]; intros a; [simpl; lra|].
  change (sum_dt (a :: b :: l)) with ((tp_t b - tp_t a) + sum_dt (b :: l)). rewrite IH.
  replace (last (a :: b :: l) a) with (last (b :: l) b); [lra|].
  clear. revert b. induction l as [|c l IH]; intros b; [reflexivity|].
  change (last (b :: c :: l) b) with (last (c :: l) b). change (last (a :: b :: c :: l) a) with (last (b :: c :: l) a).
  change (last (b :: c :: l) a) with (last (c :: l) a). specialize (IH c).
  assert (G : forall (x : traj_pt) d d', last (x :: l) d = last (x :: l) d').
  { clear. induction l as [|y l IH]; intros; [reflexivity|]. change (last (y :: l) d = last (y :: l) d'). apply IH. }
  rewrite (G c b a). reflexivity.
Qed.

Lemma feed_thm p0 p1 rest : let pts := p0 :: p1 :: rest in
  exists sp dt tmin tmax n, feed_trajectory pts [] = Ok sp /\ sp_dt sp = Some dt /\ sp_start sp = Some (tmin + 2 * dt) /\
    dt = Rmax (5 / 100) ((tp_t (last pts p0) - tp_t p0) / INR (length pts - 1)) /\
    (In tmin (map tp_t (removelast pts)) /\ In tmax (map tp_t (removelast pts)) /\
     forall t, In t (map tp_t (removelast pts)) -> tmin <= t <= tmax) /\
    by_time (sp_ctrl sp) /\
    map fst (sp_ctrl sp) = grid tmin dt n /\
    (forall k, (k < n)%nat <-> tmin + INR k * dt < tmax) /\
    (forall s P, In (s, P) (sp_ctrl sp) -> exists a b, between s (traj_map pts) a b /\ P = ctrl_pose s a b).
Proof.
  intros pts. unfold feed_trajectory. subst pts.
  set (pts := p0 :: p1 :: rest). set (avg := sum_dt pts / INR (length pts - 1)).
  set (dt := if Rltb avg (5 / 100) then 5 / 100 else avg).
  assert (Hdt : dt = Rmax (5 / 100) ((tp_t (last pts p0) - tp_t p0) / INR (length pts - 1))).
  { unfold dt, avg. unfold pts at 1 3. rewrite sum_dt_avg. fold pts.
    destruct (Rltb_spec ((tp_t (last pts p0) - tp_t p0) / INR (length pts - 1)) (5 / 100)) as [L|L].
    - symmetry; apply Rmax_left; lra.
    - symmetry; apply Rmax_right; lra. }
  assert (Pdt : 0 < dt) by (rewrite Hdt; assert (H := Rmax_l (5/100) ((tp_t (last pts p0) - tp_t p0) / INR (length pts - 1))); lra).
  cbv zeta. fold avg dt. clearbody dt.
  pose proof (traj_map_sorted pts) as Hs.
  pose proof (traj_map_keys pts) as Hk.
  assert (Hne : In (tp_t p0) (map fst (traj_map pts))) by (apply Hk; left; reflexivity).
  destruct (traj_map pts) as [|e0 traj] eqn:Etr; [destruct Hne|].
  rewrite key_min_sorted by auto.
  destruct (by_time_last (e0 :: traj) e0 Hs) as (Hl & Hm); [discriminate|].
  assert (Hlast : last (e0 :: traj) (fst e0, se3id) = last (e0 :: traj) e0).
  { clear. generalize e0 at 1 3. intros x. revert x. induction traj as [|y l IH]; intros x; [reflexivity|].
    change (last (y :: l) (fst e0, se3id) = last (y :: l) e0). apply IH. }
  unfold feed_fuel. rewrite Hlast.
  destruct (feed_loop_spec traj e0 (fst (last (e0 :: traj) e0)) dt Hs eq_refl Pdt
     (S (Z.to_nat (up ((fst (last (e0 :: traj) e0) - fst e0) / dt)))) (fst e0) [])
     as (n & add & E & Em & En & Ea); [lra|intros ? []|apply fuel_enough; auto|].
  rewrite E. cbn [obind app].
  exists (SP (Some dt) add (Some (fst e0 + 2 * dt))), dt, (fst e0), (fst (last (e0 :: traj) e0)), n.
  cbn [sp_dt sp_ctrl sp_start].
  split; [reflexivity|]. split; [reflexivity|]. split; [reflexivity|]. split; [exact Hdt|]. split.
  { split; [|split].
    - apply Hk. left; auto.
    - apply Hk. apply in_map. exact Hl.
    - intros t Hi. apply Hk in Hi. apply in_map_iff in Hi as (e & <- & He). split; [|apply Hm; auto].
      inversion Hs as [|? ? _ F]; subst. destruct He as [<-|He]; [lra|]. rewrite Forall_forall in F. specialize (F e He). lra. }
  split.
  { clear - Em Pdt. revert n Em. generalize (fst e0). induction add as [|[s P] add IH]; intros t n Em; [constructor|].
    destruct n as [|n]; [discriminate|]. rewrite grid_S in Em. injection Em as -> Em. constructor.
    - apply (IH (t + dt) n Em).
    - rewrite Forall_forall. intros e He. apply (in_map fst) in He. rewrite Em in He.
      unfold grid in He. apply in_map_iff in He as (k & <- & _). assert (0 <= INR k) by apply pos_INR. simpl. nra. }
  split; [exact Em|]. split; [exact En|]. exact Ea.
Qed.

(** a uniform map can be queried exactly from its second time up to its last but one *)
Lemma window_thm l tmin dt n t : 0 < dt -> by_time l -> map fst l = grid tmin dt n ->
  ((exists rp, get_pose l t = Ok (true, rp)) <-> tmin + dt <= t < tmin + INR (n - 2) * dt).
Proof.
  intros Hdt Hs Hg.
  assert (Hlen : length l = n) by (rewrite <- (map_length fst), Hg; unfold grid; rewrite map_length, seq_length; auto).
  assert (Hnth : forall i e, nth_error l i = Some e -> fst e = tmin + INR i * dt).
  { intros i e He. assert (Hi : (i < length l)%nat) by (apply nth_error_Some; rewrite He; discriminate).
    apply (map_nth_error fst) in He. rewrite Hg in He. unfold grid in He.
    rewrite (map_nth_error _ _ _ (d:=i)) in He; [congruence|].
    rewrite nth_error_nth' with (d:=0%nat) by (rewrite seq_length; lia). rewrite seq_nth by lia. reflexivity. }
  destruct (around_thm t l Hs) as (r & Er & Hr). unfold get_pose. rewrite Er. cbn [obind]. split.
  - intros (rp & H). destruct r as [[[[a b] c] d]|]; [|discriminate]. clear H.
    destruct (proj1 (Hr a b c d) eq_refl) as (l1 & l2 & E & Ht).
    assert (Hb : fst b = tmin + INR (S (length l1)) * dt).
    { apply Hnth. rewrite E. rewrite nth_error_app2 by lia. replace (S (length l1) - length l1)%nat with 1%nat by lia. reflexivity. }
    assert (Hc : fst c = tmin + INR (S (S (length l1))) * dt).
    { apply Hnth. rewrite E. rewrite nth_error_app2 by lia. replace (S (S (length l1)) - length l1)%nat with 2%nat by lia. reflexivity. }
    assert (Hn : (S (S (length l1)) <= n - 2)%nat) by (rewrite <- Hlen, E, app_length; simpl; lia).
    apply le_INR in Hn. rewrite S_INR in Hb. assert (0 <= INR (length l1)) by apply pos_INR. nra.
  - intros (H1 & H2).
    assert (Hn : (n - 2 >= 2)%nat).
    { destruct (Nat.le_gt_cases 2 (n - 2)) as [L|L]; auto. exfalso.
      assert (INR (n - 2) <= 1) by (apply (le_INR _ 1); lia). nra. }
    destruct (split_at t l Hs) as (A & B & E & HA & HB).
    assert (LA : (2 <= length A)%nat).
    { destruct (nth_error l 1) as [e|] eqn:He; [|apply nth_error_None in He; lia].
      pose proof (Hnth _ _ He) as Hf. simpl in Hf.
      destruct (Nat.le_gt_cases 2 (length A)) as [L|L]; auto. exfalso.
      rewrite E, nth_error_app2 in He by lia. apply nth_error_In in He. specialize (HB e He). lra. }
    assert (LB : (2 <= length B)%nat).
    { destruct (nth_error l (n - 2)) as [e|] eqn:He; [|apply nth_error_None in He; lia].
      pose proof (Hnth _ _ He) as Hf.
      destruct (Nat.le_gt_cases 2 (length B)) as [L|L]; auto. exfalso.
      assert (length l = (length A + length B)%nat) by (rewrite E, app_length; auto).
      rewrite E, nth_error_app1 in He by lia. apply nth_error_In in He. specialize (HA e He). lra. }
    destruct (rev_case A) as [->|(A1 & b & ->)]; [simpl in LA; lia|].
    rewrite len_app1 in LA. destruct (rev_case A1) as [->|(A2 & a & ->)]; [simpl in LA; lia|].
    destruct B as [|c [|d B]]; [simpl in LB; lia|simpl in LB; lia|].
    assert (Har : around t l a b c d).
    { exists A2, B. rewrite E, <- !app_assoc. split; [reflexivity|].
      split; [apply HA; apply in_or_app; right; left; auto|apply HB; left; auto]. }
    apply Hr in Har. subst r. eexists. reflexivity.
Qed.

(** at a trajectory time the control pose is the trajectory pose *)
Lemma ctrl_pose_at a b : ctrl_pose (fst a) a b = snd a.
Proof.
  unfold ctrl_pose, exp_at. replace ((fst a - fst a) / (fst b - fst a)) with 0 by (unfold Rdiv; ring).
  set (wu := log_se3 _). replace (v3scal 0 (fst wu)) with v3zero by (apply v3_ext; simpl; ring).
  rewrite exp_se3_zero. replace (v3scal 0 (snd wu)) with v3zero by (apply v3_ext; simpl; ring).
  apply se3mul_id_l.
Qed.

Lemma get_pose_total l t : by_time l -> exists r, get_pose l t = Ok r.
Proof.
  intros Hs. destruct (around_thm t l Hs) as (r & Er & _). unfold get_pose. rewrite Er. cbn [obind].
  destruct r as [[[[a b] c] d]|]; eauto.
Qed.

Lemma control_thm t l : by_time l -> exists r, find_bounding_control_points t l = Ok r /\
  (forall a b c d, r = Some (a, b, c, d) <-> around t l a b c d) /\
  (forall a b c d, r = Some (a, b, c, d) -> fst a < fst b /\ fst b <= t /\ t < fst c /\ fst c < fst d).
Proof.
  intros Hs. destruct (around_thm t l Hs) as (r & Er & Hr). exists r. split; [exact Er|]. split; [exact Hr|].
  intros a b c d E. apply Hr in E. exact (around_order t l a b c d Hs E).
Qed.

Lemma enough_thm t l : by_time l ->
  ((exists a b c d, find_bounding_control_points t l = Ok (Some (a, b, c, d))) <->
   (2 <= length (filter (fun e => Rleb (fst e) t) l))%nat /\ (2 <= length (filter (fun e => Rltb t (fst e)) l))%nat).
Proof.
  intros Hs. rewrite <- around_count by exact Hs. destruct (around_thm t l Hs) as (r & -> & Hr). split.
  - intros (a & b & c & d & [= ->]). exists a, b, c, d. apply Hr. reflexivity.
  - intros (a & b & c & d & H). exists a, b, c, d. apply Hr in H. subst r. reflexivity.
Qed.

(** the pose on the last line of the file never matters *)
Lemma sum_dt_last a l p p' : tp_t p = tp_t p' -> sum_dt ((a :: l) ++ [p]) = sum_dt ((a :: l) ++ [p']).
Proof.
  intros E. revert a. induction l as [|b l IH]; intros a; [simpl; rewrite E; reflexivity|].
  change (sum_dt (a :: (b :: l) ++ [p]) = sum_dt (a :: (b :: l) ++ [p'])).
  change ((tp_t b - tp_t a) + sum_dt ((b :: l) ++ [p]) = (tp_t b - tp_t a) + sum_dt ((b :: l) ++ [p'])). rewrite IH. reflexivity.
Qed.
Lemma last_ignored pts p p' ctrl : tp_t p = tp_t p' -> feed_trajectory (pts ++ [p]) ctrl = feed_trajectory (pts ++ [p']) ctrl.
Proof.
  intros E. destruct pts as [|a l]; [reflexivity|]. unfold feed_trajectory.
  assert (T : traj_map ((a :: l) ++ [p]) = traj_map ((a :: l) ++ [p'])) by (unfold traj_map; rewrite !removelast_last; reflexivity).
  rewrite (sum_dt_last a l p p' E), T.
  replace (length ((a :: l) ++ [p'])) with (length ((a :: l) ++ [p])) by (rewrite !len_app1; reflexivity).
  destruct l as [|b l]; reflexivity.
Qed.

(** a trajectory sampled once a second *)
Definition ex_pts : list traj_pt := map (fun k => TP (INR k) v3zero (Q4 0 0 0 1)) (seq 0 7).
Lemma feed_ex : exists sp, feed_trajectory ex_pts [] = Ok sp /\ map fst (sp_ctrl sp) = grid 0 1 5 /\
  (forall t, (exists rp, get_pose (sp_ctrl sp) t = Ok (true, rp)) <-> 1 <= t < 3) /\ sp_start sp = Some 2.
Proof.
  destruct (feed_thm (TP (INR 0) v3zero (Q4 0 0 0 1)) (TP (INR 1) v3zero (Q4 0 0 0 1))
     (map (fun k => TP (INR k) v3zero (Q4 0 0 0 1)) (seq 2 5)))
    as (sp & dt & tmin & tmax & n & E & Ed & Est & Hd & (Hmin & Hmax & Hb) & Hs & Hg & Hn & _).
  change (_ :: _ :: _) with ex_pts in E, Hd, Hmin, Hmax, Hb.
  assert (Hdt : dt = 1).
  { rewrite Hd. unfold ex_pts. cbn [map seq last tp_t length Nat.sub]. rewrite Rmax_right; simpl; lra. }
  assert (Hl : map tp_t (removelast ex_pts) = map INR (seq 0 6)) by reflexivity. rewrite Hl in *.
  assert (H0 : tmin = 0).
  { assert (A : In 0 (map INR (seq 0 6))) by (simpl; auto). apply Hb in A.
    apply in_map_iff in Hmin as (k & <- & _). assert (0 <= INR k) by apply pos_INR. lra. }
  assert (H5 : tmax = 5).
  { assert (A : In 5 (map INR (seq 0 6))) by (apply in_map_iff; exists 5%nat; split; [simpl; ring|simpl; tauto]). apply Hb in A.
    apply in_map_iff in Hmax as (k & <- & Hk). apply in_seq in Hk. assert (INR k <= INR 5) by (apply le_INR; lia). simpl in *. lra. }
  assert (n = 5%nat).
  { assert (A : (4 < n)%nat) by (apply Hn; rewrite H0, H5, Hdt; simpl; lra).
    assert (B : ~ (5 < n)%nat) by (intros B; apply Hn in B; rewrite H0, H5, Hdt in B; simpl in B; lra). lia. }
  clear Hd. subst tmin tmax dt n. exists sp. split; [exact E|]. split; [exact Hg|]. split.
  - intros t. rewrite (window_thm (sp_ctrl sp) 0 1 5 t); [|lra|exact Hs|exact Hg].
    replace (INR (5 - 2)) with 3 by (simpl; ring). split; lra.
  - rewrite Est. f_equal. ring.
Qed.
