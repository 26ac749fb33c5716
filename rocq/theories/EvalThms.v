(** Aligned trajectories and error metrics. *)
From Coq Require Import Reals List Arith Bool Lia Lra Sorted Permutation.
From Verif Require Import RBool Outcome GeoModel GeoSpec GeoProofs EulerProofs InitModel InitSpec EvalModel EvalSpec EvalProofs EvalStats EvalAlign EvalAlign2.
Import ListNotations.
Open Scope R_scope.

Lemma apply_align_spec Rm t s p : is_rot Rm -> unit_q (po_q p) ->
  let p' := apply_align (Rm, t, s) p in
  po_p p' = v3add (v3scal s (m3v Rm (po_p p))) t /\ unit_q (po_q p') /\
  m3tr (quat_2_Rot (po_q p')) = m3mul Rm (m3tr (quat_2_Rot (po_q p))).
Proof.
  intros HR U p'. destruct (rot_2_quat_spec Rm HR) as (UQ & _ & EQ). pose proof (quat_inv_unit _ UQ) as UI. unfold p', apply_align. cbn [po_p po_q]. split; [|split].
  - f_equal. destruct Rm, (po_p p). m3simp. f_equal; ring.
  - apply (proj1 (quat_multiply_unit _ _ U UI)).
  - rewrite (quat_multiply_rot _ _ U UI), quat_inv_rot, EQ, m3tr_mul, m3tr_tr. reflexivity.
Qed.

Lemma rel_moved Rm t a b a' b' : is_rot Rm -> moves Rm t a a' -> moves Rm t b b' ->
  se3mul (Inv_se3 (pose_se3 a')) (pose_se3 b') = se3mul (Inv_se3 (pose_se3 a)) (pose_se3 b).
Proof.
  intros (R1 & R2 & _) [Pa Qa] [Pb Qb]. unfold pose_se3, Inv_se3, se3mul. cbn [seR set_]. rewrite Pa, Pb, Qa, Qb.
  set (A := m3tr (quat_2_Rot (po_q a))). set (B := m3tr (quat_2_Rot (po_q b))). clearbody A B.
  rewrite !m3tr_mul. f_equal.
  - rewrite m3mul_assoc, <- (m3mul_assoc (m3tr Rm)), R2, m3mul_id_l. reflexivity.
  - assert (C : forall u, m3v (m3tr Rm) (m3v Rm u) = u) by (intros u; rewrite <- m3v_mul, R2, m3v_id; reflexivity).
    rewrite !m3v_mul, !m3v_add, !C. set (x := m3v (m3tr A) (po_p b)). set (y := m3v (m3tr A) (po_p a)). set (z := m3v (m3tr A) (m3v (m3tr Rm) t)).
    destruct x, y, z. m3simp. f_equal; ring.
Qed.
Lemma se3_inv_l T : is_rot (seR T) -> se3mul (Inv_se3 T) T = se3id.
Proof.
  intros (R1 & R2 & _). unfold se3mul, Inv_se3, se3id. cbn [seR set_]. rewrite R2. f_equal.
  set (x := m3v (m3tr (seR T)) (set_ T)). destruct x. m3simp. f_equal; ring.
Qed.
Lemma log_id : log_so3 m3id = v3zero.
Proof.
  unfold log_so3. replace (m3trace m3id) with 3 by (unfold m3trace, m3id; simpl; ring).
  destruct (Rltb_spec (3 + 1) (1 / 10 ^ 10)) as [H|H].
  { exfalso. assert (1 / 10 ^ 10 <= 1); [|lra]. pose proof (Rinv_le_contravar 1 (10 ^ 10) Rlt_0_1 (pow_R1_Rle 10 10 ltac:(lra))) as Q. rewrite Rinv_1 in Q. unfold Rdiv. rewrite Rmult_1_l. exact Q. }
  unfold m3id. cbn [m00 m01 m02 m10 m11 m12 m20 m21 m22]. unfold v3scal. cbn [vx vy vz]. apply v3_ext; simpl; ring.
Qed.
Lemma norm_v3zero : v3norm v3zero = 0.
Proof. unfold v3norm. replace (v3dot v3zero v3zero) with 0 by (unfold v3dot, v3zero; simpl; ring). apply sqrt_0. Qed.
Lemma pose_se3_rot p : unit_q (po_q p) -> is_rot (seR (pose_se3 p)).
Proof. intros U. apply is_rot_tr, quat_2_Rot_is_rot, U. Qed.
Lemma se3mul_rot a b : is_rot (seR a) -> is_rot (seR b) -> is_rot (seR (se3mul a b)).
Proof. intros; apply is_rot_mul; auto. Qed.

Lemma rpe_zero Rm t c1 c2 g1 g2 : is_rot Rm -> unit_q (po_q c2) -> unit_q (po_q g1) -> unit_q (po_q g2) ->
  moves Rm t g1 c1 -> moves Rm t g2 c2 -> rpe_one c1 c2 g1 g2 = (0, 0).
Proof.
  intros HR Uc U1 U2 M1 M2. unfold rpe_one. rewrite (rel_moved Rm t g1 g2 c1 c2 HR M1 M2).
  set (M12 := se3mul (Inv_se3 (pose_se3 g1)) (pose_se3 g2)).
  assert (RM : is_rot (seR M12)) by (apply se3mul_rot; [apply is_rot_tr, pose_se3_rot, U1|apply pose_se3_rot, U2]).
  rewrite (se3_inv_l M12 RM). destruct (pose_se3_rot c2 Uc) as (C1 & _ & _). set (C := seR (pose_se3 c2)) in *.
  replace (se3mul (se3mul (SE3 C v3zero) se3id) (SE3 (m3tr C) v3zero)) with se3id.
  - unfold se3id. cbn [seR set_]. rewrite log_id, norm_v3zero. f_equal; ring.
  - unfold se3mul, se3id. cbn [seR set_]. rewrite m3mul_id_r, C1. f_equal. destruct C. m3simp. f_equal; ring.
Qed.
(** moving the whole estimate does not change the relative position errors *)
Lemma norm_rot A u : is_rot A -> v3norm (m3v A u) = v3norm u.
Proof. intros H. unfold v3norm. rewrite orth_dot; [reflexivity|apply rot_orth; exact H]. Qed.
Lemma rpe_pos_eq c1 c2 g1 g2 : unit_q (po_q c2) -> snd (rpe_one c1 c2 g1 g2) =
  v3norm (set_ (se3mul (Inv_se3 (se3mul (Inv_se3 (pose_se3 g1)) (pose_se3 g2))) (se3mul (Inv_se3 (pose_se3 c1)) (pose_se3 c2)))).
Proof.
  intros U. unfold rpe_one. cbn [snd]. set (E := se3mul _ (se3mul (Inv_se3 (pose_se3 c1)) _)). clearbody E. pose proof (pose_se3_rot c2 U) as RC. set (C := seR (pose_se3 c2)) in *.
  unfold se3mul. cbn [seR set_]. rewrite <- (norm_rot C (set_ E) RC). f_equal. destruct (set_ E), C, (seR E). m3simp. f_equal; ring.
Qed.
Lemma rpe_moved Rm t c1 c2 c1' c2' g1 g2 : is_rot Rm -> unit_q (po_q c2) -> unit_q (po_q c2') -> moves Rm t c1 c1' -> moves Rm t c2 c2' ->
  snd (rpe_one c1' c2' g1 g2) = snd (rpe_one c1 c2 g1 g2).
Proof. intros HR U U' M1 M2. rewrite !rpe_pos_eq by auto. rewrite (rel_moved Rm t c1 c2 c1' c2' HR M1 M2). reflexivity. Qed.

Lemma omap_ok {A B} (f : A -> outcome B) (g : A -> B) l : (forall x, In x l -> f x = Ok (g x)) -> omap f l = Ok (map g l).
Proof.
  induction l as [|x l IH]; intros H; [reflexivity|]. cbn [omap map]. rewrite (H x (or_introl eq_refl)). cbn [obind].
  rewrite IH by (intros; apply H; right; auto). reflexivity.
Qed.
Lemma omap_seq {A B} (src : list A) (f : A -> B) : forall pre n, n = length src ->
  omap (fun i => do p <- vat (pre ++ src) i; Ok (f p)) (seq (length pre) n) = Ok (map f src).
Proof.
  induction src as [|x src IH]; intros pre n ->; [reflexivity|]. cbn [length seq omap map]. unfold vat at 1. rewrite nth_error_mid. cbn [obind].
  replace (S (length pre)) with (length (pre ++ [x])) by (rewrite app_length; simpl; lia).
  replace (pre ++ x :: src) with ((pre ++ [x]) ++ src) by (rewrite <- app_assoc; reflexivity).
  rewrite IH by reflexivity. reflexivity.
Qed.
Lemma picks_length {A} (src : list A) idx l : picks src idx l -> length l = length idx.
Proof. unfold picks. induction 1; simpl; auto. Qed.

Lemma result_new_spec svd est gt m r : traj_wf est -> traj_wf gt -> result_new svd est gt m = Ok r ->
  exists a1 a2, align_trajectory svd (t_poses (r_est r)) (t_poses (r_gt r)) m = Ok a1 /\ align_trajectory svd (t_poses (r_gt r)) (t_poses (r_est r)) m = Ok a2 /\
    r_est2gt r = map (apply_align a1) (t_poses (r_est r)) /\ r_gt2est r = map (apply_align a2) (t_poses (r_gt r)) /\
    (3 <= length (t_poses (r_est r)))%nat /\ length (t_poses (r_gt r)) = length (t_poses (r_est r)) /\ length (t_times (r_est r)) = length (t_poses (r_est r)) /\
    perform_association 0 0.02 est gt = Ok (r_est r, r_gt r).
Proof.
  intros WE WG H. destruct (association_spec 0 0.02 est gt WE WG) as (pairs & _ & _ & _ & A).
  unfold result_new in H. destruct (Nat.ltb_spec (length (t_times est)) 3) as [L|L].
  - exfalso. rewrite A in H. cbn [obind] in H. destruct WE as [WE _]. rewrite <- WE in L. apply Nat.ltb_lt in L. rewrite L in H. discriminate.
  - destruct A as (e & g & E & T1 & T2 & P1 & P2 & _). rewrite E in H. cbn [obind] in H.
    destruct (Nat.ltb_spec (length (t_poses e)) 3) as [L2|L2]; cbn [negb guard] in H; [discriminate|].
    destruct (align_trajectory svd (t_poses e) (t_poses g) m) as [a1| |] eqn:E1; cbn [obind] in H; try discriminate.
    destruct (align_trajectory svd (t_poses g) (t_poses e) m) as [a2| |] eqn:E2; cbn [obind] in H; try discriminate.
    apply picks_length in T2. apply picks_length in P1. apply picks_length in P2. rewrite map_length in T2, P1, P2.
    pose proof (omap_seq (t_poses e) (apply_align a1) [] (length (t_times g)) ltac:(congruence)) as O1. cbn [app length] in O1. rewrite O1 in H.
    pose proof (omap_seq (t_poses g) (apply_align a2) [] (length (t_times g)) ltac:(congruence)) as O2. cbn [app length] in O2. rewrite O2 in H.
    cbn [obind] in H. apply (f_equal (fun x => match x with Ok y => y | _ => r end)) in H. subst r. cbn [r_est r_gt r_est2gt r_gt2est].
    exists a1, a2. split; [exact E1|]. split; [exact E2|]. split; [reflexivity|]. split; [reflexivity|]. split; [exact L2|]. split; [congruence|]. split; [|exact E].
    rewrite T1. congruence.
Qed.

Lemma ate_errors_ok r : length (t_poses (r_gt r)) = length (r_est2gt r) -> length (t_times (r_est r)) = length (r_est2gt r) ->
  ate_errors r = Ok (map (fun p => ate_one (fst p) (snd p)) (combine (r_est2gt r) (t_poses (r_gt r)))).
Proof.
  unfold ate_errors. generalize (r_est2gt r) (t_poses (r_gt r)) (t_times (r_est r)). intros l1 l2 l3 H1 H2.
  assert (G : forall a1 p1 a2 p2 a3 p3, length a2 = length a1 -> length a3 = length a1 -> length p2 = length p1 -> length p3 = length p1 ->
    omap (fun i => do e <- vat (p1 ++ a1) i; do g <- vat (p2 ++ a2) i; do _ <- @vat R (p3 ++ a3) i; Ok (ate_one e g)) (seq (length p1) (length a1)) =
    Ok (map (fun p => ate_one (fst p) (snd p)) (combine a1 a2))).
  { induction a1 as [|x a1 IH]; intros p1 a2 p2 a3 p3 L2 L3 Lp2 Lp3; [reflexivity|]. destruct a2 as [|y a2]; [discriminate|]. destruct a3 as [|z a3]; [discriminate|].
    cbn [length seq omap combine map fst snd]. unfold vat at 1. rewrite nth_error_mid. cbn [obind]. unfold vat at 1. rewrite <- Lp2 at 1. rewrite nth_error_mid. cbn [obind].
    unfold vat at 1. rewrite <- Lp3 at 1. rewrite nth_error_mid. cbn [obind].
    replace (p1 ++ x :: a1) with ((p1 ++ [x]) ++ a1) by (rewrite <- app_assoc; reflexivity).
    replace (p2 ++ y :: a2) with ((p2 ++ [y]) ++ a2) by (rewrite <- app_assoc; reflexivity).
    replace (p3 ++ z :: a3) with ((p3 ++ [z]) ++ a3) by (rewrite <- app_assoc; reflexivity).
    replace (S (length p1)) with (length (p1 ++ [x])) by (rewrite app_length; simpl; lia).
    rewrite IH; [reflexivity| | | |]; simpl in *; rewrite ?app_length; simpl; lia. }
  exact (G l1 [] l2 [] l3 [] H1 H2 eq_refl eq_refl).
Qed.

Lemma accum_from_length : forall l acc v, length (accum_from acc v l) = length l.
Proof. induction l; intros; simpl; auto. Qed.
Lemma accum_last : forall l acc v, last (acc :: accum_from acc v l) 0 = length_from acc v l.
Proof. induction l as [|p l IH]; intros acc v; [reflexivity|]. cbn [accum_from length_from]. rewrite <- IH. reflexivity. Qed.
Lemma accum_mono : forall l acc v, StronglySorted Rle (acc :: accum_from acc v l).
Proof.
  induction l as [|p l IH]; intros acc v; [repeat constructor|]. cbn [accum_from].
  pose proof (IH (acc + v3norm (v3sub (po_p p) v)) (po_p p)) as S0. constructor; [exact S0|].
  assert (N : 0 <= v3norm (v3sub (po_p p) v)) by apply sqrt_pos. constructor; [lra|].
  inversion S0; subst. eapply Forall_impl; [|exact H2]. intros x Hx. simpl in *. lra.
Qed.

(** every segment used by the relative error, with its error *)
Lemma rpe_errors_ok r dist : length (t_poses (r_gt r)) = length (r_est2gt r) -> length (t_times (r_est r)) = length (r_est2gt r) -> t_poses (r_gt r) <> [] ->
  exists acc l, accum_distances (t_poses (r_gt r)) = Ok acc /\ rpe_errors r dist = Ok l /\
    forall e, In e l <-> exists i j c1 c2 g1 g2 di, nth_error acc i = Some di /\ nearest_from acc (di + dist) 0.5 i (Some j) /\
      nth_error (r_est2gt r) i = Some c1 /\ nth_error (r_est2gt r) j = Some c2 /\
      nth_error (t_poses (r_gt r)) i = Some g1 /\ nth_error (t_poses (r_gt r)) j = Some g2 /\ e = rpe_one c1 c2 g1 g2.
Proof.
  intros L1 L2 Ne. unfold rpe_errors.
  assert (EA : exists acc, accum_distances (t_poses (r_gt r)) = Ok acc /\ length acc = length (t_poses (r_gt r))).
  { unfold accum_distances. destruct (t_poses (r_gt r)) as [|p l]; [congruence|]. eexists. split; [reflexivity|]. simpl. rewrite accum_from_length. reflexivity. }
  destruct EA as (acc & EA & LA). rewrite EA. cbn [obind]. set (cmp := compute_comparison_indices_length acc dist 0.5).
  assert (LC : length cmp = length acc) by apply seg_all_length.
  assert (CMP : forall i r, nth_error cmp i = Some r -> exists d, nth_error acc i = Some d /\ nearest_from acc (d + dist) 0.5 i r) by (intros i r0 E; exact (seg_all_spec dist 0.5 acc [] i r0 E)).
  set (n := length acc) in *.
  assert (Gi : forall {A} (l : list A) i, (i < length l)%nat -> exists x, nth_error l i = Some x).
  { intros A l i H. destruct (nth_error l i) eqn:E; [eauto|]. apply nth_error_None in E. lia. }
  set (h := fun ic : nat * option nat => match snd ic with None => [] | Some j =>
     match nth_error (r_est2gt r) (fst ic), nth_error (r_est2gt r) j, nth_error (t_poses (r_gt r)) (fst ic), nth_error (t_poses (r_gt r)) j with
     | Some c1, Some c2, Some g1, Some g2 => [rpe_one c1 c2 g1 g2] | _, _, _, _ => [] end end).
  assert (NTH : forall i c, In (i, c) (combine (seq 0 (length cmp)) cmp) <-> nth_error cmp i = Some c).
  { assert (G : forall (l : list (option nat)) k i c, In (i, c) (combine (seq k (length l)) l) <-> (k <= i)%nat /\ nth_error l (i - k) = Some c).
    { induction l as [|x l IH]; intros k i c; [simpl; split; [easy|]; intros [_ H]; destruct (i - k)%nat; discriminate|].
      cbn [length seq combine In]. rewrite IH. split.
      - intros [E|[H1 H2]]; [injection E as <- <-; split; [lia|rewrite Nat.sub_diag; reflexivity]|]. split; [lia|]. replace (i - k)%nat with (S (i - S k)) by lia. exact H2.
      - intros [H1 H2]. destruct (Nat.eq_dec i k) as [->|N]; [left; rewrite Nat.sub_diag in H2; simpl in H2; congruence|]. right. split; [lia|].
        replace (i - k)%nat with (S (i - S k)) in H2 by lia. exact H2. }
    intros i c. rewrite G, Nat.sub_0_r. split; [tauto|]. intros; split; [lia|auto]. }
  rewrite (omap_ok _ h).
  - cbn [obind]. eexists _, _. split; [reflexivity|]. split; [reflexivity|]. intros e. rewrite in_concat. split.
    + intros (x & Ix & Ie). apply in_map_iff in Ix. destruct Ix as ([i c] & <- & Ic). apply NTH in Ic. destruct (CMP i c Ic) as (d & Ed & N).
      unfold h in Ie. cbn [fst snd] in Ie. destruct c as [j|]; [|destruct Ie].
      destruct (nth_error (r_est2gt r) i) as [c1|] eqn:E1; [|destruct Ie]. destruct (nth_error (r_est2gt r) j) as [c2|] eqn:E2; [|destruct Ie].
      destruct (nth_error (t_poses (r_gt r)) i) as [g1|] eqn:E3; [|destruct Ie]. destruct (nth_error (t_poses (r_gt r)) j) as [g2|] eqn:E4; [|destruct Ie].
      destruct Ie as [<-|[]]. exists i, j, c1, c2, g1, g2, d. tauto.
    + intros (i & j & c1 & c2 & g1 & g2 & d & Ed & N & E1 & E2 & E3 & E4 & ->).
      destruct (Gi _ cmp i) as (c & Ec); [rewrite LC; apply nth_error_Some; unfold n; congruence|].
      destruct (CMP i c Ec) as (d' & Ed' & N'). rewrite Ed in Ed'. injection Ed' as <-.
      assert (c = Some j). { destruct N as (Hj & dj & Dj & Lj & Mj). destruct c as [j'|].
        - destruct N' as (Hj' & dj' & Dj' & Lj' & Mj'). destruct (Mj j' dj' Hj' Dj') as [A1 A2]. destruct (Mj' j dj Hj Dj) as [B1 B2].
          destruct (Nat.lt_trichotomy j j') as [T|[->|T]]; [specialize (B2 T); lra|reflexivity|specialize (A2 T); lra].
        - specialize (N' j dj Hj Dj). lra. }
      subst c. exists (h (i, Some j)). split; [apply in_map, NTH; exact Ec|]. unfold h. cbn [fst snd]. rewrite E1, E2, E3, E4. left; reflexivity.
  - intros [i c] I. apply NTH in I. destruct (CMP i c I) as (d & Ed & N). unfold h. cbn [fst snd]. destruct c as [j|]; [|reflexivity].
    assert (Hi : (i < n)%nat) by (apply nth_error_Some; congruence).
    assert (Hj : (j < n)%nat) by (destruct N as (_ & dj & Dj & _); apply nth_error_Some; congruence).
    destruct (Gi _ (r_est2gt r) i) as (c1 & E1); [lia|]. destruct (Gi _ (r_est2gt r) j) as (c2 & E2); [lia|].
    destruct (Gi _ (t_poses (r_gt r)) i) as (g1 & E3); [lia|]. destruct (Gi _ (t_poses (r_gt r)) j) as (g2 & E4); [lia|].
    destruct (Gi _ (t_times (r_est r)) i) as (tt0 & E5); [lia|].
    unfold vat. rewrite E1, E2, E3, E4, E5. reflexivity.
Qed.
