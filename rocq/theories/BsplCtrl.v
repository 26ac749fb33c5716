(** The control points made by feed_trajectory (C40). *)
From Coq Require Import Reals Lra List Sorted.
From Verif Require Import RBool Outcome GeoModel GeoSpec GeoProofs ExpProofs Se3Proofs BsplModel BsplSpec BsplFind BsplFeed BsplKnot.
Import ListNotations.
Open Scope R_scope.

Lemma traj_map_from pts t T : In (t, T) (traj_map pts) -> exists p, In p (removelast pts) /\ t = tp_t p /\ T = SE3 (m3tr (quat_2_Rot (tp_q p))) (tp_p p).
Proof.
  unfold traj_map. assert (G : forall l m, In (t, T) (fold_left (fun m p => map_insert (tp_t p) (SE3 (m3tr (quat_2_Rot (tp_q p))) (tp_p p)) m) l m) ->
    In (t, T) m \/ exists p, In p l /\ t = tp_t p /\ T = SE3 (m3tr (quat_2_Rot (tp_q p))) (tp_p p)).
  { induction l as [|x l IH]; intros m H; [left; exact H|]. cbn [fold_left] in H. apply IH in H. destruct H as [H|(p & A & B)]; [|right; exists p; split; [right; exact A|exact B]].
    apply map_insert_in in H. destruct H as [E|H]; [|left; exact H]. injection E as E1 E2. right. exists x. split; [left; reflexivity|auto]. }
  intros H. apply G in H. destruct H as [[]|H]. exact H.
Qed.
Lemma by_time_app l1 (l2 : list (R * se3)) x : by_time (l1 ++ x :: l2) -> (forall e, In e l1 -> fst e < fst x) /\ (forall e, In e l2 -> fst x < fst e).
Proof.
  unfold by_time. induction l1 as [|y l1 IH]; cbn [app]; intros H.
  - inversion H as [|? ? _ F]; subst. rewrite Forall_forall in F. split; [intros e []|exact F].
  - inversion H as [|? ? S F]; subst. rewrite Forall_forall in F. destruct (IH S) as [A B]. split; [|exact B]. intros e [<-|I]; [apply F, in_or_app; right; left; reflexivity|auto].
Qed.
Lemma ctrl_geodesic s a b : geodesic ((s - fst a) / (fst b - fst a)) (snd a) (snd b) (ctrl_pose s a b).
Proof.
  unfold ctrl_pose, exp_at. set (wu := log_se3 (se3mul (snd b) (Inv_se3 (snd a)))). exists (fst wu), (snd wu). split; [reflexivity|].
  intros Ra L. unfold wu. rewrite exp_log_se3 by exact L. rewrite se3mul_assoc, Inv_se3_l by exact Ra. symmetry. apply se3mul_id_r.
Qed.
Lemma ctrl_thm pts s P : (exists a b, between s (traj_map pts) a b /\ P = ctrl_pose s a b) ->
  exists p q, In p (removelast pts) /\ In q (removelast pts) /\ tp_t p <= s < tp_t q /\
    (forall x, In x (removelast pts) -> tp_t x <= tp_t p \/ tp_t q <= tp_t x) /\
    geodesic ((s - tp_t p) / (tp_t q - tp_t p)) (SE3 (m3tr (quat_2_Rot (tp_q p))) (tp_p p)) (SE3 (m3tr (quat_2_Rot (tp_q q))) (tp_p q)) P.
Proof.
  intros (a & b & (l1 & l2 & E & H) & ->).
  assert (Ia : In a (traj_map pts)) by (rewrite E; apply in_or_app; right; left; reflexivity).
  assert (Ib : In b (traj_map pts)) by (rewrite E; apply in_or_app; right; right; left; reflexivity).
  pose proof (traj_map_sorted pts) as Hs. rewrite E in Hs. pose proof (by_time_app l1 (b :: l2) a Hs) as [A1 _].
  replace (l1 ++ a :: b :: l2) with ((l1 ++ [a]) ++ b :: l2) in Hs by (rewrite <- app_assoc; reflexivity). pose proof (by_time_app _ l2 b Hs) as [_ A2].
  pose proof (ctrl_geodesic s a b) as G. destruct a as [ta A], b as [tb B]. cbn [fst snd] in *.
  destruct (traj_map_from pts ta A Ia) as (p & Ip & -> & ->). destruct (traj_map_from pts tb B Ib) as (q & Iq & -> & ->).
  exists p, q. split; [exact Ip|]. split; [exact Iq|]. split; [exact H|]. split; [|exact G]. intros x Ix.
  assert (K : In (tp_t x) (map fst (traj_map pts))) by (apply traj_map_keys, in_map; exact Ix). rewrite E in K. rewrite map_app in K. apply in_app_or in K.
  destruct K as [K|[K|[K|K]]].
  - apply in_map_iff in K. destruct K as (e & <- & K). left. apply Rlt_le, A1, K.
  - cbn in K. left. lra.
  - cbn in K. right. lra.
  - apply in_map_iff in K. destruct K as (e & <- & K). right. apply Rlt_le, A2, K.
Qed.
Lemma feed_ctrl_thm p0 p1 rest : let pts := p0 :: p1 :: rest in
  exists sp dt tmin tmax n, feed_trajectory pts [] = Ok sp /\ sp_dt sp = Some dt /\ sp_start sp = Some (tmin + 2 * dt) /\
    dt = Rmax (5 / 100) ((tp_t (last pts p0) - tp_t p0) / INR (length pts - 1)) /\
    (In tmin (map tp_t (removelast pts)) /\ In tmax (map tp_t (removelast pts)) /\
     forall t, In t (map tp_t (removelast pts)) -> tmin <= t <= tmax) /\
    by_time (sp_ctrl sp) /\
    map fst (sp_ctrl sp) = grid tmin dt n /\
    (forall k, (k < n)%nat <-> tmin + INR k * dt < tmax) /\
    (forall s P, In (s, P) (sp_ctrl sp) -> exists p q, In p (removelast pts) /\ In q (removelast pts) /\ tp_t p <= s < tp_t q /\
      (forall x, In x (removelast pts) -> tp_t x <= tp_t p \/ tp_t q <= tp_t x) /\
      geodesic ((s - tp_t p) / (tp_t q - tp_t p)) (SE3 (m3tr (quat_2_Rot (tp_q p))) (tp_p p)) (SE3 (m3tr (quat_2_Rot (tp_q q))) (tp_p q)) P).
Proof.
  intros pts. destruct (feed_thm p0 p1 rest) as (sp & dt & tmin & tmax & n & A1 & A2 & A3 & A4 & A5 & A6 & A7 & A8 & A9).
  exists sp, dt, tmin, tmax, n. repeat (split; [assumption|]). intros s P I. apply ctrl_thm, A9, I.
Qed.
