(** get_velocity and get_acceleration return derivatives of what get_pose returns (C39): times inside a
    segment, times close to a knot, and the knots themselves. *)
From Coq Require Import Reals Lra Psatz Bool List.
From Coquelicot Require Import Coquelicot.
From Verif Require Import RBool Outcome GeoModel GeoSpec GeoProofs ExpProofs Se3Proofs JacSo3 Calc3 GeoMore.
From Verif Require Import BsplModel BsplSpec BsplFind BsplDiff BsplSeg.
Open Scope R_scope.

(** the curves traced by the outputs of get_pose and get_velocity as the time argument varies *)
Definition pose_curve (l : pmap) (Rf : R -> m3) (pf : R -> v3) : Prop :=
  forall s, exists ok, get_pose l s = Ok (ok, (Rf s, pf s)).
Definition rate_curve (l : pmap) (old : m3 * v3) (wf vf : R -> v3) : Prop :=
  forall s, exists ok rp, get_velocity l s old = Ok (ok, rp, (wf s, vf s)).

Lemma ok_inj {A} (x y : A) : Ok x = Ok y -> x = y.
Proof. intros H; injection H as H; exact H. Qed.
Lemma pair_inj {A B} (x x' : A) (y y' : B) : (x, y) = (x', y') -> x = x' /\ y = y'.
Proof. intros H; injection H as H1 H2; auto. Qed.

Lemma fbc_around l s a b c d : by_time l -> around s l a b c d ->
  find_bounding_control_points s l = Ok (Some (a, b, c, d)).
Proof.
  intros Hs Ha. destruct (around_thm s l Hs) as (r & -> & Hr). apply Hr in Ha. subst r. reflexivity.
Qed.

Definition seg_pose (a b c d : R * se3) (s : R) : m4 :=
  interp_pose (snd a) (seg (snd a) (snd b)) (seg (snd b) (snd c)) (seg (snd c) (snd d)) ((s - fst b) / (fst c - fst b)).
Definition seg_vel (a b c d : R * se3) (s : R) : m4 :=
  interp_vel (snd a) (seg (snd a) (snd b)) (seg (snd b) (snd c)) (seg (snd c) (snd d)) (fst c - fst b) ((s - fst b) / (fst c - fst b)).
Definition seg_acc (a b c d : R * se3) (s : R) : m4 :=
  interp_acc (snd a) (seg (snd a) (snd b)) (seg (snd b) (snd c)) (seg (snd c) (snd d)) (fst c - fst b) ((s - fst b) / (fst c - fst b)).

Lemma get_pose_around l s a b c d : by_time l -> around s l a b c d ->
  get_pose l s = Ok (true, (m3tr (m4R (seg_pose a b c d s)), m4t (seg_pose a b c d s))).
Proof. intros Hs Ha. unfold get_pose. rewrite (fbc_around l s a b c d Hs Ha). reflexivity. Qed.
Lemma get_velocity_around l s old a b c d : by_time l -> around s l a b c d ->
  get_velocity l s old = Ok (true, (m3tr (m4R (seg_pose a b c d s)), m4t (seg_pose a b c d s)),
    (vee (m3mul (m3tr (m4R (seg_pose a b c d s))) (m4R (seg_vel a b c d s))), m4t (seg_vel a b c d s))).
Proof. intros Hs Ha. unfold get_velocity. rewrite (fbc_around l s a b c d Hs Ha). reflexivity. Qed.
Lemma get_acceleration_around l s old oldv a b c d : by_time l -> around s l a b c d ->
  get_acceleration l s old oldv = Ok (true, (m3tr (m4R (seg_pose a b c d s)), m4t (seg_pose a b c d s)),
    (vee (m3mul (m3tr (m4R (seg_pose a b c d s))) (m4R (seg_vel a b c d s))), m4t (seg_vel a b c d s)),
    (vee (m3mul (m3tr (m4R (seg_pose a b c d s)))
       (m3sub (m4R (seg_acc a b c d s)) (m3mul (m4R (seg_vel a b c d s)) (m3mul (m3tr (m4R (seg_pose a b c d s))) (m4R (seg_vel a b c d s)))))),
     m4t (seg_acc a b c d s))).
Proof. intros Hs Ha. unfold get_acceleration. rewrite (fbc_around l s a b c d Hs Ha). reflexivity. Qed.

(** the same four control points serve a whole neighbourhood of a time strictly between two of them *)
Lemma around_near l t a b c d : around t l a b c d -> fst b < t -> locally t (fun s => around s l a b c d).
Proof.
  intros (l1 & l2 & E & Ht) Hb.
  assert (L1 : locally t (fun s => fst b < s)) by (apply open_gt; exact Hb).
  assert (L2 : locally t (fun s => s < fst c)) by (apply open_lt; lra).
  eapply filter_imp; [|exact (filter_and _ _ L1 L2)]. intros s (H1 & H2). exists l1, l2. split; [exact E|lra].
Qed.

Definition clear_of_switch (a b c d : R * se3) (t : R) : Prop :=
  reg3 (seg (snd a) (snd b)) (seg (snd b) (snd c)) (seg (snd c) (snd d)) ((t - fst b) / (fst c - fst b)).

Lemma seg_pose_derive a b c d t : fst b < fst c -> clear_of_switch a b c d t ->
  m4_derive (seg_pose a b c d) t (seg_vel a b c d t).
Proof. intros H Hr. apply interp_pose_derive; [lra|exact Hr]. Qed.
Lemma seg_vel_derive a b c d t : fst b < fst c -> clear_of_switch a b c d t ->
  m4_derive (seg_vel a b c d) t (seg_acc a b c d t).
Proof. intros H Hr. apply interp_vel_derive; [lra|exact Hr]. Qed.

Lemma m3d_tr_tr f x D : m3_derive f x D -> m3_derive (fun t => m3tr (m3tr (f t))) x D.
Proof. intros H. eapply m3_derive_ext; [|exact H]. intros t. symmetry. apply m3tr_tr. Qed.

Lemma velocity_inside l a b c d t Rf pf old ok R p w v :
  by_time l -> around t l a b c d -> fst b < t -> clear_of_switch a b c d t -> pose_curve l Rf pf ->
  get_velocity l t old = Ok (ok, (R, p), (w, v)) ->
  ok = true /\ R = Rf t /\ p = pf t /\ v3_derive pf t v /\
  (is_rot (seR (snd a)) -> is_rot R /\ m3_derive (fun s => m3tr (Rf s)) t (m3mul (m3tr R) (skew_x w))).
Proof.
  intros Hs Ha Hb Hc Hp Hv. rewrite (get_velocity_around l t old a b c d Hs Ha) in Hv.
  apply ok_inj in Hv. apply pair_inj in Hv as (Hv & Hw). apply pair_inj in Hv as (<- & Hv). apply pair_inj in Hv as (<- & <-). apply pair_inj in Hw as (<- & <-).
  assert (Hq : forall s, around s l a b c d -> Rf s = m3tr (m4R (seg_pose a b c d s)) /\ pf s = m4t (seg_pose a b c d s)).
  { intros s Hq. destruct (Hp s) as (ok' & E). rewrite (get_pose_around l s a b c d Hs Hq) in E. apply ok_inj in E. apply pair_inj in E as (_ & E). apply pair_inj in E as (<- & <-). auto. }
  assert (Hbc : fst b < fst c) by (destruct Ha as (? & ? & _ & Ha); lra).
  destruct (seg_pose_derive a b c d t Hbc Hc) as (D1 & D2 & _).
  destruct (Hq t Ha) as (E1 & E2). pose proof (around_near l t a b c d Ha Hb) as L.
  split; [reflexivity|]. split; [auto|]. split; [auto|]. split.
  - eapply v3_derive_ext_loc; [|exact D2]. eapply filter_imp; [|exact L]. intros s Hl. symmetry. apply (Hq s Hl).
  - intros Hrot. pose proof (interp_vel_skew _ _ _ _ (fst c - fst b) _ Hrot Hc) as (HP & _). cbv zeta in HP.
    split; [apply is_rot_tr; exact HP|]. rewrite m3tr_tr.
    eapply m3_derive_ext_loc; [|eapply m3_derive_eq; [exact D1|exact (interp_rate _ _ _ _ (fst c - fst b) _ Hrot Hc)]].
    eapply filter_imp; [|exact L]. intros s Hl. cbv beta. rewrite (proj1 (Hq s Hl)), m3tr_tr. reflexivity.
Qed.

Lemma acceleration_inside l a b c d t wf vf old oldv ok rp w v al ac :
  by_time l -> around t l a b c d -> fst b < t -> clear_of_switch a b c d t -> rate_curve l old wf vf ->
  get_acceleration l t old oldv = Ok (ok, rp, (w, v), (al, ac)) ->
  ok = true /\ get_velocity l t old = Ok (true, rp, (w, v)) /\ v = vf t /\ w = wf t /\
  v3_derive vf t ac /\ (is_rot (seR (snd a)) -> v3_derive wf t al).
Proof.
  intros Hs Ha Hb Hc Hp Hv. rewrite (get_acceleration_around l t old oldv a b c d Hs Ha) in Hv.
  apply ok_inj in Hv. apply pair_inj in Hv as (Hv & Hx). apply pair_inj in Hv as (Hv & Hw). apply pair_inj in Hv as (<- & <-).
  apply pair_inj in Hw as (<- & <-). apply pair_inj in Hx as (<- & <-).
  assert (Hq : forall s, around s l a b c d ->
     wf s = vee (m3mul (m3tr (m4R (seg_pose a b c d s))) (m4R (seg_vel a b c d s))) /\ vf s = m4t (seg_vel a b c d s)).
  { intros s Hq. destruct (Hp s) as (ok' & rp' & E). rewrite (get_velocity_around l s old a b c d Hs Hq) in E.
    apply ok_inj in E. apply pair_inj in E as (_ & E). apply pair_inj in E as (<- & <-). auto. }
  assert (Hbc : fst b < fst c) by (destruct Ha as (? & ? & _ & Ha); lra).
  destruct (seg_vel_derive a b c d t Hbc Hc) as (_ & D2 & _).
  destruct (Hq t Ha) as (E1 & E2). pose proof (around_near l t a b c d Ha Hb) as L.
  split; [reflexivity|]. split; [apply (get_velocity_around l t old a b c d Hs Ha)|]. split; [auto|]. split; [auto|]. split.
  - eapply v3_derive_ext_loc; [|exact D2]. eapply filter_imp; [|exact L]. intros s Hl. symmetry. apply (Hq s Hl).
  - intros Hrot. eapply v3_derive_ext_loc.
    2: { unfold seg_pose, seg_vel, seg_acc. refine (interp_rate_derive _ _ _ _ (fst b) (fst c - fst b) t _ Hrot Hc). lra. }
    eapply filter_imp; [|exact L]. intros s Hl. symmetry. apply (Hq s Hl).
Qed.

(** the curves exist for every map *)
Lemma curves_exist l old : by_time l -> exists Rf pf wf vf, pose_curve l Rf pf /\ rate_curve l old wf vf.
Proof.
  intros Hs.
  exists (fun s => match get_pose l s with Ok (_, (r, _)) => r | _ => m3id end),
         (fun s => match get_pose l s with Ok (_, (_, p)) => p | _ => v3zero end),
         (fun s => match get_velocity l s old with Ok (_, _, (w, _)) => w | _ => v3zero end),
         (fun s => match get_velocity l s old with Ok (_, _, (_, v)) => v | _ => v3zero end).
  split; intros s; unfold get_pose, get_velocity; destruct (around_thm s l Hs) as (r & -> & _); cbn [obind];
    destruct r as [[[[a b] c] d]|]; eauto.
Qed.
