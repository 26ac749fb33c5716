(** The feature map of the simulator. *)
From Coq Require Import Reals Lra Lia List Arith Bool ZArith FunctionalExtensionality.
From Verif Require Import Outcome RBool GeoModel GeoSpec GeoProofs DbModel DbProofs FeatModel DescProofs.
From Verif Require Import BsplModel BsplSpec BsplFind BsplFeed BsplThms SimModel SimSpec SimThms SimsModel SimsSpec SimsProofs.
Import ListNotations.
Open Scope R_scope.

Lemma project_app p Q x i a b : project_pointcloud p Q x i (a ++ b) = project_pointcloud p Q x i a ++ project_pointcloud p Q x i b.
Proof. apply flat_map_app. Qed.
Lemma project_one_le p i Q x f : (length (project_one p i Q x f) <= 1)%nat.
Proof. unfold project_one. repeat (match goal with |- context [if ?b then _ else _] => destruct b end); cbn; lia. Qed.
Lemma project_le p i Q x a b : (length (project_pointcloud p Q x i (a ++ b)) <= length (project_pointcloud p Q x i a) + length b)%nat.
Proof.
  rewrite project_app, app_length. apply Nat.add_le_mono_l. induction b as [|f b IH]; [cbn; lia|].
  cbn [project_pointcloud flat_map]. rewrite app_length. pose proof (project_one_le p i Q x f). unfold project_pointcloud in IH. cbn [length]. lia.
Qed.
Lemma project_ge p i Q x a b : (length (project_pointcloud p Q x i a) <= length (project_pointcloud p Q x i (a ++ b)))%nat.
Proof. rewrite project_app, app_length. lia. Qed.
Lemma gen_list p i Q x ds : forall id feats, generate_points p i Q x ds id feats = ((id + length ds)%nat, feats ++ combine (seq id (length ds)) (map (gen_point p i Q x) ds)).
Proof.
  induction ds as [|d ds IH]; intros id feats; cbn [generate_points].
  - cbn. rewrite app_nil_r, Nat.add_0_r. reflexivity.
  - rewrite IH. cbn [length seq map combine]. rewrite <- app_assoc. f_equal. lia.
Qed.
Lemma combine_map_seq {A} (g : nat -> A) cnt : forall k j, combine (seq (k + j) cnt) (map g (seq j cnt)) = map (fun m => ((k + m)%nat, g m)) (seq j cnt).
Proof.
  induction cnt as [|cnt IH]; intros k j; [reflexivity|]. cbn [seq map combine]. f_equal. rewrite <- IH.
  replace (S (k + j)) with (k + S j)%nat by lia. reflexivity.
Qed.
Definition new_points (p : spar) mind (u : nat -> R * R * R) i Q x id cnt : list (nat * v3) :=
  map (fun m => ((id + m)%nat, gen_point p i Q x (scale_draw p mind i (u (id + m)%nat)))) (seq 0 cnt).
Lemma gen_new p mind u i Q x id feats cnt :
  generate_points p i Q x (map (fun j => scale_draw p mind i (u (id + j)%nat)) (seq 0 cnt)) id feats = ((id + cnt)%nat, feats ++ new_points p mind u i Q x id cnt).
Proof.
  rewrite gen_list, map_length, seq_length, map_map. f_equal. f_equal. unfold new_points.
  rewrite <- (combine_map_seq (fun m => gen_point p i Q x (scale_draw p mind i (u (id + m)%nat))) cnt id 0), Nat.add_0_r. reflexivity.
Qed.

(** the frame's part in one pass *)
Definition missing (p : spar) Q x i feats : nat := (sp_npts p - length (project_pointcloud p Q x i feats))%nat.
Lemma one_frame p mind u i Q x id feats :
  (if (length (project_pointcloud p Q x i feats) <? sp_npts p)%nat
   then generate_points p i Q x (map (fun j => scale_draw p mind i (u (id + j)%nat)) (seq 0 (sp_npts p - length (project_pointcloud p Q x i feats)))) id feats
   else (id, feats)) = ((id + missing p Q x i feats)%nat, feats ++ new_points p mind u i Q x id (missing p Q x i feats)).
Proof.
  unfold missing. destruct (Nat.ltb_spec (length (project_pointcloud p Q x i feats)) (sp_npts p)) as [L|L]; [apply gen_new|].
  replace (sp_npts p - length (project_pointcloud p Q x i feats))%nat with 0%nat by lia. cbn. rewrite app_nil_r, Nat.add_0_r. reflexivity.
Qed.
Lemma new_len p mind u i Q x id cnt : length (new_points p mind u i Q x id cnt) = cnt.
Proof. unfold new_points. rewrite map_length, seq_length. reflexivity. Qed.
Lemma new_ids p mind u i Q x feats cnt : map_ids feats -> map_ids (feats ++ new_points p mind u i Q x (length feats) cnt).
Proof.
  unfold map_ids. intros H. rewrite map_app, H, app_length, new_len, seq_app. f_equal. unfold new_points. rewrite map_map. cbn [fst].
  cbn [plus]. clear. generalize (length feats). intros k. assert (G : forall j, seq (k + j) cnt = map (fun m => (k + m)%nat) (seq j cnt)).
  { induction cnt as [|c IH]; intros j; [reflexivity|]. cbn [seq map]. f_equal. rewrite <- IH. f_equal. lia. }
  rewrite <- G, Nat.add_0_r. reflexivity.
Qed.
Lemma new_split p mind u i Q x id cnt pre f post : new_points p mind u i Q x id cnt = pre ++ f :: post ->
  (length pre < cnt)%nat /\ f = ((id + length pre)%nat, gen_point p i Q x (scale_draw p mind i (u (id + length pre)%nat))).
Proof.
  intros E. assert (L : (length pre < cnt)%nat) by (rewrite <- (new_len p mind u i Q x id cnt), E, app_length; cbn; lia). split; [exact L|].
  assert (N : nth_error (new_points p mind u i Q x id cnt) (length pre) = Some f) by (rewrite E, nth_error_app2, Nat.sub_diag by lia; reflexivity).
  unfold new_points in N. rewrite (map_nth_error _ _ _ (d := length pre)) in N; [congruence|].
  rewrite (nth_error_nth' _ 0%nat) by (rewrite seq_length; lia). rewrite seq_nth by lia. reflexivity.
Qed.

(** ** what every point of the map owes its existence to *)
Section Frames.
Variables (l : pmap) (tmin dt : R) (n : nat) (Rf : R -> m3) (pf : R -> v3) (st : R) (p : spar) (mind : R) (u : nat -> R * R * R).
Hypothesis HU : uniform l tmin dt n.
Hypothesis HC : pose_curve l Rf pf.
Hypothesis Hst : tmin + dt <= st.
Notation T := (finish tmin dt n).
Notation tick k := (st + INR k * (1 / 4)).

(** [f] was added behind [pre] because of frame [k] of camera [i] *)
Definition made_for (i : nat) (pre : list (nat * v3)) (f : nat * v3) : Prop :=
  exists k, tick k < T /\ f = (length pre, gen_point p i (Rf (tick k)) (pf (tick k)) (scale_draw p mind i (u (length pre)))) /\
    (length (project_pointcloud p (Rf (tick k)) (pf (tick k)) i pre) < sp_npts p)%nat.
Definition enough (i : nat) (k : nat) (feats : list (nat * v3)) : Prop :=
  (sp_npts p <= length (project_pointcloud p (Rf (tick k)) (pf (tick k)) i feats))%nat.
(** a point drawn for camera [i] at a frame is seen there *)
Definition draws_seen (i : nat) : Prop := forall k j, tick k < T ->
  project_one p i (Rf (tick k)) (pf (tick k)) (j, gen_point p i (Rf (tick k)) (pf (tick k)) (scale_draw p mind i (u j))) <> [].

Lemma frames_spec i fuel : forall k t id feats, t = tick k -> map_ids feats -> id = length feats -> (1 <= fuel)%nat -> T <= st + INR (k + fuel - 1) * (1 / 4) ->
  exists new, map_frames fuel l p mind u i t id feats = Ok (Some (length (feats ++ new), feats ++ new)) /\ map_ids (feats ++ new) /\
    (forall pre f post, new = pre ++ f :: post -> made_for i (feats ++ pre) f) /\
    (draws_seen i -> forall j, (k <= j)%nat -> tick j < T -> enough i j (feats ++ new)).
Proof.
  assert (DP : 0 < dt) by apply HU.
  induction fuel as [|fuel IH]; intros k t id feats Et Hm Hid H1 H2; [lia|].
  cbn [map_frames]. destruct (Rlt_le_dec t T) as [L|L].
  - assert (0 <= INR k) by apply pos_INR.
    rewrite (pose_in l tmin dt n Rf pf t HU HC) by (split; [rewrite Et; nra|exact L]). cbn [obind fst snd negb].
    rewrite one_frame. set (c := missing p (Rf t) (pf t) i feats). set (nw := new_points p mind u i (Rf t) (pf t) id c).
    destruct fuel as [|f']. { exfalso. replace (k + 1 - 1)%nat with k in H2 by lia. lra. }
    assert (Hm' : map_ids (feats ++ nw)) by (unfold nw; rewrite Hid; apply new_ids; auto).
    destruct (IH (S k) (t + 1 / 4) (id + c)%nat (feats ++ nw)) as (new & I1 & I2 & I3 & I4).
    + rewrite S_INR. lra.
    + exact Hm'.
    + rewrite app_length. unfold nw. rewrite new_len. congruence.
    + lia.
    + replace (S k + S f' - 1)%nat with (k + S (S f') - 1)%nat by lia. exact H2.
    + exists (nw ++ new). rewrite app_assoc. split; [exact I1|]. split; [exact I2|]. split.
      * intros pre f post E.
        assert (S0 : (exists q, nw = pre ++ f :: q) \/ (exists q, pre = nw ++ q /\ new = q ++ f :: post)).
        { clear - E. revert pre E. generalize nw as a. clear nw. induction a as [|y a IHa]; intros pre E; [right; exists pre; auto|].
          destruct pre as [|z pre]; cbn in E; injection E as E1 E2; subst.
          - left. exists a. reflexivity.
          - destruct (IHa pre E2) as [(q & E3)|(q & E3 & E4)]; [left; exists q; cbn; congruence|right; exists q; split; [cbn; congruence|exact E4]]. }
        destruct S0 as [(q & S1)|(q & -> & S2)].
        -- apply new_split in S1. destruct S1 as (S1 & S2). exists k. rewrite <- Et. split; [lra|]. split.
           ++ rewrite app_length, <- Hid. exact S2.
           ++ pose proof (project_le p i (Rf t) (pf t) feats pre). unfold c, missing in S1. lia.
        -- rewrite app_assoc. apply (I3 q f post S2).
      * intros V j Hj HT. destruct (Nat.eq_dec j k) as [->|N]; [|apply I4; auto; lia].
        unfold enough. eapply Nat.le_trans; [|apply project_ge]. rewrite project_app, app_length.
        assert (G : forall m id0, (m <= length (project_pointcloud p (Rf (tick k)) (pf (tick k)) i (new_points p mind u i (Rf (tick k)) (pf (tick k)) id0 m)))%nat).
        { clear - V HT. intros m id0. unfold new_points. generalize 0%nat. induction m as [|m IHm]; intros s; [cbn; lia|]. cbn [seq map project_pointcloud flat_map]. rewrite app_length.
          specialize (V k (id0 + s)%nat HT). destruct (project_one p i (Rf (tick k)) (pf (tick k)) ((id0 + s)%nat, _)) as [|y r] eqn:E; [congruence|].
          specialize (IHm (S s)). unfold project_pointcloud in IHm. cbn [length]. lia. }
        subst t. specialize (G c id). unfold nw. assert (Ec : c = (sp_npts p - length (project_pointcloud p (Rf (tick k)) (pf (tick k)) i feats))%nat) by reflexivity. lia.
  - destruct (pose_out l tmin dt n Rf pf t HU HC L) as (rp & E). rewrite E. cbn [obind fst negb].
    exists []. rewrite app_nil_r. split; [congruence|]. split; [exact Hm|]. split; [intros [|a pre] f post E'; discriminate|].
    intros _ j Hj HT. exfalso. assert (INR k <= INR j) by (apply le_INR; lia). lra.
Qed.

Variables (h : heap) (o : vopt).
Definition has_cam (i : nat) : Prop := exists a c e, alook (vo_cams o) i = Some a /\ nth_error h a = Some c /\ alook (vo_ext o) i = Some e.
Lemma map_cam_spec i feats : map_ids feats -> has_cam i ->
  exists new, map_cam l p h o mind u st (length feats, feats) i = Ok (length (feats ++ new), feats ++ new) /\ map_ids (feats ++ new) /\
    (forall pre f post, new = pre ++ f :: post -> made_for i (feats ++ pre) f) /\
    (draws_seen i -> forall j, tick j < T -> enough i j (feats ++ new)).
Proof.
  intros Hm (a & c & e & E1 & E2 & E3). unfold map_cam. rewrite E1. cbn [look obind]. rewrite E2. cbn [look obind]. rewrite E3. cbn [look obind fst snd].
  destruct (frames_spec i (pass_fuel l st (1 / 4)) 0 st (length feats) feats) as (new & I1 & I2 & I3 & I4); auto.
  - cbn. ring.
  - unfold pass_fuel. lia.
  - replace (0 + pass_fuel l st (1 / 4) - 1)%nat with (pass_fuel l st (1 / 4) - 1)%nat by lia. apply fuel_enough; auto; [lra|]. destruct HU. lra.
  - exists new. rewrite I1. cbn [obind look]. split; [reflexivity|]. split; [exact I2|]. split; [exact I3|]. intros V j HT. apply I4; auto; lia.
Qed.
Lemma map_cam_needs s i r : map_cam l p h o mind u st s i = Ok r -> has_cam i.
Proof.
  unfold map_cam. intros H. apply obind_ok in H. destruct H as (a & Ea & H). apply look_ok in Ea.
  apply obind_ok in H. destruct H as (c & Ec & H). apply look_ok in Ec.
  apply obind_ok in H. destruct H as (e & Ee & H). apply look_ok in Ee. exists a, c, e. auto.
Qed.
Lemma enough_app i k a b : enough i k a -> enough i k (a ++ b).
Proof. unfold enough. intros H. eapply Nat.le_trans; [exact H|apply project_ge]. Qed.
Lemma split_app {A} (nw new pre : list A) f post : nw ++ new = pre ++ f :: post ->
  (exists q, nw = pre ++ f :: q) \/ (exists q, pre = nw ++ q /\ new = q ++ f :: post).
Proof.
  revert pre. induction nw as [|y a IHa]; intros pre E; [right; exists pre; auto|].
  destruct pre as [|z pre]; cbn in E; injection E as E1 E2; subst.
  - left. exists a. reflexivity.
  - destruct (IHa pre E2) as [(q & E3)|(q & E3 & E4)]; [left; exists q; cbn; congruence|right; exists q; split; [cbn; congruence|exact E4]].
Qed.
Lemma cams_spec cnt : forall m feats, map_ids feats -> (forall i, (m <= i < m + cnt)%nat -> has_cam i) ->
  exists new, ofold (map_cam l p h o mind u st) (seq m cnt) (length feats, feats) = Ok (length (feats ++ new), feats ++ new) /\ map_ids (feats ++ new) /\
    (forall pre f post, new = pre ++ f :: post -> exists i, (m <= i < m + cnt)%nat /\ made_for i (feats ++ pre) f) /\
    (forall i, (m <= i < m + cnt)%nat -> draws_seen i -> forall j, tick j < T -> enough i j (feats ++ new)).
Proof.
  induction cnt as [|cnt IH]; intros m feats Hm Hc; cbn [seq ofold].
  - exists []. rewrite app_nil_r. split; [reflexivity|]. split; [exact Hm|]. split; [intros [|a pre] f post E; discriminate|]. intros i Hi. lia.
  - destruct (map_cam_spec m feats Hm (Hc m ltac:(lia))) as (nw & I1 & I2 & I3 & I4). rewrite I1. cbn [obind].
    destruct (IH (S m) (feats ++ nw) I2) as (new & J1 & J2 & J3 & J4); [intros i Hi; apply Hc; lia|].
    exists (nw ++ new). rewrite app_assoc. split; [exact J1|]. split; [exact J2|]. split.
    + intros pre f post E. apply split_app in E. destruct E as [(q & E)|(q & -> & E)].
      * exists m. split; [lia|]. eapply I3. exact E.
      * destruct (J3 q f post E) as (i & Hi & J). exists i. split; [lia|]. rewrite app_assoc. exact J.
    + intros i Hi V j HT. destruct (Nat.eq_dec i m) as [->|N]; [apply enough_app; auto|]. apply J4; auto. lia.
Qed.
Lemma cams_need cnt : forall m s r, ofold (map_cam l p h o mind u st) (seq m cnt) s = Ok r -> forall i, (m <= i < m + cnt)%nat -> has_cam i.
Proof.
  induction cnt as [|cnt IH]; intros m s r; cbn [seq ofold]; [intros _ i Hi; lia|].
  intros H i Hi. apply obind_ok in H. destruct H as (s1 & H1 & H2). destruct (Nat.eq_dec i m) as [->|N]; [eapply map_cam_needs; eauto|].
  eapply IH; [exact H2|lia].
Qed.
End Frames.

Lemma ofold_app {A S} (f : S -> A -> outcome S) a b s : ofold f (a ++ b) s = obind (ofold f a s) (ofold f b).
Proof. revert s. induction a as [|x a IH]; intros s; cbn [app ofold obind]; [reflexivity|]. destruct (f s x); cbn [obind]; auto. Qed.

(** a pixel of the image at an admissible depth *)
Lemma draw_ok p mind i Q x d : is_rot Q -> unit_q (fst (sp_ext p i)) -> 1 / 10 <= mind <= sp_maxd p -> 0 <= fst (sp_size p i) -> 0 <= snd (sp_size p i) ->
  (forall uv, in_image p i uv -> sp_distort p i (sp_undistort p i uv) = uv) ->
  0 <= fst (fst d) <= 1 -> 0 <= snd (fst d) <= 1 -> 0 <= snd d <= 1 ->
  forall j, project_one p i Q x (j, gen_point p i Q x (scale_draw p mind i d)) <> [].
Proof.
  intros HQ Hq Hd Hw Hh HD U1 U2 U3 j. set (uv := fst (scale_draw p mind i d)). set (de := snd (scale_draw p mind i d)).
  assert (I : in_image p i uv). { unfold uv, in_image, scale_draw. cbn [fst snd]. split; split; nra. }
  assert (D : 1 / 10 <= de <= sp_maxd p). { unfold de, scale_draw. cbn [snd]. split; nra. }
  pose proof (gen_reprojects p i Q x uv de j HQ Hq D (HD uv I) I) as G. unfold uv, de in G. rewrite <- surjective_pairing in G.
  intros E. rewrite E in G. contradiction.
Qed.
Lemma gen_on_ray p i Q x d : is_rot Q -> unit_q (fst (sp_ext p i)) -> on_ray p i Q x (gen_point p i Q x d) (fst d) (snd d).
Proof.
  intros HQ Hq. assert (HC : is_rot (quat_2_Rot (fst (sp_ext p i)))) by (apply quat_2_Rot_is_rot; auto).
  unfold on_ray, gen_point. cbv zeta. set (q := sp_undistort p i (fst d)).
  set (pc := v3scal (snd d) (V3 (fst q) (snd q) 1)). set (C := quat_2_Rot (fst (sp_ext p i))) in *. set (y := snd (sp_ext p i)).
  replace (v3sub (v3add (m3v (m3tr Q) (m3v (m3tr C) (v3sub pc y))) x) x) with (m3v (m3tr Q) (m3v (m3tr C) (v3sub pc y)))
    by (generalize (m3v (m3tr Q) (m3v (m3tr C) (v3sub pc y))); intros v; apply v3_ext; simpl; ring).
  assert (CQ : forall M v, is_rot M -> m3v M (m3v (m3tr M) v) = v).
  { intros M v HM. rewrite <- m3v_mul. assert (E : m3mul M (m3tr M) = m3id) by apply HM. rewrite E. apply m3v_id. }
  rewrite !CQ by auto. apply v3_ext; simpl; ring.
Qed.
Lemma sees_project p i Q x feats : map_ids feats -> sees p i Q x feats (map fst (project_pointcloud p Q x i feats)).
Proof.
  intros H. split; [apply project_ids; apply map_ids_nodup; auto|]. intros id. rewrite in_map_iff. split.
  - intros ([id' uv] & E & I). cbn in E. subst id'. apply project_spec in I. destruct I as (f & I). exists f, uv. exact I.
  - intros (f & uv & I). exists (id, uv). split; [reflexivity|]. apply project_spec. exists f. exact I.
Qed.
