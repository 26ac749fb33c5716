(** A concrete simulation: at rest until shortly after the start time, then accelerating forward. *)
From Coq Require Import Reals Lra Lia List Arith Bool ZArith.
From Verif Require Import Outcome RBool GeoModel GeoSpec GeoProofs ExpProofs Se3Proofs EvalThms DbModel DbProofs FeatModel DescProofs StartEx.
From Verif Require Import BsplModel BsplSpec BsplFind BsplFeed BsplThms BsplCtrl BsplSeg SimModel SimSpec SimThms SimsModel SimsSpec SimsProofs SimsMap SimsThms.
Import ListNotations.
Open Scope R_scope.

Definition sx_z (k : nat) : R := if (k =? 4)%nat then 1 else 0.
Definition sx_pt (k : nat) : traj_pt := TP (INR k) (V3 0 0 (sx_z k)) (Q4 0 0 0 1).
Definition sx_pts : list traj_pt := map sx_pt (seq 0 7).
Definition sx_at (z : R) : se3 := SE3 m3id (V3 0 0 z).
Definition sx_l : pmap := [(0, sx_at 0); (1, sx_at 0); (2, sx_at 0); (3, sx_at 0); (4, sx_at 1)].

Lemma quat_id : m3tr (quat_2_Rot (Q4 0 0 0 1)) = m3id.
Proof. apply m3_ext; cbn; ring. Qed.
Lemma sx_feed : exists sp, feed_trajectory sx_pts [] = Ok sp /\ sp_ctrl sp = sx_l /\ sp_start sp = Some 2.
Proof.
  destruct (feed_ctrl_thm (sx_pt 0) (sx_pt 1) (map sx_pt (seq 2 5)))
    as (sp & dt & tmin & tmax & n & E & Ed & Est & Hd & (Hmin & Hmax & Hb) & Hs & Hg & Hn & Hc).
  change (_ :: _ :: _) with sx_pts in E, Hd, Hmin, Hmax, Hb, Hc.
  assert (Hdt : dt = 1).
  { rewrite Hd. unfold sx_pts. cbn [map seq last sx_pt tp_t length Nat.sub]. rewrite Rmax_right; simpl; lra. }
  assert (Hl : map tp_t (removelast sx_pts) = map INR (seq 0 6)) by reflexivity. rewrite Hl in *.
  assert (H0 : tmin = 0).
  { assert (A : In 0 (map INR (seq 0 6))) by (simpl; auto). apply Hb in A.
    apply in_map_iff in Hmin as (k & <- & _). assert (0 <= INR k) by apply pos_INR. lra. }
  assert (H5 : tmax = 5).
  { assert (A : In 5 (map INR (seq 0 6))) by (apply in_map_iff; exists 5%nat; split; [simpl; ring|simpl; tauto]). apply Hb in A.
    apply in_map_iff in Hmax as (k & <- & Hk). apply in_seq in Hk. assert (INR k <= INR 5) by (apply le_INR; lia). simpl in *. lra. }
  assert (n = 5%nat).
  { assert (A : (4 < n)%nat) by (apply Hn; rewrite H0, H5, Hdt; simpl; lra).
    assert (B : ~ (5 < n)%nat) by (intros B; apply Hn in B; rewrite H0, H5, Hdt in B; simpl in B; lra). lia. }
  clear Hd. subst tmin tmax dt n. exists sp. split; [exact E|]. split; [|rewrite Est; f_equal; ring].
  assert (PK : forall k P, (k < 5)%nat -> In (INR k, P) (sp_ctrl sp) -> P = sx_at (sx_z k)).
  { intros k P Hk I. destruct (Hc _ _ I) as (p & q & Ip & Iq & Ht & Hx & G).
    assert (Pk : In (sx_pt k) (removelast sx_pts)).
    { change (removelast sx_pts) with (map sx_pt (seq 0 6)). apply in_map, in_seq. lia. }
    change (removelast sx_pts) with (map sx_pt (seq 0 6)) in Ip. apply in_map_iff in Ip. destruct Ip as (k' & <- & _).
    specialize (Hx _ Pk). cbn [sx_pt tp_t] in Hx, Ht, G.
    assert (k' = k). { apply INR_eq. destruct Hx; lra. } subst k'.
    destruct G as (w & uu & G & _). rewrite G. replace (INR k - INR k) with 0 by ring. replace (0 / (tp_t q - INR k)) with 0 by (unfold Rdiv; ring).
    replace (v3scal 0 w) with v3zero by (apply v3_ext; cbn; ring). rewrite exp_se3_zero. cbn [tp_q tp_p sx_pt]. rewrite quat_id.
    unfold sx_at, se3mul; cbn [seR set_]. f_equal; [apply m3_ext; cbn; ring|apply v3_ext; cbn; ring]. }
  unfold grid in Hg. cbn [seq map] in Hg. destruct (sp_ctrl sp) as [|[t0 P0] [|[t1 P1] [|[t2 P2] [|[t3 P3] [|[t4 P4] [|]]]]]]; try discriminate.
  injection Hg as E0 E1 E2 E3 E4. cbn [fst] in *.
  assert (F0 : t0 = INR 0) by (rewrite E0; simpl; ring). assert (F1 : t1 = INR 1) by (rewrite E1; simpl; ring). assert (F2 : t2 = INR 2) by (rewrite E2; simpl; ring).
  assert (F3 : t3 = INR 3) by (rewrite E3; simpl; ring). assert (F4 : t4 = INR 4) by (rewrite E4; simpl; ring). clear E0 E1 E2 E3 E4 Hs. subst t0 t1 t2 t3 t4.
  rewrite (PK 0%nat P0), (PK 1%nat P1), (PK 2%nat P2), (PK 3%nat P3), (PK 4%nat P4); try lia; try (unfold In; tauto).
  unfold sx_l, sx_z. cbn [Nat.eqb]. replace (INR 2) with 2 by (simpl; ring). replace (INR 3) with 3 by (simpl; ring). replace (INR 4) with 4 by (simpl; ring). reflexivity.
Qed.

Lemma sx_uniform : uniform sx_l 0 1 5.
Proof.
  split; [lra|]. split.
  - unfold by_time, sx_l. repeat (constructor; [|repeat (constructor; [simpl; lra|]); try constructor]). constructor.
  - unfold sx_l, grid. cbn [map seq fst]. repeat f_equal; simpl; ring.
Qed.
Lemma seg_at a c : seg (sx_at a) (sx_at c) = (v3zero, V3 0 0 (c - a)).
Proof.
  unfold seg, sx_at. replace (se3mul (Inv_se3 (SE3 m3id (V3 0 0 a))) (SE3 m3id (V3 0 0 c))) with (SE3 m3id (V3 0 0 (c - a))).
  - unfold log_se3. cbn [seR set_]. rewrite log_id, norm_v3zero. destruct (Rltb_spec 0 (1 / 10 ^ 10)); [reflexivity|lra].
  - unfold se3mul, Inv_se3. cbn [seR set_]. f_equal; [apply m3_ext; cbn; ring|apply v3_ext; cbn; ring].
Qed.
Lemma exp_at_tr k v : exp_at k (v3zero, v) = SE3 m3id (v3scal k v).
Proof. unfold exp_at. cbn [fst snd]. replace (v3scal k v3zero) with v3zero by (apply v3_ext; cbn; ring). apply exp_se3_zero. Qed.
Lemma sx_pose t : 2 <= t < 3 -> get_pose sx_l t = Ok (true, (m3id, V3 0 0 ((t - 2) * (t - 2) * (t - 2) / 6))).
Proof.
  intros Ht. rewrite (get_pose_around sx_l t (1, sx_at 0) (2, sx_at 0) (3, sx_at 0) (4, sx_at 1)); [|apply sx_uniform|exists [(0, sx_at 0)], []; split; [reflexivity|exact Ht]].
  f_equal. f_equal. unfold seg_pose. cbn [fst snd]. rewrite !seg_at. unfold interp_pose. rewrite !exp_at_tr. unfold m4mul, m4of, sx_at, cb2. cbn [m4R m4t m4c seR set_].
  replace ((t - 2) / (3 - 2)) with (t - 2) by field. generalize (t - 2). intros x.
  f_equal; [apply m3_ext; cbn; ring|apply v3_ext; cbn; field].
Qed.
Lemma sx_pose' t z : 2 <= t < 3 -> (t - 2) * (t - 2) * (t - 2) / 6 = z -> get_pose sx_l t = Ok (true, (m3id, V3 0 0 z)).
Proof. intros H <-. apply sx_pose. exact H. Qed.
Lemma sx_finish : finish 0 1 5 = 3. Proof. unfold finish. cbn. ring. Qed.

(** ** cameras looking ahead, the second one mounted 12 mm further forward; one point per frame *)
Definition sx_dist (c : camobj) (q : px) : px := (100 * fst q + 50, 100 * snd q + 50).
Definition sx_und (c : camobj) (q : px) : px := ((fst q - 50) / 100, (snd q - 50) / 100).
Definition sx_b : spar :=
  mkSpar 400 4 9 m3id m3id (m3scal 0 m3id) (Q4 0 0 0 1) (Q4 0 0 0 1) 0 1 true 0 (106 / 1000)
    (fun _ => (Q4 0 0 0 1, v3zero)) (fun _ q => q) (fun _ q => q) (fun _ => (0, 0)).
Definition sx_cam (equi : bool) (f : R) : camobj := mkCam equi 100 100 (fun r => if (r <? 2)%nat then f else if (r <? 4)%nat then 50 else 0).
Definition sx_h : heap := [sx_cam false 100; sx_cam true 90].
Definition sx_o (n : nat) : vopt :=
  mkVopt n [(0%nat, 0%nat); (1%nat, 1%nat)] [(0%nat, (Q4 0 0 0 1, v3zero)); (1%nat, (Q4 0 0 0 1, V3 0 0 (- 12 / 1000)))] 0 true false true
    (fun _ => 0) (fun _ => 0) (fun _ => 0) (Q4 0 0 0 1) (Q4 0 0 0 1).
Definition sx_u (j : nat) : R * R * R := (1 / 2, 1 / 2, 0).
Definition sx_off (i : nat) : R := if (i =? 0)%nat then 0 else - 12 / 1000.
Definition sx_new (pert : bool) (w : nat -> R) (n : nat) : outcome made :=
  sim_new sx_dist sx_und sx_b (1 / 10) (1 / 100) pert w sx_u sx_l (Some 2) sx_h (sx_o n).

Lemma quat_id' : quat_2_Rot (Q4 0 0 0 1) = m3id.
Proof. apply m3_ext; cbn; ring. Qed.
(** heap and projection parameters without perturbation *)
Definition sx_h2 : heap := sx_h ++ sx_h.
Definition sx_own (n : nat) : vopt := set_cams (sx_o n) [(0%nat, 2%nat); (1%nat, 3%nat)].
Definition sx_par (n : nat) : spar := spar_of sx_dist sx_und sx_b sx_h2 (sx_own n).

Lemma sx_cam_pt n i z g : (i < 2)%nat -> to_cam (sx_par n) i m3id (V3 0 0 z) (V3 0 0 g) = V3 0 0 (g - z + sx_off i).
Proof.
  intros Hi. destruct i as [|[|i]]; [| |lia]; unfold to_cam; cbn [sx_par spar_of sp_ext sx_own set_cams vo_ext sx_o alook Nat.eqb fst snd]; rewrite quat_id';
    unfold sx_off; cbn [Nat.eqb]; apply v3_ext; cbn; lra.
Qed.
Lemma sx_hit n i z g j : (i < 2)%nat -> 1 / 10 <= g - z + sx_off i <= 106 / 1000 -> project_one (sx_par n) i m3id (V3 0 0 z) (j, V3 0 0 g) = [(j, (50, 50))].
Proof.
  intros Hi H. unfold project_one. cbn [snd fst]. rewrite sx_cam_pt by exact Hi. cbn [vx vy vz]. change (sp_maxd (sx_par n)) with (106 / 1000).
  rewrite (lt_f (106 / 1000) _), (lt_f _ (1 / 10)) by lra. cbn [orb].
  replace (0 / (g - z + sx_off i)) with 0 by (unfold Rdiv; ring).
  assert (D : sp_distort (sx_par n) i (0, 0) = (50, 50) /\ sp_size (sx_par n) i = (100, 100)).
  { destruct i as [|[|i]]; [| |lia]; (split; [|reflexivity]); unfold sx_par; cbn [spar_of sp_distort sx_own set_cams vo_cams alook Nat.eqb nth_error sx_h2 sx_h app]; unfold sx_dist; cbn [fst snd]; f_equal; ring. }
  destruct D as [-> ->]. cbn [fst snd]. rb. reflexivity.
Qed.
Lemma sx_miss n i z g j : (i < 2)%nat -> g - z + sx_off i < 1 / 10 \/ 106 / 1000 < g - z + sx_off i -> project_one (sx_par n) i m3id (V3 0 0 z) (j, V3 0 0 g) = [].
Proof.
  intros Hi H. unfold project_one. cbn [snd fst]. rewrite sx_cam_pt by exact Hi. cbn [vx vy vz]. change (sp_maxd (sx_par n)) with (106 / 1000).
  destruct H as [H|H]; [rewrite (lt_t _ (1 / 10)) by lra; rewrite orb_true_r; reflexivity|rewrite (lt_t (106 / 1000) _) by lra; reflexivity].
Qed.
Lemma sx_gen n i z j : (i < 2)%nat -> gen_point (sx_par n) i m3id (V3 0 0 z) (scale_draw (sx_par n) (1 / 10) i (sx_u j)) = V3 0 0 (1 / 10 + z - sx_off i).
Proof.
  intros Hi. unfold scale_draw, sx_u. cbn [fst snd].
  assert (D : sp_size (sx_par n) i = (100, 100) /\ (forall q, sp_undistort (sx_par n) i q = ((fst q - 50) / 100, (snd q - 50) / 100)) /\ sp_ext (sx_par n) i = (Q4 0 0 0 1, V3 0 0 (sx_off i))).
  { destruct i as [|[|i]]; [| |lia]; repeat split. }
  destruct D as (D1 & D2 & D3). unfold gen_point. cbn [fst snd]. rewrite D1, D2, D3. cbn [fst snd]. rewrite quat_id'. apply v3_ext; cbn; field.
Qed.
Lemma sx_step n i fuel t z id feats : (i < 2)%nat -> get_pose sx_l t = Ok (true, (m3id, V3 0 0 z)) -> project_pointcloud (sx_par n) m3id (V3 0 0 z) i feats = [] ->
  map_frames (S fuel) sx_l (sx_par n) (1 / 10) sx_u i t id feats =
  map_frames fuel sx_l (sx_par n) (1 / 10) sx_u i (t + 1 / 4) (S id) (feats ++ [(id, V3 0 0 (1 / 10 + z - sx_off i))]).
Proof.
  intros Hi E P. cbn [map_frames]. rewrite E. cbn [obind fst snd negb]. rewrite one_frame. unfold missing. rewrite P. change (sp_npts (sx_par n)) with 1%nat.
  cbn [length Nat.sub]. unfold new_points. cbn [seq map]. rewrite Nat.add_0_r, sx_gen by exact Hi. rewrite Nat.add_1_r. reflexivity.
Qed.
Lemma sx_fuel : pass_fuel sx_l 2 (1 / 4) = 11%nat.
Proof. unfold pass_fuel. cbn [sx_l last fst]. replace ((4 - 2) / (1 / 4)) with 8 by field. rewrite <- (tech_up 8 9); [reflexivity|lra|lra]. Qed.
Definition sx_f (k : nat) (c : R) : R := let x := INR k * (1 / 4) in 1 / 10 + x * x * x / 6 - c.
Definition sx_map0 : list (nat * v3) := [(0, V3 0 0 (1 / 10)); (1, V3 0 0 (1 / 10 + 1 / 384)); (2, V3 0 0 (1 / 10 + 1 / 48)); (3, V3 0 0 (1 / 10 + 9 / 128))]%nat.
Definition sx_map1 : list (nat * v3) := [(4, V3 0 0 (112 / 1000)); (5, V3 0 0 (112 / 1000 + 1 / 384)); (6, V3 0 0 (112 / 1000 + 1 / 48)); (7, V3 0 0 (112 / 1000 + 9 / 128))]%nat.
Ltac sx_none := unfold project_pointcloud; cbn [flat_map app sx_map0]; rewrite ?sx_miss by (try lia; unfold sx_off; cbn [Nat.eqb]; lra); reflexivity.
Lemma sx_poses : get_pose sx_l 2 = Ok (true, (m3id, V3 0 0 0)) /\ get_pose sx_l (2 + 1 / 4) = Ok (true, (m3id, V3 0 0 (1 / 384))) /\
  get_pose sx_l (2 + 1 / 4 + 1 / 4) = Ok (true, (m3id, V3 0 0 (1 / 48))) /\ get_pose sx_l (2 + 1 / 4 + 1 / 4 + 1 / 4) = Ok (true, (m3id, V3 0 0 (9 / 128))) /\
  exists rp, get_pose sx_l (2 + 1 / 4 + 1 / 4 + 1 / 4 + 1 / 4) = Ok (false, rp).
Proof.
  split; [apply sx_pose'; lra|]. split; [apply sx_pose'; lra|]. split; [apply sx_pose'; lra|].
  split; [apply sx_pose'; lra|].
  destruct (curves_exist sx_l (m3id, v3zero) ltac:(apply sx_uniform)) as (Rf & pf & _ & _ & C & _). apply (pose_out sx_l 0 1 5 Rf pf); [apply sx_uniform|exact C|rewrite sx_finish; lra].
Qed.
Lemma sx_frames0 n : map_frames 11 sx_l (sx_par n) (1 / 10) sx_u 0 2 0 [] = Ok (Some (4%nat, sx_map0)).
Proof.
  destruct sx_poses as (P0 & P1 & P2 & P3 & rp & P4).
  rewrite (sx_step n 0 _ _ _ _ _ ltac:(lia) P0) by sx_none. cbn [app]. replace (1 / 10 + 0 - sx_off 0) with (1 / 10) by (unfold sx_off; cbn [Nat.eqb]; ring).
  rewrite (sx_step n 0 _ _ _ _ _ ltac:(lia) P1) by sx_none. cbn [app]. replace (1 / 10 + 1 / 384 - sx_off 0) with (1 / 10 + 1 / 384) by (unfold sx_off; cbn [Nat.eqb]; ring).
  rewrite (sx_step n 0 _ _ _ _ _ ltac:(lia) P2) by sx_none. cbn [app]. replace (1 / 10 + 1 / 48 - sx_off 0) with (1 / 10 + 1 / 48) by (unfold sx_off; cbn [Nat.eqb]; ring).
  rewrite (sx_step n 0 _ _ _ _ _ ltac:(lia) P3) by sx_none. cbn [app]. replace (1 / 10 + 9 / 128 - sx_off 0) with (1 / 10 + 9 / 128) by (unfold sx_off; cbn [Nat.eqb]; ring).
  cbn [map_frames]. rewrite P4. reflexivity.
Qed.
Lemma sx_frames1 n : map_frames 11 sx_l (sx_par n) (1 / 10) sx_u 1 2 4 sx_map0 = Ok (Some (8%nat, sx_map0 ++ sx_map1)).
Proof.
  destruct sx_poses as (P0 & P1 & P2 & P3 & rp & P4).
  rewrite (sx_step n 1 _ _ _ _ _ ltac:(lia) P0) by sx_none. cbn [app sx_map0]. replace (1 / 10 + 0 - sx_off 1) with (112 / 1000) by (unfold sx_off; cbn [Nat.eqb]; lra).
  rewrite (sx_step n 1 _ _ _ _ _ ltac:(lia) P1) by sx_none. cbn [app]. replace (1 / 10 + 1 / 384 - sx_off 1) with (112 / 1000 + 1 / 384) by (unfold sx_off; cbn [Nat.eqb]; lra).
  rewrite (sx_step n 1 _ _ _ _ _ ltac:(lia) P2) by sx_none. cbn [app]. replace (1 / 10 + 1 / 48 - sx_off 1) with (112 / 1000 + 1 / 48) by (unfold sx_off; cbn [Nat.eqb]; lra).
  rewrite (sx_step n 1 _ _ _ _ _ ltac:(lia) P3) by sx_none. cbn [app]. replace (1 / 10 + 9 / 128 - sx_off 1) with (112 / 1000 + 9 / 128) by (unfold sx_off; cbn [Nat.eqb]; lra).
  cbn [map_frames]. rewrite P4. reflexivity.
Qed.

(** the way first exceeds 1 cm half a second after the start time *)
Lemma norm_z x : 0 <= x -> v3norm (V3 0 0 x) = x.
Proof. intros H. unfold v3norm, v3dot. cbn [vx vy vz]. replace (0 * 0 + 0 * 0 + x * x) with (Rsqr x) by (unfold Rsqr; ring). apply sqrt_Rsqr. exact H. Qed.
Lemma sx_start : start_times sx_l (Some 2) 4 (1 / 100) = Ok (5 / 2, 5 / 2, 5 / 2).
Proof.
  destruct sx_poses as (P0 & P1 & P2 & P3 & rp & P4). unfold start_times. rewrite P0. cbn [obind fst snd negb]. rewrite sx_fuel.
  assert (S0 : v3sub (V3 0 0 0) (V3 0 0 0) = V3 0 0 0) by (apply v3_ext; cbn; ring).
  assert (S1 : v3sub (V3 0 0 (1 / 384)) (V3 0 0 0) = V3 0 0 (1 / 384)) by (apply v3_ext; cbn; ring).
  assert (S2 : v3sub (V3 0 0 (1 / 48)) (V3 0 0 (1 / 384)) = V3 0 0 (7 / 384)) by (apply v3_ext; cbn; lra).
  cbn [find_motion]. rewrite P0. cbn [obind fst snd negb]. rewrite S0, norm_z, lt_f by lra. rewrite P1. cbn [obind fst snd negb]. rewrite S1, norm_z, lt_f by lra.
  rewrite P2. cbn [obind fst snd negb]. rewrite S2, norm_z, lt_t by lra. cbn [obind look]. replace (2 + 1 / 4 + 1 / 4) with (5 / 2) by lra. reflexivity.
Qed.
Definition sx_made (n : nat) (k : nat) (mp : list (nat * v3)) : made :=
  mkMade sx_h2 (sx_own n) (sx_par n) (sx_o n) (start_state 400 (5 / 2, 5 / 2, 5 / 2)) k mp.
Lemma sx_new1 w : sx_new false w 1 = Ok (sx_made 1 4 sx_map0).
Proof.
  unfold sx_new, sim_new. change (copy_params sx_h (sx_o 1)) with (Ok (sx_h2, sx_own 1)). cbn [obind fst snd]. change (sp_fc sx_b) with 4. rewrite sx_start. cbn [obind fst snd].
  fold (sx_par 1). unfold make_map. change (vo_ncam (sx_own 1)) with 1%nat. cbn [seq ofold]. unfold map_cam. cbn [sx_own set_cams vo_cams vo_ext sx_o alook Nat.eqb look obind sx_h2 sx_h app nth_error fst snd].
  rewrite sx_fuel, sx_frames0. reflexivity.
Qed.
Lemma sx_new2 w : sx_new false w 2 = Ok (sx_made 2 8 (sx_map0 ++ sx_map1)).
Proof.
  unfold sx_new, sim_new. change (copy_params sx_h (sx_o 2)) with (Ok (sx_h2, sx_own 2)). cbn [obind fst snd]. change (sp_fc sx_b) with 4. rewrite sx_start. cbn [obind fst snd].
  fold (sx_par 2). unfold make_map. change (vo_ncam (sx_own 2)) with 2%nat. cbn [seq ofold]. unfold map_cam. cbn [sx_own set_cams vo_cams vo_ext sx_o alook Nat.eqb look obind sx_h2 sx_h app nth_error fst snd].
  rewrite sx_fuel, sx_frames0. cbn [look obind fst snd]. rewrite sx_frames1. reflexivity.
Qed.
(** between the synthetic frames, at 2.4 s, the first camera sees nothing of the map made for it alone,
    and a point made for the second camera when there are two *)
Lemma sx_between n (f := (12 / 5 - 2) * (12 / 5 - 2) * (12 / 5 - 2) / 6) : project_pointcloud (sx_par n) m3id (V3 0 0 f) 0 sx_map0 = [] /\
  project_pointcloud (sx_par n) m3id (V3 0 0 f) 0 (sx_map0 ++ sx_map1) = [(4%nat, (50, 50)); (5%nat, (50, 50))].
Proof.
  unfold f. unfold project_pointcloud. cbn [flat_map app sx_map0 sx_map1].
  rewrite (sx_miss n 0 _ _ 0), (sx_miss n 0 _ _ 1), (sx_miss n 0 _ _ 2), (sx_miss n 0 _ _ 3), (sx_hit n 0 _ _ 4), (sx_hit n 0 _ _ 5), (sx_miss n 0 _ _ 6), (sx_miss n 0 _ _ 7)
    by (try lia; unfold sx_off; cbn [Nat.eqb]; lra). split; reflexivity.
Qed.
Lemma sx_between_ex : exists l st h o b n' i t Q x m m',
  (exists pts sp, feed_trajectory pts [] = Ok sp /\ sp_ctrl sp = l /\ sp_start sp = st) /\
  sim_new sx_dist sx_und b (1 / 10) (1 / 100) false (fun _ => 0) sx_u l st h o = Ok m /\
  sim_new sx_dist sx_und b (1 / 10) (1 / 100) false (fun _ => 0) sx_u l st h (with_cams o n') = Ok m' /\
  (i < vo_ncam o < n')%nat /\ get_pose l t = Ok (true, (Q, x)) /\
  (length (project_pointcloud (md_par m) Q x i (md_map m)) < sp_npts b)%nat /\
  forall nz, cam_feats (md_par m') Q x (md_map m') nz i <> cam_feats (md_par m) Q x (md_map m) nz i.
Proof.
  exists sx_l, (Some 2), sx_h, (sx_o 1), sx_b, 2%nat, 0%nat, (12 / 5). do 2 eexists. exists (sx_made 1 4 sx_map0), (sx_made 2 8 (sx_map0 ++ sx_map1)).
  split; [destruct sx_feed as (sp & E); exists sx_pts, sp; exact E|]. split; [apply sx_new1|]. split; [apply sx_new2|]. split; [cbn; lia|].
  split; [apply sx_pose; lra|]. cbn [sx_made md_par md_map]. destruct (sx_between 1) as [A _]. destruct (sx_between 2) as [_ B]. rewrite A. split; [cbn; lia|].
  intros nz. unfold cam_feats. rewrite A, B. cbn. discriminate.
Qed.
Lemma sx_pointers n : pointers_ok sx_h (sx_o n).
Proof. intros i a [E|[E|[]]]; injection E as <- <-; cbn; lia. Qed.
Lemma sx_calibrated n : (n <= 2)%nat -> calibrated sx_h (sx_o n).
Proof. intros H i Hi. cbn in Hi. destruct i as [|[|i]]; [| |lia]; do 3 eexists; repeat split; reflexivity. Qed.
Lemma sx_no_sharing n : no_sharing (sx_o n).
Proof. intros i j a. cbn. destruct i as [|[|i]], j as [|[|j]]; cbn; intros E F; try discriminate; try reflexivity; congruence. Qed.
