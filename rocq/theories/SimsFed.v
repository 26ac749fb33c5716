(** Remaining facts on the simulator's constructor. *)
From Coq Require Import Reals Lra Lia List Arith ZArith Bool.
From Verif Require Import Outcome RBool GeoModel GeoSpec DbModel FeatModel DescProofs BsplModel BsplSpec BsplThms BsplCtrl SimModel SimSpec SimsModel SimsSpec SimsProofs SimsMap SimsThms SimsEx.
Import ListNotations.
Open Scope R_scope.

Lemma fed p0 p1 rest : exists sp tmin dt n, feed_trajectory (p0 :: p1 :: rest) [] = Ok sp /\
  uniform (BsplModel.sp_ctrl sp) tmin dt n /\ BsplModel.sp_start sp = Some (tmin + 2 * dt) /\
  exists Rf pf, pose_curve (BsplModel.sp_ctrl sp) Rf pf.
Proof.
  destruct (feed_ctrl_thm p0 p1 rest) as (sp & dt & tmin & tmax & n & E & Ed & Est & Hd & (Hmin & Hmax & Hb) & Hs & Hg & Hn & Hc).
  exists sp, tmin, dt, n. split; [exact E|]. split.
  - split; [|split; [exact Hs|exact Hg]]. rewrite Hd. apply Rlt_le_trans with (5 / 100); [lra|apply Rmax_l].
  - split; [exact Est|]. destruct (curves_exist (BsplModel.sp_ctrl sp) (m3id, v3zero) Hs) as (Rf & pf & _ & _ & C & _). eauto.
Qed.
Lemma new_nan dist und b mind th pert w u l h o : pointers_ok h o -> sim_new dist und b mind th pert w u l None h o = Exit.
Proof.
  intros P. unfold sim_new, copy_params. destruct (copy_defined h (vo_cams o) P (length h)) as [r Er]. rewrite Er. reflexivity.
Qed.
Lemma new_perturbed dist und b mind th w u l st h o m : no_sharing o -> sim_new dist und b mind th true w u l st h o = Ok m ->
  exists h2, (forall a c, nth_error h a = Some c -> nth_error h2 a = Some c) /\ perturbed w h2 o (md_heap m) (md_user m).
Proof.
  intros N H. destruct (new_inv _ _ _ _ _ _ _ _ _ _ _ _ _ H) as (cs & cams & c & t & _ & _ & _ & _ & _ & Hp & _).
  exists (h ++ cs). split; [|apply perturb_spec; auto]. intros a c0 E. rewrite nth_error_app1; [exact E|apply nth_error_Some; congruence].
Qed.
Lemma new_off dist und b mind th w u l st h o m : sim_new dist und b mind th false w u l st h o = Ok m ->
  md_user m = o /\ forall a c, nth_error h a = Some c -> nth_error (md_heap m) a = Some c.
Proof.
  intros H. destruct (new_inv _ _ _ _ _ _ _ _ _ _ _ _ _ H) as (cs & cams & c & t & _ & _ & _ & _ & _ & [Hh Hu] & _).
  split; [exact Hu|]. intros a c0 E. rewrite Hh, nth_error_app1; [exact E|apply nth_error_Some; congruence].
Qed.
Lemma same_noise : ~ exists strm sigma seed o i j si sj k m,
  i <> j /\ nth_error (snd (meas_seeds seed o)) i = Some si /\ nth_error (snd (meas_seeds seed o)) j = Some sj /\
  px_noise strm sigma si k m <> px_noise strm sigma sj k m.
Proof.
  intros (strm & sigma & seed & o & i & j & si & sj & k & m & _ & A & B & D). apply D. f_equal.
  unfold meas_seeds in *. cbn [snd] in *.
  apply nth_error_In in A. apply nth_error_In in B. apply in_map_iff in A as (x & <- & _). apply in_map_iff in B as (y & <- & _). reflexivity.
Qed.
Lemma pert_ex : no_sharing (sx_o 2) /\ exists m c, sx_new true (fun k => INR (S k)) 2 = Ok m /\
  alook (vo_cams (md_user m)) 1 = Some 1%nat /\ nth_error (md_heap m) 1 = Some c /\ co_val c 0 = 90 + INR 16 /\ vo_dt (md_user m) = 1 / 100 /\
  sp_dt (md_par m) = 0 /\ exists e, alook (vo_ext (md_user m)) 1 = Some e /\ snd e = V3 (1 / 100 * INR 27) (1 / 100 * INR 28) (- 12 / 1000 + 1 / 100 * INR 29).
Proof.
  split; [apply sx_no_sharing|].
  destruct (curves_exist sx_l (m3id, v3zero) ltac:(apply sx_uniform)) as (Rf & pf & _ & _ & C & _).
  pose proof (new_start sx_dist sx_und sx_b (1 / 10) (1 / 100) false (fun _ => 0) sx_u sx_l 0 1 5 Rf pf sx_h (sx_o 2) (sx_made 2 8 (sx_map0 ++ sx_map1)) sx_uniform C ltac:(cbn; lra)) as NS.
  replace (0 + 2 * 1) with 2 in NS by ring. specialize (NS (sx_new2 (fun _ => 0))). destruct NS as (k & F1 & F2 & _).
  pose proof (new_defined sx_dist sx_und sx_b (1 / 10) (1 / 100) true (fun k => INR (S k)) sx_u sx_l 0 1 5 Rf pf sx_h (sx_o 2) k sx_uniform C ltac:(cbn; lra) (sx_pointers 2) (sx_calibrated 2 ltac:(lia))) as ND.
  replace (0 + 2 * 1) with 2 in ND by ring. destruct (ND F1 F2) as [m E]. fold (sx_new true (fun k => INR (S k)) 2) in E.
  destruct (new_perturbed _ _ _ _ _ _ _ _ _ _ _ _ (sx_no_sharing 2) E) as (h2 & K & P).
  destruct (pt_cam _ _ _ _ _ P 1 1 (sx_cam true 90) ltac:(cbn; lia) eq_refl (K 1%nat _ eq_refl)) as (c & E1 & _ & _ & _ & E2 & _).
  destruct (pt_ext _ _ _ _ _ P 1 (Q4 0 0 0 1) (V3 0 0 (- 12 / 1000)) ltac:(cbn; lia) eq_refl) as (q' & p' & X1 & _ & X2).
  exists m, c. split; [exact E|]. split; [destruct (pt_rest _ _ _ _ _ P) as (_ & -> & _); reflexivity|]. split; [exact E1|].
  split; [rewrite (E2 0%nat) by lia; reflexivity|]. split; [rewrite (pt_dt _ _ _ _ _ P); cbn [src sx_o vo_dt]; simpl; ring|].
  split; [unfold sx_new in E; destruct (truth_kept _ _ _ _ _ _ _ _ _ _ _ _ _ E) as (_ & _ & _ & _ & T); exact T|]. eexists. split; [exact X1|]. cbn [snd]. rewrite X2.
  cbn [src sx_o vo_ncam Nat.mul Nat.add]. unfold v3add. cbn [vx vy vz]. f_equal; ring.
Qed.
