(** Two concrete camera frames with an anchored landmark. *)
From Coq Require Import Reals Lra Lia Psatz List ZArith Bool.
From Verif Require Import RBool Outcome Lin GeoModel GeoSpec GeoProofs GivensModel GivensSpec TypesModel TypesProofs StateModel StateSpec StateOps StateOps2 StateOps3 StateOps4 StateOps5 StateInit StateLin StateEkf ReachModel ReachSpec StateReach StateFrame StateThms StateEx FeatModel FeatProofs LandModel LandSpec CamModel HelpModel HelpSpec AnchorModel AnchorSpec AnchorPhi AnchorProofs AnchorTotal AnchorLive AnchorThms.
Import ListNotations.
Open Scope R_scope.


(** Two camera frames with a window of one clone: the first inserts a landmark seen by both cameras, the second
    moves its anchor to the new clone before the old one goes. *)
Definition ex_seen (T : R) : obs := [(0%nat, [(T, (0, 0))]); (1%nat, [(T, (0, 0))])].
Definition ex_newland (a : slam) : newland :=
  mkNew 7 (ex_seen (s_time (sl_st a))) AnchMsckf (mkVec (s_next (sl_st a) - 1) None 3 [1; 2; 3] [1; 2; 3]) v3zero v3zero
    [(Some 0%nat, 6%nat)] ex_HR ex_HL ex_Rn (DVec 4 (fun _ => 0)) 1.
Definition ex_ops : list (slam -> sop) := [fun _ => SOp (OAlloc 1); fun a => SLand (ex_newland a)].
Definition ex_slam0 (st : state) : slam := mkSlam st true (fun _ => None) (fun _ => mkLm Global3D (-1) (-1) v3zero v3zero).

Lemma ex_respects a : reach ex_chi2 (sl_st a) -> s_opts (sl_st a) = ex_opts -> (15 <= s_dim (sl_st a))%nat -> s_slam (sl_st a) = [] -> srespects ex_chi2 ex_ops a.
Proof.
  intros HR O D S. cbn [srespects ex_ops]. split; [split; [exact I|split; [exact I|discriminate]]|]. intros a' E. cbn [sexec exec obind] in E. injection E as <-. split; [|intros; exact I].
  destruct (reach_progress _ _ (OAlloc 1) HR I) as (st2 & E2 & R2). cbn [exec] in E2. injection E2 as E2. destruct (reach_inv _ _ HR) as (Hok & HP & HM).
  cbn [with_st sl_st sallowed ex_newland nl_obs nl_var nl_order nl_HR nl_HL nl_Rn nl_res nl_mult nl_id nl_rep s_next set_next s_time s_opts s_slam ex_seen].
  split; [cbn; constructor; [intros [X|[]]; discriminate|constructor; [intros []|constructor]]|].
  split; [intros c ts [X|[X|[]]]; injection X as <- <-; rewrite O; cbn; lia|].
  split. { rewrite E2. replace (s_next (sl_st a) + 1 - 1)%nat with (s_next (sl_st a)) by lia. apply ex_init_allowed; rewrite <- E2; cbn [s_dim set_next s_next s_opts s_vars].
    - rewrite E2. eapply reach_inv; exact R2.
    - exact D.
    - lia.
    - apply (mp_next _ HM).
    - intros Hin. apply (ok_alloc _ Hok) in Hin. lia. }
  rewrite S. split; [intros []|]. split; [discriminate|reflexivity].
Qed.

Lemma ex_land_step a : winv ex_chi2 Busy a -> sallowed a (SLand (ex_newland a)) -> s_slam (sl_st a) = [] -> In (s_time (sl_st a)) (map fst (s_clones (sl_st a))) ->
  exists a', delayed_one ex_chi2 a (ex_newland a) = Ok a' /\ s_slam (sl_st a') = [(7%nat, ((s_next (sl_st a) - 1)%nat, false))] /\
    lm_rep (sl_meta a' (s_next (sl_st a) - 1)) = AnchMsckf /\ lm_atime (sl_meta a' (s_next (sl_st a) - 1)) = s_time (sl_st a) /\ s_clones (sl_st a') = s_clones (sl_st a).
Proof.
  intros W SA S0 Tin. pose proof SA as SA'. destruct SA' as (_ & _ & Al & _). destruct (reach_inv _ _ (w_reach _ _ _ W)) as (Hok & HP & HM).
  set (x := ex_newland a) in *. unfold delayed_one. set (T := s_time (sl_st a)).
  assert (EF : clean_obs (map fst (s_clones (sl_st a))) (nl_obs x) = ex_seen T).
  { unfold x, ex_newland, clean_obs, ex_seen. cbn [nl_obs map fst snd filter]. fold T. replace (existsb (Reqb T) (map fst (s_clones (sl_st a)))) with true; [reflexivity|].
    symmetry. apply existsb_exists. exists T. split; [exact Tin|apply Reqb_true; reflexivity]. }
  rewrite EF. change (count_obs (ex_seen T) <? 2)%nat with false. cbv iota.
  destruct Al as (A1 & A2 & A3 & A4 & A5 & A6 & A7 & A8 & A9 & A10 & A11 & A12 & A13).
  destruct (initialize_total ex_chi2 (sl_st a) (TVec (nl_var x)) (nl_order x) (nl_HR x) (nl_HL x) (nl_Rn x) (nl_res x) (nl_mult x)) as (b & st' & E & _ & _ & D & HT); auto. { apply cams_ready_of; auto. }
  assert (b = true).
  { destruct b; [reflexivity|]. exfalso. destruct (initialize_reject _ _ _ _ _ _ _ _ _ _ HP A11 E) as (_ & G & _ & _ & y & _ & Hlt). unfold x, ex_newland in Hlt. cbn [nl_mult nl_HL nl_res nl_var nl_order nl_HR nl_Rn] in Hlt. rewrite StateEx.dot_zero in Hlt.
    - unfold ex_chi2 in Hlt. pose proof (pos_INR (dr ex_HL)). lra.
    - intros i Hi. unfold mvec. apply sumn_zero. intros k Hk. cbn. ring. }
  subst b. destruct (HT eq_refl) as (vars & nv' & _ & _ & _ & _ & _ & _ & _ & G3 & G4 & _).
  assert (EA : exists c uv n, anchor_of (ex_seen T) = Ok (c, T, uv, n)).
  { unfold anchor_of, most_meas, ex_seen. cbn. eexists. eexists. eexists. reflexivity. }
  destruct EA as (c & uv & n & EA). rewrite EA. cbn [obind]. rewrite E. cbn [obind fst snd]. eexists. split; [reflexivity|]. cbn [sl_st s_slam set_slam sl_meta s_clones]. rewrite G4, S0, G3.
  split; [reflexivity|]. unfold set_meta. change (vo_ptr (nl_var x)) with (s_next (sl_st a) - 1)%nat. rewrite Nat.eqb_refl. cbn. auto.
Qed.

Lemma ex_slam_frames : exists a0 a1 a2 p T, passes ex_chi2 Idle a0 /\ s_time (sl_st a0) = T /\
  slam_frame ex_chi2 a0 (T + 1) (ex_prop ex_opts) ex_ops = Ok a1 /\ slam_frame ex_chi2 a1 (T + 2) (ex_prop ex_opts) [] = Ok a2 /\
  s_slam (sl_st a1) = [(7%nat, (p, false))] /\ s_slam (sl_st a2) = [(7%nat, (p, false))] /\ lm_rep (sl_meta a2 p) = AnchMsckf /\
  map fst (s_clones (sl_st a1)) = [T + 1] /\ map fst (s_clones (sl_st a2)) = [T + 2] /\ lm_atime (sl_meta a1 p) = T + 1 /\ lm_atime (sl_meta a2 p) = T + 2 /\ passes ex_chi2 Idle a2 /\ s_opts (sl_st a2) = ex_opts.
Proof.
  destruct ex_new as (st0 & _ & R0 & C0 & S0 & O0 & D0). set (a0 := ex_slam0 st0). set (T := s_time st0).
  assert (P0 : passes ex_chi2 Idle a0). { apply ps_start; [exact R0|exact C0|exact S0|cbn [a0 ex_slam0 sl_st]; rewrite O0; cbn; lia|]. intros H. cbn [a0 ex_slam0 sl_st] in H. rewrite O0 in H. discriminate. }
  pose proof (passes_inv _ _ _ P0) as W0. pose proof (ex_prop_ok ex_opts) as PK0. assert (PK : prop_ok (s_opts (sl_st a0)) (ex_prop ex_opts)) by (cbn [a0 ex_slam0 sl_st]; rewrite O0; exact PK0).
  assert (Ht : s_time (sl_st a0) < T + 1) by (cbn [a0 ex_slam0 sl_st]; unfold T; lra).
  destruct (prop_clone_total ex_chi2 (sl_st a0) (T + 1) _ (w_reach _ _ _ W0) (w_last _ _ _ W0) Ht PK) as (st1 & p1 & E1 & R1 & O1 & T1 & C1). cbn [a0 ex_slam0 sl_st] in O1, C1. rewrite C0 in C1. rewrite O0 in O1. cbn [app] in C1.
  destruct (clone_step _ _ _ _ _ W0 PK Ht E1) as (W1 & _ & _ & S1). cbn [a0 ex_slam0 sl_st] in S1. rewrite S0 in S1. pose proof (ps_clone _ _ _ _ _ P0 PK Ht E1) as P1.
  assert (D1 : (15 <= s_dim st1)%nat).
  { destruct (reach_inv _ _ R1) as (Hok1 & _ & HM1). pose proof (imu_built (s_opts st1)) as B. destruct (base_find _ _ Hok1 HM1 B) as (tt & Hin & (_ & _ & K2 & _) & _). 
    apply in_split in Hin. destruct Hin as (l1 & l2 & El). pose proof (ok_layout _ Hok1) as L. rewrite El in L. apply consecutive_app in L. destruct L as (m & _ & L). cbn [consecutive] in L. destruct L as [_ L].
    pose proof (consecutive_le _ _ _ L) as Le. rewrite K2 in Le. cbn in Le. lia. }
  pose proof (ex_respects (with_st a0 st1) R1 O1 D1 S1) as SR. cbn [srespects ex_ops] in SR. destruct SR as [SA1 SR].
  specialize (SR (with_st (with_st a0 st1) (set_next st1 (s_next st1 + 1))) eq_refl). destruct SR as [SA2 _]. set (b1 := with_st (with_st a0 st1) (set_next st1 (s_next st1 + 1))) in *.
  assert (P2 : passes ex_chi2 Busy b1) by (eapply ps_op; [exact P1|exact SA1|reflexivity]).
  destruct (ex_land_step b1 (passes_inv _ _ _ P2) SA2) as (a2 & E2 & S2 & M2 & A2 & C2). { exact S1. } { cbn [b1 with_st sl_st s_time set_next s_clones]. rewrite T1, C1. left. reflexivity. }
  assert (P3 : passes ex_chi2 Busy a2) by (eapply ps_op; [exact P2|exact SA2|exact E2]).
  destruct (land_step _ _ _ (passes_inv _ _ _ P2) SA2) as (a2' & E2' & _ & O2 & T2). rewrite E2 in E2'. injection E2' as <-. cbn [b1 with_st sl_st s_time set_next s_clones s_opts] in O2, T2, C2, A2. rewrite C1 in C2. rewrite O1 in O2. rewrite T1 in T2, A2.
  set (p := (s_next (sl_st b1) - 1)%nat) in *.
  assert (E3 : change_anchors a2 = Ok a2) by (unfold change_anchors; rewrite C2, O2; reflexivity). pose proof (ps_change _ _ _ P3 E3) as P4.
  assert (E4 : marginalize_old_clone (sl_st a2) = Ok (sl_st a2)) by (unfold marginalize_old_clone; rewrite C2, O2; reflexivity). pose proof (ps_drop _ _ _ P4 E4) as P5.
  replace (with_st a2 (sl_st a2)) with a2 in P5 by (destruct a2; reflexivity).
  assert (F1 : slam_frame ex_chi2 a0 (T + 1) (ex_prop ex_opts) ex_ops = Ok a2).
  { unfold slam_frame. destruct (Rltb_spec (T + 1) (s_time (sl_st a0))) as [X|_]; [lra|]. destruct (Reqb_spec (s_time (sl_st a0)) (T + 1)) as [X|_]; [lra|]. rewrite E1. cbn [obind].
    rewrite C1, O1. change (Z.of_nat (length [((T + 1)%R, p1)]) <? Z.min (o_max_clones ex_opts) 5)%Z with false. cbv iota. rewrite T1. destruct (Reqb_spec (T + 1) (T + 1)) as [_|X]; [|lra]. cbn [negb].
    cbn [ofold ex_ops]. cbn [sexec exec obind]. change (sl_st (with_st a0 st1)) with st1. fold b1. rewrite E2. cbn [obind]. rewrite E3. cbn [obind]. rewrite E4. cbn [obind]. destruct a2; reflexivity. }
  (* second frame *)
  pose proof (passes_inv _ _ _ P5) as W5. assert (PK2 : prop_ok (s_opts (sl_st a2)) (ex_prop ex_opts)) by (rewrite O2; exact PK0).
  assert (Ht2 : s_time (sl_st a2) < T + 2) by (rewrite T2; lra).
  destruct (prop_clone_total ex_chi2 (sl_st a2) (T + 2) _ (w_reach _ _ _ W5) (w_last _ _ _ W5) Ht2 PK2) as (st3 & p3 & E5 & R3 & O3 & T3 & C3). rewrite C2 in C3. rewrite O2 in O3. cbn [app] in C3.
  destruct (clone_step _ _ _ _ _ W5 PK2 Ht2 E5) as (W6 & _ & _ & S3). rewrite S2 in S3. pose proof (ps_clone _ _ _ _ _ P5 PK2 Ht2 E5) as P6.
  destruct (change_step _ _ W6) as (a3 & E6 & W7 & O4 & T4). pose proof (ps_change _ _ _ P6 E6) as P7. destruct (change_keeps _ _ E6) as (S4 & C4 & _ & _ & M4). cbn [with_st sl_st sl_meta] in *.
  destruct (old_clone_window ex_chi2 (sl_st a3) (w_reach _ _ _ W7) (w_inc _ _ _ W7)) as (st4 & E7 & R4 & O5 & T5 & C5). { rewrite O4, O3. cbn. lia. }
  rewrite O4, O3, C4, C3 in C5. change (s_clones st4 = [(T + 2, p3)]) in C5.
  assert (S5 : s_slam st4 = [(7%nat, (p, false))]).
  { destruct (old_clone_inv _ _ (proj1 (reach_inv _ _ (w_reach _ _ _ W7))) E7) as [[-> _]|(t & q & st5 & m & _ & _ & _ & Em & _ & _ & ->)]; [congruence|]. cbn [s_slam set_clones].
    destruct (marginalize_frame _ _ _ _ (proj1 (reach_inv _ _ (w_reach _ _ _ W7))) Em) as (_ & _ & _ & _ & _ & Q & _). congruence. }
  pose proof (ps_drop _ _ _ P7 E7) as P8. pose proof (w_anch _ _ _ (passes_inv _ _ _ P8)) as AL.
  destruct (AL 7%nat p false) as (A3 & _). { cbn [with_st sl_st]. rewrite S5. left. reflexivity. } { cbn [with_st sl_meta]. rewrite M4, M2. reflexivity. }
  cbn [with_st sl_st sl_meta] in A3. rewrite C5 in A3. destruct A3 as [A3|[]]. cbn [fst] in A3.
  exists a0, a2, (with_st a3 st4), p, T. split; [exact P0|]. split; [reflexivity|]. split; [exact F1|].
  split. { unfold slam_frame. destruct (Rltb_spec (T + 2) (s_time (sl_st a2))) as [X|_]; [lra|]. destruct (Reqb_spec (s_time (sl_st a2)) (T + 2)) as [X|_]; [lra|]. rewrite E5. cbn [obind].
    rewrite C3, O3. change (Z.of_nat (length [((T + 1)%R, p1); ((T + 2)%R, p3)]) <? Z.min (o_max_clones ex_opts) 5)%Z with false. cbv iota. rewrite T3. destruct (Reqb_spec (T + 2) (T + 2)) as [_|X]; [|lra]. cbn [negb ofold obind]. rewrite E6. cbn [obind]. rewrite E7. reflexivity. }
  split; [exact S2|]. split; [exact S5|]. split; [cbn [with_st sl_meta]; rewrite M4; exact M2|]. split; [rewrite C2; reflexivity|]. split; [cbn [with_st sl_st]; rewrite C5; reflexivity|]. split; [exact A2|]. split; [symmetry; exact A3|]. split; [exact P8|cbn [with_st sl_st]; congruence].
Qed.

(** the order matters: dropping the oldest clone first leaves the landmark without its anchor *)
From Verif Require Import AnchorEx.
Lemma drop_first_dangles : exists a st, reach ex_chi2 (sl_st a) /\ anchors_live a /\ landmarks_fit a /\ marginalize_old_clone (sl_st a) = Ok st /\ ~ anchors_live (with_st a st).
Proof.
  destruct (ex_anchor AnchMsckf (V3 0 0 (-1)) [0; 0; 1] [0; 0; 1] v3zero v3zero eq_refl eq_refl) as (a & t & p & v & HR & LM & V1 & V2 & V3' & EM & C1 & C2 & K1 & (p1 & p2 & C) & S & O & T & RT).
  destruct (old_clone_window ex_chi2 (sl_st a) HR) as (st & E & R' & O' & T' & C'). { rewrite C. cbn. lra. } { rewrite O. cbn. lia. }
  rewrite O, C in C'. change (s_clones st = [(t + 1, p2)]) in C'. exists a, st. split; [exact HR|]. split; [|split; [|split; [exact E|]]].
  - intros i q b H Rl. rewrite S in H. destruct H as [H|[]]. injection H as <- <- <-. rewrite EM. cbn [lm_atime lm_acam]. rewrite C, O. cbn. split; [auto|lia].
  - intros i q b H. rewrite S in H. destruct H as [H|[]]. injection H as <- <- <-. rewrite EM. cbn [lm_rep phisize]. split; [discriminate|]. exists v. auto.
  - intros AL. destruct (AL 7%nat p false) as (A & _). 
    + cbn [with_st sl_st]. destruct (old_clone_inv _ _ (proj1 (reach_inv _ _ HR)) E) as [[-> _]|(u & q & st5 & m & _ & _ & _ & Em & _ & _ & ->)]; [rewrite S; left; reflexivity|]. cbn [s_slam set_clones].
      destruct (marginalize_frame _ _ _ _ (proj1 (reach_inv _ _ HR)) Em) as (_ & _ & _ & _ & _ & Q & _). rewrite Q, S. left. reflexivity.
    + cbn [with_st sl_meta]. rewrite EM. reflexivity.
    + cbn [with_st sl_st sl_meta] in A. rewrite EM, C' in A. cbn in A. destruct A as [A|[]]. lra.
Qed.
