(** Proofs for C18: landmarks and their sizes across the filter's operations. *)
From Coq Require Import Reals Lra Lia Psatz List ZArith Bool.
From Verif Require Import RBool Outcome Lin GeoModel GeoSpec GivensModel TypesModel TypesProofs StateModel StateSpec StateOps StateOps2 StateOps3 StateOps4 StateOps5 StateInit ReachModel ReachSpec StateReach StateFrame StateThms FeatModel LandModel LandSpec CamModel HelpModel HelpSpec AnchorModel AnchorSpec AnchorPhi AnchorProofs AnchorTotal.
Import ListNotations.
Open Scope R_scope.

(** every variable of st' is one of st with its size, or new *)
Definition fits (st st' : state) : Prop := forall t', In t' (s_vars st') ->
  (exists t, In t (s_vars st) /\ ty_ptr t' = ty_ptr t /\ ty_size t' = ty_size t) \/ ~ In (ty_ptr t') (flat_map ty_ptrs (s_vars st)).
Lemma fits_refl st st' : s_vars st' = s_vars st -> fits st st'.
Proof. intros E t' H. rewrite E in H. left. eauto. Qed.
Lemma fits_krel st st' m rest : Forall2 krel (s_vars st) m -> s_vars st' = m ++ rest -> NoDup (flat_map ty_ptrs (s_vars st')) -> fits st st'.
Proof.
  intros HF E ND t' H. rewrite E in H, ND. apply in_app_or in H. destruct H as [H|H].
  - destruct (Forall2_in_r _ _ _ _ HF H) as (t & Ht & K). left. exists t. split; [exact Ht|]. split; [apply (krel_ptr _ _ K)|apply K].
  - right. assert (Q : flat_map ty_ptrs m = flat_map ty_ptrs (s_vars st)).
    { clear - HF. induction HF as [|x y l l' K _ IH]; [reflexivity|]. cbn [flat_map]. rewrite IH. f_equal. apply K. }
    rewrite flat_map_app in ND. apply NoDup_app_parts in ND. destruct ND as (_ & _ & ND). rewrite <- Q. intros X. apply (ND _ X). apply ptr_in_flat. exact H.
Qed.
Lemma set_var_fits f p : (forall t t', f t = Ok t' -> ty_ptr t' = ty_ptr t /\ ty_size t' = ty_size t) ->
  forall vars vars', set_var f p vars = Ok vars' -> forall t', In t' vars' -> exists t, In t vars /\ ty_ptr t' = ty_ptr t /\ ty_size t' = ty_size t.
Proof.
  intros Hf. induction vars as [|x vars IH]; intros vars' E; cbn [set_var] in E; [discriminate|]. destruct (Nat.eqb (ty_ptr x) p).
  - apply obind_ok in E. destruct E as (x' & E1 & E). injection E as <-. intros t' [<-|H]; [exists x; split; [left; reflexivity|apply Hf; exact E1]|exists t'; split; [right; exact H|auto]].
  - apply obind_ok in E. destruct E as (r & E1 & E). injection E as <-. intros t' [<-|H]; [exists x; split; [left; reflexivity|auto]|]. destruct (IH _ E1 _ H) as (t & A & B). exists t. split; [right; exact A|exact B].
Qed.
Lemma with_var_fits st p f st' : (forall t t', f t = Ok t' -> ty_ptr t' = ty_ptr t /\ ty_size t' = ty_size t) -> with_var st p f = Ok st' -> fits st st'.
Proof. intros Hf E. unfold with_var in E. apply obind_ok in E. destruct E as (vars & E1 & E). injection E as <-. intros t' H. left. apply (set_var_fits f p Hf _ _ E1). exact H. Qed.
Lemma same_obj_fits st st' : (forall t', In t' (s_vars st') -> exists t, In t (s_vars st) /\ same_obj t t') -> fits st st'.
Proof. intros H t' Ht. destruct (H t' Ht) as (t & A & B & C & _). left. exists t. split; [exact A|]. rewrite !ty_ptr_hd, B. split; [reflexivity|]. auto. Qed.

Lemma vec_f x y t t' : set_vec_both x y t = Ok t' -> ty_ptr t' = ty_ptr t /\ ty_size t' = ty_size t.
Proof. destruct t; try discriminate. intros E. destruct (set_vec_inv _ _ _ _ E) as (v' & -> & A & _ & B & _). auto. Qed.
Lemma quat_f x y t t' : set_quat_both x y t = Ok t' -> ty_ptr t' = ty_ptr t /\ ty_size t' = ty_size t.
Proof. destruct t; try discriminate. intros E. injection E as <-. auto. Qed.
Lemma pose_f x y t t' : set_pose_both x y t = Ok t' -> ty_ptr t' = ty_ptr t /\ ty_size t' = ty_size t.
Proof. destruct t; try discriminate. intros E. injection E as <-. auto. Qed.
Lemma imu_f x y t t' : set_imu_both x y t = Ok t' -> ty_ptr t' = ty_ptr t /\ ty_size t' = ty_size t.
Proof. destruct t; try discriminate. intros E. injection E as <-. auto. Qed.

Definition slam_from (st st' : state) : Prop := forall i p b, In (i, (p, b)) (s_slam st') -> exists b', In (i, (p, b')) (s_slam st).
Lemma slam_from_eq st st' : s_slam st' = s_slam st -> slam_from st st'.
Proof. intros E i p b H. rewrite E in H. eauto. Qed.

Lemma exec_fits chi2q st o st' : inv st -> allowed st o -> exec chi2q st o = Ok st' -> fits st st'.
Proof.
  intros I HA E. destruct (step_inv chi2q st o I HA) as (st0 & E0 & (Hok' & _ & _)). rewrite E in E0. injection E0 as <-. pose proof (ok_nodup _ Hok') as ND.
  destruct I as (Hok & HP & HM). destruct o; cbn [exec] in E.
  - apply obind_ok in E. destruct E as ([st1 c] & E & H). injection H as <-. destruct (clone_inv _ _ _ _ Hok E) as (t & loc' & c0 & _ & _ & _ & _ & _ & Est).
    cbn [fst] in *. apply (fits_krel st st1 (s_vars st) [c]); [apply Forall2_refl, krel_refl|rewrite Est; reflexivity|exact ND].
  - apply obind_ok in E. destruct E as ([st1 c] & E & H). injection H as <-. cbn [fst]. apply same_obj_fits. intros t' Ht. destruct (proj2 (marginalize_vars _ _ _ _ Hok E) _ Ht) as (_ & t & A & B & _). eauto.
  - destruct (augment_inv _ _ _ Hok E) as (_ & imu & loc & pose & st5 & _ & _ & _ & _ & _ & V1 & _ & _ & _ & _ & _ & V2 & _).
    apply (fits_krel st st' (s_vars st) [TPose pose]); [apply Forall2_refl, krel_refl|rewrite V2, V1; reflexivity|exact ND].
  - destruct (old_clone_inv _ _ Hok E) as [[-> _]|(t & p & st1 & m & _ & _ & _ & Em & _ & _ & ->)]; [apply fits_refl; reflexivity|].
    apply same_obj_fits. cbn [s_vars set_clones]. intros t' Ht. destruct (proj2 (marginalize_vars _ _ _ _ Hok Em) _ Ht) as (_ & t0 & A & B & _). eauto.
  - destruct (slam_loop_inv _ _ _ _ Hok (proj1 HP) E) as (_ & _ & _ & _ & _ & _ & _ & _ & _ & _ & _ & _ & V).
    apply same_obj_fits. intros t' Ht. destruct (V _ Ht) as (_ & t & A & B & _). eauto.
  - destruct (propagation_frame _ _ _ _ _ _ E) as (C & ->). apply fits_refl. reflexivity.
  - destruct HA as (A1 & A2 & A3 & A4 & A5 & A6 & A7). destruct (update_full st order H res Rn) as (st1 & K & E1 & _ & D & _ & _ & HV & _); auto. { apply cams_ready_of; auto. }
    rewrite E in E1. injection E1 as <-. apply (fits_krel st st' (s_vars st') []); [eapply upd_krel; exact HV|rewrite app_nil_r; reflexivity|exact ND].
  - apply obind_ok in E. destruct E as ([b st1] & E & H). injection H as <-. cbn [snd] in *.
    destruct HA as (A1 & A2 & A3 & A4 & A5 & A6 & A7 & A8 & A9 & A10 & A11 & A12 & A13).
    destruct (initialize_total chi2q st nv order HR HL Rn res mult) as (b' & st2 & E' & _ & _ & _ & HT); auto. { apply cams_ready_of; auto. }
    rewrite E in E'. injection E' as <- <-. destruct b.
    + destruct (HT eq_refl) as (vars & nv' & V & HF & _). apply (fits_krel st st1 vars [nv']); [|exact V|exact ND].
      clear - HF. induction HF as [|x y l l' (B1 & B2 & B3 & B4) _ IH]; constructor; [|exact IH]. unfold krel. auto.
    + destruct (initialize_inv _ _ _ _ _ _ _ _ _ _ _ E) as (_ & _ & _ & _ & _ & _ & _ & _ & _ & _ & G & _ & _ & L & X & rr & _ & _ & _ & [(_ & -> & _)|(Hf & _)]); [|discriminate]. apply fits_refl. reflexivity.
  - unfold set_initial_covariance in E. apply obind_ok in E. destruct E as (l & _ & E). apply guard_ok in E; [|discriminate]. destruct E as [_ E]. injection E as <-. apply fits_refl. reflexivity.
  - injection E as <-. apply fits_refl. reflexivity.
  - injection E as <-. apply fits_refl. reflexivity.
  - injection E as <-. apply fits_refl. reflexivity.
  - injection E as <-. apply fits_refl. reflexivity.
  - eapply with_var_fits; [apply vec_f|exact E].
  - eapply with_var_fits; [apply quat_f|exact E].
  - eapply with_var_fits; [apply pose_f|exact E].
  - eapply with_var_fits; [apply imu_f|exact E].
Qed.

Lemma update_slam st order H res Rn st' : EKFUpdate st order H res Rn = Ok st' -> s_slam st' = s_slam st.
Proof.
  unfold EKFUpdate. intros E. apply obind_ok in E. destruct E as (l & _ & E).
  apply guard_ok in E; [|discriminate]. destruct E as [_ E]. cbv zeta in E.
  apply obind_ok in E. destruct E as (Ma & _ & E). apply obind_ok in E. destruct E as (Ps & _ & E).
  apply guard_ok in E; [|discriminate]. destruct E as [_ E].
  apply obind_ok in E. destruct E as (vars & _ & E). apply obind_ok in E. destruct E as (cams & _ & E).
  injection E as <-. reflexivity.
Qed.
Lemma exec_slam chi2q st o st' : inv st -> exec chi2q st o = Ok st' -> (forall i p, o <> OSlamAdd i p) -> slam_from st st'.
Proof.
  intros (Hok & HP & HM) E NA. destruct o; cbn [exec] in E.
  - apply obind_ok in E. destruct E as ([st1 c] & E & H). injection H as <-. apply slam_from_eq. apply (clone_frame _ _ _ _ Hok E).
  - apply obind_ok in E. destruct E as ([st1 c] & E & H). injection H as <-. apply slam_from_eq. apply (marginalize_frame _ _ _ _ Hok E).
  - destruct (augment_inv _ _ _ Hok E) as (_ & imu & loc & pose & st5 & _ & _ & _ & _ & _ & _ & _ & _ & _ & _ & _ & _ & _ & _ & _ & _ & _ & _ & S & _). apply slam_from_eq. exact S.
  - destruct (old_clone_inv _ _ Hok E) as [[-> _]|(t & p & st1 & m & _ & _ & _ & Em & _ & _ & ->)]; [apply slam_from_eq; reflexivity|]. apply slam_from_eq. apply (marginalize_frame _ _ _ _ Hok Em).
  - destruct (slam_loop_inv _ _ _ _ Hok (proj1 HP) E) as (_ & S & _). intros i p b H. rewrite S in H. cbn [app] in H. apply filter_In in H. exists b. tauto.
  - destruct (propagation_frame _ _ _ _ _ _ E) as (C & ->). apply slam_from_eq. reflexivity.
  - apply slam_from_eq. eapply update_slam; exact E.
  - apply obind_ok in E. destruct E as ([b st1] & E & H). injection H as <-. cbn [snd].
    destruct (initialize_inv _ _ _ _ _ _ _ _ _ _ _ E) as (_ & _ & _ & _ & _ & _ & _ & _ & _ & _ & G & _ & _ & L & X & rr & _ & _ & _ & [(_ & -> & _)|(_ & _ & st2 & Ei & Hc)]); [apply slam_from_eq; reflexivity|].
    assert (S2 : s_slam st2 = s_slam st).
    { clear - Ei. unfold initialize_invertible in Ei. destruct (find_top _ _); [discriminate|]. do 3 (apply guard_ok in Ei; [|discriminate]; destruct Ei as [_ Ei]).
      apply obind_ok in Ei. destruct Ei as (l & _ & E). apply guard_ok in E; [|discriminate]. destruct E as [_ E]. cbv zeta in E.
      apply obind_ok in E. destruct E as (Ma & _ & E). apply obind_ok in E. destruct E as (Ps & _ & E). apply guard_ok in E; [|discriminate]. destruct E as [_ E].
      apply obind_ok in E. destruct E as (nv' & _ & E). injection E as <-. reflexivity. }
    apply slam_from_eq. destruct Hc as [(_ & ->)|(_ & Eu)]; [exact S2|]. rewrite (update_slam _ _ _ _ _ _ Eu). exact S2.
  - unfold set_initial_covariance in E. apply obind_ok in E. destruct E as (l & _ & E). apply guard_ok in E; [|discriminate]. destruct E as [_ E]. injection E as <-. apply slam_from_eq. reflexivity.
  - injection E as <-. apply slam_from_eq. reflexivity.
  - exfalso. apply (NA id p). reflexivity.
  - injection E as <-. intros i p b H. cbn [s_slam set_slam] in H. apply in_map_iff in H. destruct H as ([i' [q' b']] & Ex & Hin). cbn [fst snd] in Ex. destruct (i' =? id)%nat; injection Ex as <- <- <-; eauto.
  - injection E as <-. apply slam_from_eq. reflexivity.
  - unfold with_var in E. apply obind_ok in E. destruct E as (v & _ & E). injection E as <-. apply slam_from_eq. reflexivity.
  - unfold with_var in E. apply obind_ok in E. destruct E as (v & _ & E). injection E as <-. apply slam_from_eq. reflexivity.
  - unfold with_var in E. apply obind_ok in E. destruct E as (v & _ & E). injection E as <-. apply slam_from_eq. reflexivity.
  - unfold with_var in E. apply obind_ok in E. destruct E as (v & _ & E). injection E as <-. apply slam_from_eq. reflexivity.
Qed.

(** a state with the same landmark members: what landmarks need is kept *)
Lemma fit_keep a st' : inv (sl_st a) -> inv st' -> fits (sl_st a) st' -> slam_from (sl_st a) st' -> landmarks_fit a -> landmarks_fit (with_st a st').
Proof.
  intros (Hok & _ & _) (Hok' & _ & HM') F SF L i p b H. cbn [with_st sl_st sl_meta] in *. destruct (SF _ _ _ H) as (b' & H0). destruct (L _ _ _ H0) as (K & v & LM & SZ). split; [exact K|].
  destruct (mp_slam _ HM' _ _ _ H) as (_ & v' & Hv' & Hp). exists v'. unfold is_landmark in *. cbn [sl_st with_st].
  assert (X : find_top (s_vars st') p = Some (TVec v')). { rewrite <- Hp. change (vo_ptr v') with (ty_ptr (TVec v')). apply find_top_in_nodup; [apply Hok'|exact Hv']. }
  split; [exact X|]. rewrite <- SZ. apply find_top_some in LM. destruct LM as [Lin Lp]. destruct (F _ Hv') as [(t & Ht & Q1 & Q2)|N].
  - assert (t = TVec v) by (eapply nodup_ptr_inj; [apply Hok|exact Ht|exact Lin|cbn [ty_ptr] in *; congruence]). subst t. exact Q2.
  - exfalso. apply N. cbn [ty_ptr]. rewrite Hp, <- Lp. apply ptr_in_flat. exact Lin.
Qed.
