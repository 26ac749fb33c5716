(** Theorems C16 and C17: the MSCKF and SLAM updates stack the features' systems exactly, and no
    measurement is used twice. *)
From Coq Require Import Reals List Arith Lia Lra ZArith Bool.
From Verif Require Import RBool Outcome Lin PdInv GeoModel TypesModel GivensModel GivensSpec GivensProofs StateModel StateSpec StateLin
  StateEkf StateOps StateOps2 StateOps3 StateOps4 ReachModel ReachSpec StateReach StateFrame StateThms StateEx DbModel DbSpec DbProofs DbThms UpdModel UpdSpec UpdProofs
  UpdProofs2 UpdProofs3 UpdProofs4 UpdProofs5 UpdEx.
Import ListNotations.
Open Scope R_scope.

(** ** C16 *)
Theorem C16_msckf_update : forall chi2q sig mult tri jac st d ids,
  reach chi2q st -> db_ok d -> handed d ids -> 0 < sig -> jac_ok st jac ->
  exists st' d' used ys, msckf_update chi2q sig mult tri jac st d ids = Ok (st', d', used) /\ reach chi2q st' /\
    Forall2 (contributes chi2q sig mult tri jac st d d') used ys /\
    (ys = [] -> st' = st) /\
    (ys <> [] -> exists order H res st2,
       stacked 0 ys order H res (mscal sig mid) /\
       EKFUpdate st order (DMat (rows_of ys) (length (indices order)) H) (DVec (rows_of ys) res)
         (DMat (rows_of ys) (rows_of ys) (mscal sig mid)) = Ok st2 /\ same_estimate st' st2).
Proof. exact c16_msckf. Qed.
Print Assumptions C16_msckf_update.

Theorem C16_slam_update : forall chi2q so single jac st d ids,
  reach chi2q st -> db_ok d -> handed d ids -> 0 < so_sig_slam so -> 0 < so_sig_aruco so ->
  jac_ok st jac -> (forall id, In id ids -> exists p, landmark_at st single id p) ->
  exists st' d' used fl ys, slam_update chi2q so single jac st d ids = Ok (st', d', used, fl) /\ reach chi2q st' /\
    Forall2 (slam_contributes chi2q so single jac st d d') used ys /\
    (ys = [] -> st' = st) /\
    (ys <> [] -> exists order H res N, stacked 0 ys order H res N /\ diagonal N /\
       EKFUpdate st order (DMat (rows_of ys) (length (indices order)) H) (DVec (rows_of ys) res) (DMat (rows_of ys) (rows_of ys) N) = Ok st').
Proof. exact c16_slam. Qed.
Print Assumptions C16_slam_update.

(** ** C17 *)
Theorem C17_msckf_features : forall chi2q sig mult tri jac st d ids,
  reach chi2q st -> db_ok d -> handed d ids -> 0 < sig -> jac_ok st jac ->
  exists st' d' used, msckf_update chi2q sig mult tri jac st d ids = Ok (st', d', used) /\ incl used ids /\ NoDup used /\
    (forall id, In id ids -> ~ In id used -> exists f, alook d id = Some f /\ not_usable chi2q sig mult tri jac st f) /\
    (forall id, In id ids -> alook (cleanup d') id = None) /\
    (forall id, ~ In id ids -> alook d' id = alook d id).
Proof. exact c17_msckf. Qed.
Print Assumptions C17_msckf_features.

Theorem C17_slam_features : forall chi2q so single jac st d ids,
  reach chi2q st -> db_ok d -> handed d ids -> 0 < so_sig_slam so -> 0 < so_sig_aruco so ->
  jac_ok st jac -> (forall id, In id ids -> exists p, landmark_at st single id p) ->
  exists st' d' used fl, slam_update chi2q so single jac st d ids = Ok (st', d', used, fl) /\ incl used ids /\ NoDup used /\
    (forall id, In id used -> alook (cleanup d') id = None) /\
    (forall id, In id ids -> ~ In id used -> slam_unused chi2q so single jac st d d' fl id) /\
    (forall id, ~ In id ids -> alook d' id = alook d id).
Proof. exact c17_slam. Qed.
Print Assumptions C17_slam_features.

Theorem C17_delayed_features : forall chi2q so (single : nat -> bool) lm_val tri jac st d ids,
  reach chi2q st -> db_ok d -> handed d ids ->
  0 < so_sig_slam so -> 0 < so_sig_aruco so -> (forall f, length (lm_val f) = if single (f_id f) then 1%nat else 3%nat) ->
  (forall s, reach chi2q s -> s_clones s = s_clones st -> init_jac_ok single s jac) ->
  (forall id, In id ids -> ~ In id (map fst (s_slam st))) ->
  exists st' d' kept, delayed_init chi2q so single lm_val tri jac st d ids = Ok (st', d', kept) /\ reach chi2q st' /\
    s_clones st' = s_clones st /\ s_time st' = s_time st /\ incl kept ids /\ NoDup kept /\
    (exists l, s_slam st' = s_slam st ++ l /\ map fst l = kept) /\
    Forall (new_landmark st st' single) kept /\
    (forall id, In id kept -> exists f g, alook d id = Some f /\ prepared st tri f g) /\
    (forall id, In id ids -> alook (cleanup d') id = None) /\
    (forall id, ~ In id ids -> alook d' id = alook d id).
Proof. exact c17_delayed. Qed.
Print Assumptions C17_delayed_features.

(** the example state and tracks meet every hypothesis above, the landmark of the state being 7 *)
Example C16_C17_ex : exists st t, reach ex_chi2 st /\ db_ok (exu_db t) /\ handed (exu_db t) [5%nat] /\ handed (exu_db t) [7%nat] /\
  jac_ok st exu_jac /\ (exists p, landmark_at st (fun _ => false) 7 p) /\
  (forall s, reach ex_chi2 s -> s_clones s = s_clones st -> init_jac_ok (fun _ => false) s exu_jac) /\ ~ In 5%nat (map fst (s_slam st)) /\
  exists st' d', msckf_update ex_chi2 1 1 exu_tri exu_jac st (exu_db t) [5%nat] = Ok (st', d', [5%nat]).
Proof.
  destruct ex_rich as (st & p & t & q & Rc & Ec & Es & _ & (v & Iv & Pv & Sv) & _).
  exists st, t. split; auto. split; [apply exu_db_ok|]. split; [apply exu_handed; [intros z [<-|[]]; simpl; auto|repeat constructor; simpl; auto]|].
  split; [apply exu_handed; [intros z [<-|[]]; simpl; auto|repeat constructor; simpl; auto]|].
  split; [apply (exu_jac_ok ex_chi2); auto|]. split.
  - exists q. split; [exists false; rewrite Es; simpl; auto|]. destruct (reach_inv _ _ Rc) as (Hok & _). unfold ref_ptr. rewrite <- Pv.
    change (vo_ptr v) with (ty_ptr (TVec v)). rewrite (find_top_in_nodup _ _ (ok_nodup _ Hok) Iv). exact Sv.
  - split; [intros s Rs _; apply (exu_init_ok ex_chi2); auto|]. split; [rewrite Es; simpl; intuition lia|]. eapply exu_msckf; eauto.
Qed.
