(** The concrete case quoted next to C16 and C17. *)
From Coq Require Import Reals List Arith Lia Lra ZArith Bool.
From Verif Require Import RBool Outcome Lin PdInv GeoModel TypesModel GivensModel GivensSpec GivensProofs StateModel StateSpec StateLin
  StateEkf StateOps StateOps2 StateOps3 StateOps4 ReachModel ReachSpec StateReach StateFrame StateThms StateEx DbModel DbSpec DbProofs DbThms UpdModel UpdSpec UpdProofs
  UpdProofs2 UpdProofs3 UpdProofs4 UpdProofs5.
Import ListNotations.
Open Scope R_scope.

(** ** A concrete case: two tracks seen by both cameras at the time of the clone, linearized on the
    IMU; track 5 is new, track 7 is the landmark of the example state. *)
Definition exu_jac (st : state) (f : feature) : outcome linsys :=
  let r := (2 * count_meas f)%nat in
  Ok (mkLin (DMat r 3 (fun i j => if Nat.eqb i j then 2 else 0)) (DMat r 15 (fun i j => INR (i + j))) (DVec r (fun _ => 0))
        [(s_imu st, ref_ptr st (s_imu st))]).
Definition exu_tri (st : state) (f : feature) : (Z * R * v3 * v3) * bool := (f_pos f, true).
Definition exu_feat (id : nat) (t : R) : feature :=
  mkF id false [(0%nat, [(1, 2)]); (1%nat, [(3, 4)])] [(0%nat, [(1, 2)]); (1%nat, [(3, 4)])] [(0%nat, [t]); (1%nat, [t])] (0%Z, 0, V3 0 0 0, V3 0 0 0).
Definition exu_db (t : R) : db := [(5%nat, exu_feat 5 t); (7%nat, exu_feat 7 t)].
Definition exu_so : slam_opts := mkSlamOpts 1 1 2 1.


Lemma exu_imu st : state_ok st -> maps_ok st -> live_ref st (s_imu st, ref_ptr st (s_imu st)) /\ snd (ref_ptr st (s_imu st)) = 15%nat /\
  ~ In (s_imu st) (slam_ptrs st) /\ length (indices [ref_ptr st (s_imu st)]) = 15%nat.
Proof.
  intros Hok HM. destruct (imu_live st Hok HM) as (imu & I1 & I2 & I3 & _).
  assert (Ef : find_top (s_vars st) (s_imu st) = Some (TImu imu)).
  { rewrite <- I2. change (io_ptr imu) with (ty_ptr (TImu imu)). apply find_top_in_nodup; auto. apply Hok. }
  assert (Er : ref_ptr st (s_imu st) = ref_of (TImu imu)) by (unfold ref_ptr; rewrite Ef; reflexivity).
  split; [|split; [|split]].
  - exists (TImu imu). split; auto. 
  - rewrite Er. reflexivity.
  - unfold slam_ptrs. intros C. apply in_map_iff in C. destruct C as ((k & (q & b)) & Eq & Iq). simpl in Eq.
    destruct (mp_slam _ HM _ _ _ Iq) as (_ & v & Iv & Ev).
    assert (X : TImu imu = TVec v) by (eapply nodup_ptr_inj; [apply Hok|eauto..|simpl; congruence]). discriminate.
  - rewrite Er. unfold indices, ref_of. simpl. rewrite I3. reflexivity.
Qed.

Lemma exu_jac_ok chi2q st : reach chi2q st -> jac_ok st exu_jac.
Proof.
  intros Rc f Fk Ft Fc. destruct (reach_inv _ _ Rc) as (Hok & HP & HM). destruct (exu_imu st Hok HM) as (L & Sz & Ns & Li).
  eexists. split; [reflexivity|]. constructor; simpl; auto.
  - constructor; [simpl; tauto|constructor].
  - discriminate.
  - intros e [<-|[]]. simpl. exact Ns.
Qed.
Lemma exu_init_ok chi2q st : reach chi2q st -> init_jac_ok (fun _ => false) st exu_jac.
Proof.
  intros Rc. split; [apply (exu_jac_ok chi2q); auto|]. intros id f l Hx Hf res Fk Ft Fc El Es. injection El as <-. simpl in Es.
  injection Es as <- <- <-. simpl. intros x Hx i Hi. specialize (Hx i ltac:(lia)).
  unfold mvec in Hx. rewrite (sumn_delta 3 i) in Hx; auto.
  - rewrite Nat.eqb_refl in Hx. lra.
  - intros j Hj Hne. destruct (Nat.eqb_spec i j); [congruence|ring].
Qed.

Lemma exu_db_ok t : db_ok (exu_db t).
Proof.
  split; [repeat constructor; simpl; intuition lia|]. intros id f [E|[E|[]]]; injection E as <- <-; split; auto; split;
    try (repeat constructor; simpl; intuition lia); intros cam; simpl; destruct (Nat.eqb cam 0); auto; destruct (Nat.eqb cam 1); auto.
Qed.
Lemma exu_handed t ids : incl ids [5%nat; 7%nat] -> NoDup ids -> handed (exu_db t) ids.
Proof.
  intros I N. split; auto. intros id Hid. destruct (I id Hid) as [<-|[<-|[]]]; eexists; reflexivity.
Qed.

Lemma exu_clean t id : clean_old_measurements [t] (exu_feat id t) = Ok (exu_feat id t).
Proof.
  destruct (clean_old_ok [t] (exu_feat id t)) as (f' & E & _).
  { split; [repeat constructor; simpl; intuition lia|]. intros cam; simpl; destruct (Nat.eqb cam 0); auto; destruct (Nat.eqb cam 1); auto. }
  rewrite E. unfold clean_old_measurements in E. cbn in E. unfold tfind in E. simpl in E. rewrite (proj2 (Reqb_true t t) eq_refl) in E. simpl in E.
  cbn in E. unfold clean_cam in E. cbn in E. rewrite (proj2 (Reqb_true t t) eq_refl) in E. cbn in E. rewrite <- E. reflexivity.
Qed.

Lemma zero_gate st y d : (forall i, (i < dn (y_res y))%nat -> dv (y_res y) i = 0) -> gate_dist st y d -> d = 0.
Proof. intros Z (x & _ & ->). apply dot_zero. auto. Qed.

(** the MSCKF update uses track 5 *)
Lemma exu_msckf st p t : reach ex_chi2 st -> s_clones st = [(t, p)] ->
  exists st' d', msckf_update ex_chi2 1 1 exu_tri exu_jac st (exu_db t) [5%nat] = Ok (st', d', [5%nat]).
Proof.
  intros Rc Ec. destruct (c17_msckf ex_chi2 1 1 exu_tri exu_jac st (exu_db t) [5%nat] Rc (exu_db_ok t)) as (st' & d' & used & E & I & N & U & _).
  { apply exu_handed. intros z [<-|[]]; simpl; auto. repeat constructor; simpl; auto. } { lra. } { apply (exu_jac_ok ex_chi2); auto. }
  exists st', d'. rewrite E. do 2 f_equal.
  destruct used as [|a used].
  - exfalso. destruct (U 5%nat) as (f & Ef & Hn); [simpl; auto|auto|]. injection Ef as <-.
    destruct Hn as [(f1 & C1 & C2)|(g & l & y & (f1 & C1 & C2 & C3 & C4) & Ej & (F & Ep & Eo) & Ey & (dd & Gd & Hl))]; rewrite Ec in C1; simpl in C1; rewrite exu_clean in C1; injection C1 as <-.
    + destruct C2 as [C2|C2]; [vm_compute in C2; lia|discriminate].
    + injection Ej as <-. simpl in Ep. destruct (nullspace_full _ _ _ _ _ _ Ep) as (_ & _ & _ & _ & _ & D & G & _ & _ & _ & _ & Er & _).
      simpl in D, Er. assert (dd = 0).
      { apply (zero_gate st y); auto. rewrite D. intros i Hi. rewrite Er by auto. unfold mvec. apply sumn_zero. intros; ring. }
      unfold ex_chi2 in Hl. rewrite D in Hl. pose proof (pos_INR (2 * count_meas g - 3)). simpl in Hl. simpl in H0. lra.
  - assert (a = 5%nat) by (destruct (I a) as [<-|[]]; simpl; auto). subst a. f_equal. destruct used as [|b used]; auto. exfalso.
    assert (b = 5%nat) by (destruct (I b) as [<-|[]]; simpl; auto). subst b. inversion N. simpl in *. tauto.
Qed.
