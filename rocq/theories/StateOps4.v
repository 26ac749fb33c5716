(** Delayed initialization, initial covariance. *)
From Coq Require Import Reals List Arith Lia Lra Bool ZArith.
From Verif Require Import RBool Outcome Lin GeoModel GeoSpec GivensModel GivensSpec TypesModel StateModel StateSpec PdInv StateLin
  StateEkf TypesProofs GivensProofs EquivProofs StateOps StateOps2 StateOps3.
Import ListNotations.
Open Scope R_scope.

Lemma isotropic_spec Rn : isotropic Rn = true <->
  forall i j, (i < dr Rn)%nat -> (j < dc Rn)%nat ->
    dm Rn i j = if Nat.eqb i j then dm Rn 0%nat 0%nat else 0.
Proof.
  unfold isotropic. rewrite forallb_forall. split.
  - intros H i j Hi Hj. specialize (H i ltac:(apply in_seq; lia)). rewrite forallb_forall in H.
    specialize (H j ltac:(apply in_seq; lia)). destruct (Nat.eqb i j).
    + apply Reqb_true in H. auto.
    + apply Reqb_true in H. auto.
  - intros H i Hi. apply in_seq in Hi. rewrite forallb_forall. intros j Hj. apply in_seq in Hj.
    specialize (H i j ltac:(lia) ltac:(lia)). destruct (Nat.eqb i j); rewrite H; apply Reqb_true; auto.
Qed.

Lemma join_entry n m T N P Q :
  meq (n + m) (n + m)
    (madd (congr n (join_T n T) P) (congr m (join_N n N) Q))
    (fun i j => if (i <? n)%nat then
                  if (j <? n)%nat then P i j else - mmul n P (mtr T) i (j - n)%nat
                else if (j <? n)%nat then - mmul n T P (i - n)%nat j
                else congr n T P (i - n)%nat (j - n)%nat + congr m N Q (i - n)%nat (j - n)%nat).
Proof.
  intros i j Hi Hj. unfold madd. rewrite !congr_entry.
  assert (E1 : forall b, sumn n (fun a => join_T n T i a * P a b) =
     if (i <? n)%nat then P i b else - mmul n T P (i - n)%nat b).
  { intros b. unfold join_T. destruct (Nat.ltb_spec i n) as [H|H].
    - apply (mid_sum n i (fun a => P a b)); auto.
    - unfold mmul. rewrite <- sumn_opp. apply sumn_ext; intros; ring. }
  assert (E2 : forall b, sumn m (fun a => join_N n N i a * Q a b) =
     if (i <? n)%nat then 0 else mmul m N Q (i - n)%nat b).
  { intros b. unfold join_N. destruct (Nat.ltb_spec i n) as [H|H].
    - apply sumn_zero; intros; ring.
    - reflexivity. }
  rewrite (sumn_ext n _ (fun b => (if (i <? n)%nat then P i b else - mmul n T P (i - n)%nat b) * join_T n T j b))
    by (intros; rewrite E1; reflexivity).
  rewrite (sumn_ext m _ (fun b => (if (i <? n)%nat then 0 else mmul m N Q (i - n)%nat b) * join_N n N j b))
    by (intros; rewrite E2; reflexivity).
  unfold join_T, join_N.
  destruct (Nat.ltb_spec i n) as [Hin|Hin], (Nat.ltb_spec j n) as [Hjn|Hjn].
  - rewrite (sumn_zero m) by (intros; ring). rewrite Rplus_0_r.
    rewrite (sumn_ext n _ (fun b => mid j b * P i b)) by (intros; ring).
    apply (mid_sum n j (fun b => P i b)); auto.
  - rewrite (sumn_zero m) by (intros; ring). rewrite Rplus_0_r.
    unfold mmul, mtr. rewrite <- sumn_opp. apply sumn_ext; intros; ring.
  - rewrite (sumn_zero m) by (intros; ring). rewrite Rplus_0_r.
    rewrite (sumn_ext n _ (fun b => mid j b * (- mmul n T P (i - n)%nat b))) by (intros; ring).
    apply (mid_sum n j (fun b => - mmul n T P (i - n)%nat b)); auto.
  - f_equal. apply sumn_ext; intros b Hb. unfold mmul. ring.
Qed.

Lemma spsd_add n A B : spsd n A -> spsd n B -> spsd n (madd A B).
Proof.
  intros [A1 A2] [B1 B2]. split; [|apply psd_add; auto].
  intros i j Hi Hj. unfold madd, mtr. f_equal; [apply A1|apply B1]; auto.
Qed.

Lemma find_top_fresh st nv : fresh_var st nv -> find_top (s_vars st) (ty_ptr nv) = None.
Proof.
  intros F. destruct (find_top (s_vars st) (ty_ptr nv)) as [t|] eqn:E; auto. exfalso.
  apply find_top_some in E. destruct E as [A B].
  apply (fr_new _ _ F (ty_ptr nv)); [apply ty_ptr_in_ptrs|]. rewrite <- B. apply ptr_in_flat; auto.
Qed.

Lemma init_inv_full st nv order HR HL Rn res :
  state_ok st -> sym (s_dim st) (s_cov st) -> in_cov (s_dim st) order -> fresh_var st nv ->
  let n := s_dim st in let m := ty_size nv in
  dr HR = m -> dc HR = length (indices order) -> dr HL = m -> dc HL = m ->
  dr Rn = m -> dc Rn = m -> dn res = m -> isotropic Rn = true -> invertible m (dm HL) ->
  let Hf := widen (indices order) (dm HR) in
  exists st' nv' Hinv,
    meq m m (mmul m Hinv (dm HL)) mid /\ meq m m (mmul m (dm HL) Hinv) mid /\
    initialize_invertible st nv order HR HL Rn res = Ok st' /\
    ty_update nv (map (mvec m Hinv (dv res)) (seq 0 m)) = Ok nv' /\
    s_vars st' = s_vars st ++ [set_local_id nv' (Some n)] /\ s_dim st' = (n + m)%nat /\
    st' = set_vars_cov st (s_vars st') (s_dim st') (s_cov st') /\
    meq (n + m) (n + m) (s_cov st')
      (madd (congr n (join_T n (mmul m Hinv Hf)) (s_cov st)) (congr m (join_N n Hinv) (dm Rn))) /\
    state_ok st'.
Proof.
  intros Hok HS Hin F n m D1 D2 D3 D4 D5 D6 D7 Hiso Hinvt Hf.
  destruct (resolve_total _ _ Hin) as (l & El). pose proof (resolve_ok _ _ _ El) as [Pl _].
  assert (Lo : osize l = dc HR) by (rewrite osize_indices, <- Pl; auto).
  destruct (gain_M_eq (s_cov st) (dm HR) l m (s_vars st) 0 n mzero (ok_layout _ Hok)) as (Ma & EM & HM & _).
  assert (HMa : meq n m Ma (mmul n (s_cov st) (mtr Hf))).
  { intros i r Hi Hr. rewrite HM by lia. rewrite (cov_HT_full n) by (rewrite <- Pl; auto).
    rewrite <- Pl. reflexivity. }
  destruct (gmc_total st order Hin) as (Ps & EP).
  assert (HPs : Ps = DMat (osize l) (osize l) (marginal_block (s_cov st) l)).
  { unfold get_marginal_covariance in EP. rewrite El in EP. simpl in EP. injection EP as <-. reflexivity. }
  set (Hinv := geninv m (dm HL)).
  set (S := madd (congr n Hf (s_cov st)) (dm Rn)).
  assert (RS : sym m (dm Rn)).
  { rewrite isotropic_spec, D5, D6 in Hiso. intros i j Hi Hj. unfold mtr. rewrite (Hiso i j), (Hiso j i) by auto.
    rewrite Nat.eqb_sym. reflexivity. }
  assert (SS : sym m S).
  { intros i j Hi Hj. unfold S, madd, mtr. f_equal; [|apply RS; auto]. apply (sym_congr m n Hf (s_cov st) HS); auto. }
  set (Mi := upper_sym (innov m (dc HR) (dm HR) (dm Ps) (dm Rn))).
  assert (HSi : meq m m Mi S).
  { intros i j Hi Hj. transitivity (upper_sym S i j).
    - unfold Mi, upper_sym, innov, madd, S. rewrite HPs; simpl.
      rewrite <- Lo. destruct (i <=? j)%nat; unfold madd; f_equal;
        rewrite (small_innov n) by (rewrite <- Pl; auto); rewrite <- Pl; reflexivity.
    - apply (upper_sym_id m S SS); auto. }
  destruct (ty_update_total nv (map (mvec m Hinv (dv res)) (seq 0 m)) (fr_vals _ _ F)) as (nv' & EU).
  { rewrite map_length, seq_length. reflexivity. }
  assert (Hm : (0 < m)%nat) by (apply vals_ok_pos; apply F).
  set (PLL := mmul m (mmul m Hinv Mi) (mtr Hinv)).
  set (C0 := set_block mzero 0 0 n n (s_cov st)).
  set (C1 := set_block C0 0 n n m (mmul m (fun i j => - Ma i j) (mtr Hinv))).
  set (C2 := set_block C1 n 0 m n (fun i j => C1 j (n + i)%nat)).
  set (C3 := set_block C2 n n m m PLL).
  exists (set_vars_cov st (s_vars st ++ [set_local_id nv' (Some n)]) (n + m) C3), nv', Hinv.
  split; [apply geninv_l; auto|]. split; [apply geninv_r; auto|].
  split.
  { unfold initialize_invertible. rewrite (find_top_fresh st nv F).
    rewrite D5, D6, Nat.eqb_refl. unfold guard at 1. rewrite (proj2 (Nat.ltb_lt 0 m) Hm). simpl andb. cbv match.
    rewrite Hiso. unfold guard at 1. rewrite D7, D3, D1, Nat.eqb_refl. unfold guard at 1. simpl andb. cbv match.
    rewrite El. simpl obind. rewrite Lo, Nat.eqb_refl. unfold guard at 1. rewrite EM. simpl obind.
    rewrite EP. simpl obind. rewrite D4. unfold guard. fold m. rewrite Nat.eqb_refl. simpl andb. cbv match.
    fold Hinv n Mi PLL C0 C1 C2 C3. rewrite EU. reflexivity. }
  split; auto. simpl. split; auto. split; auto. split; [reflexivity|].
  destruct (ty_update_inv _ _ _ EU) as (_ & U1 & U2 & U3 & U4 & U5 & U6 & U7).
  split.
  { eapply meq_trans; [|apply meq_sym; apply (join_entry n m (mmul m Hinv Hf) Hinv (s_cov st) (dm Rn))].
    (* cross terms *)
    assert (X : forall i j, (i < n)%nat -> (j < m)%nat ->
      mmul m (fun i j => - Ma i j) (mtr Hinv) i j = - mmul n (s_cov st) (mtr (mmul m Hinv Hf)) i j).
    { intros i j Hi Hj.
      transitivity (- mmul m (mmul n (s_cov st) (mtr Hf)) (mtr Hinv) i j).
      - unfold mmul at 1 2. rewrite <- sumn_opp. apply sumn_ext. intros k Hk. rewrite HMa by auto. ring.
      - f_equal. rewrite mmul_assoc. apply mmul_ext; auto. intros k Hk. symmetry. apply mtr_mmul. }
    intros i j Hi Hj. unfold C3, C2, C1, C0, set_block.
    destruct (Nat.ltb_spec i n) as [Hin'|Hin'], (Nat.ltb_spec j n) as [Hjn|Hjn]; nbs; simpl; rewrite ?Nat.sub_0_r.
    - reflexivity.
    - apply X; lia.
    - replace (n + (i - n) - n)%nat with (i - n)%nat by lia. rewrite X by lia. f_equal.
      rewrite mmul_tr. unfold mmul at 1 2. apply sumn_ext. intros k Hk. unfold mtr. f_equal. apply HS; lia.
    - unfold PLL.
      transitivity (congr m Hinv S (i - n)%nat (j - n)%nat).
      { unfold congr. apply mmul_ext; auto. intros k Hk. apply mmul_ext; auto. }
      unfold S. unfold congr at 1. 
      transitivity (mmul m (madd (mmul m Hinv (congr n Hf (s_cov st))) (mmul m Hinv (dm Rn))) (mtr Hinv) (i - n)%nat (j - n)%nat).
      { apply mmul_ext; auto. intros k Hk. rewrite mmul_add_r. reflexivity. }
      rewrite mmul_add_l. f_equal.
      unfold congr at 1. unfold congr.
      transitivity (mmul m (mmul n (mmul n (mmul m Hinv Hf) (s_cov st)) (mtr Hf)) (mtr Hinv) (i - n)%nat (j - n)%nat).
      { apply mmul_ext; auto. intros k Hk. rewrite <- mmul_assoc. apply mmul_ext; auto. intros a Ha.
        rewrite <- mmul_assoc. reflexivity. }
      rewrite mmul_assoc. apply mmul_ext; auto. intros k Hk. symmetry. apply mtr_mmul. }
  assert (Z : state_ok (set_next (set_vars_cov st (s_vars st ++ [set_local_id nv' (Some n)]) (n + m) C3) (s_next st))).
  { apply append_ok; auto.
    - apply set_id_subs.
    - apply set_id_vals. apply U7. apply F.
    - apply set_id_unit. eapply ty_update_unit; eauto; apply F.
    - apply set_id_id.
    - rewrite set_id_size, U2. reflexivity.
    - rewrite set_id_ptrs, U4. apply F.
    - rewrite set_id_ptrs, U4. apply F.
    - rewrite set_id_ptrs, U4. apply F. }
  eapply state_ok_ext; [| | | |exact Z]; reflexivity.
Qed.

Lemma isotropic_scal Rn m : dr Rn = m -> dc Rn = m -> isotropic Rn = true ->
  meq m m (dm Rn) (mscal (dm Rn 0%nat 0%nat) mid).
Proof.
  intros D1 D2 H. rewrite isotropic_spec, D1, D2 in H. intros i j Hi Hj. rewrite H by auto.
  unfold mscal, mid. destruct (Nat.eqb i j); ring.
Qed.

Lemma spsd_isotropic Rn m : dr Rn = m -> dc Rn = m -> isotropic Rn = true -> 0 <= dm Rn 0%nat 0%nat ->
  spsd m (dm Rn).
Proof.
  intros D1 D2 H H0. eapply spsd_ext; [apply meq_sym, isotropic_scal; eauto|].
  split; [apply sym_scal_id|]. intros x. rewrite quad_scal_id. apply Rmult_le_pos; auto.
  apply sumn_nonneg. intros; nra.
Qed.

(** inversion: any successful call has the stated dimensions *)
Lemma init_inv_dims st nv order HR HL Rn res st' :
  initialize_invertible st nv order HR HL Rn res = Ok st' ->
  find_top (s_vars st) (ty_ptr nv) = None /\ in_cov (s_dim st) order /\
  dr HR = ty_size nv /\ dc HR = length (indices order) /\ dr HL = ty_size nv /\ dc HL = ty_size nv /\
  dr Rn = ty_size nv /\ dc Rn = ty_size nv /\ dn res = ty_size nv /\ isotropic Rn = true.
Proof.
  unfold initialize_invertible. intros H.
  destruct (find_top (s_vars st) (ty_ptr nv)); [discriminate|].
  apply guard_ok in H; [|discriminate]. destruct H as [G1 H].
  apply guard_ok in H; [|discriminate]. destruct H as [G2 H].
  apply guard_ok in H; [|discriminate]. destruct H as [G3 H].
  apply obind_ok in H. destruct H as (l & El & H).
  apply guard_ok in H; [|discriminate]. destruct H as [G4 H].
  apply obind_ok in H. destruct H as (Ma & _ & H).
  apply obind_ok in H. destruct H as (Ps & _ & H).
  apply guard_ok in H; [|discriminate]. destruct H as [G5 _].
  apply resolve_ok in El. destruct El as [-> Hin].
  apply andb_prop in G1, G3, G5. destruct G1 as [G1 _], G3 as [G3 G3'], G5 as [G5 G5'].
  apply andb_prop in G3. destruct G3 as [G3 G3''].
  apply Nat.eqb_eq in G1, G3, G3', G3'', G4, G5, G5'. rewrite osize_indices in G4.
  do 9 (split; [auto; congruence|]). auto.
Qed.

(** ** initialize *)
Lemma fold_init l s : fold_left init_step l s = fold_left nullspace_step l s.
Proof. revert s. induction l as [|a l IH]; simpl; intros s; auto. Qed.

Lemma in_cov_weaken n n' order : (n <= n')%nat -> in_cov n order -> in_cov n' order.
Proof.
  intros H Hin. unfold in_cov in *. eapply Forall_impl; [|exact Hin]. intros r (i & A & B). exists i. split; auto. lia.
Qed.

(** the innovation statistic of the projected system *)
Definition nis (n : nat) (P : mat) (up : nat) (Hf Rn : mat) (res : vec) : R :=
  dot up res (mvec up (pdinv up (madd (congr n Hf P) Rn)) res).

Lemma initialize_inv chi2q st nv order HR HL Rn res mult b st' :
  initialize chi2q st nv order HR HL Rn res mult = Ok (b, st') ->
  let k := ty_size nv in let r := dr HL in let up := (r - k)%nat in
  find_top (s_vars st) (ty_ptr nv) = None /\ in_cov (s_dim st) order /\ isotropic Rn = true /\
  dc HL = k /\ (k <= r)%nat /\ dr HR = r /\ dn res = r /\ dr Rn = r /\ dc Rn = r /\
  dc HR = length (indices order) /\
  exists G, orth r G /\
   (forall i j, (j < k)%nat -> (j < i < r)%nat -> mmul r G (dm HL) i j = 0) /\
   exists L X rr,
   (forall i j, (i < r)%nat -> L i j = mmul r G (dm HL) i j) /\
   (forall i j, (i < r)%nat -> X i j = mmul r G (dm HR) i j) /\
   (forall i, (i < r)%nat -> rr i = mvec r G (dv res) i) /\
   let Hup := DMat up (dc HR) (fun i j => X (k + i)%nat j) in
   let resup := DVec up (fun i => rr (k + i)%nat) in
   let Rup := DMat up up (fun i j => dm Rn (k + i)%nat (k + j)%nat) in
   let stat := nis (s_dim st) (s_cov st) up (widen (indices order) (dm Hup)) (dm Rup) (dv resup) in
   ((b = false /\ st' = st /\ mult * chi2q r < stat) \/
    (b = true /\ stat <= mult * chi2q r /\
     exists st1, initialize_invertible st nv order (DMat k (dc HR) X) (DMat k k L)
                       (DMat k k (dm Rn)) (DVec k rr) = Ok st1 /\
       (up = 0%nat /\ st' = st1 \/ (0 < up)%nat /\ EKFUpdate st1 order Hup resup Rup = Ok st'))).
Proof.
  unfold initialize. intros H. cbv zeta.
  destruct (find_top (s_vars st) (ty_ptr nv)) eqn:Ef; [discriminate|].
  apply guard_ok in H; [|discriminate]. destruct H as [G1 H].
  apply guard_ok in H; [|discriminate]. destruct H as [G2 H].
  apply guard_ok in H; [|discriminate]. destruct H as [G3 H].
  apply andb_prop in G1. destruct G1 as [G1 _]. apply Nat.eqb_eq in G1.
  apply andb_prop in G3. destruct G3 as [G3 Ga]. apply andb_prop in G3. destruct G3 as [G3 Gb].
  apply andb_prop in G3. destruct G3 as [G3 Gc]. apply andb_prop in G3. destruct G3 as [G3 Gd].
  apply Nat.eqb_eq in G3, Gc, Gb, Ga. apply Nat.leb_le in Gd.
  rewrite fold_init in H.
  destruct (elimination (dr HL) (dc HL) (dm HL) (dm HR) (dv res)) as [Z (G & HG & E1 & E2 & E3)].
  destruct (fold_left nullspace_step _ _) as [[L X] rr]. simpl in Z, E1, E2, E3.
  apply obind_ok in H. destruct H as (Pup & EP & H).
  apply guard_ok in H; [|discriminate]. destruct H as [G5 H]. simpl in G5. apply Nat.eqb_eq in G5.
  pose proof (gmc_eq _ _ _ EP) as (P1 & P2 & Hin & P3).
  split; [auto|]. split; [auto|]. split; [auto|]. split; [congruence|]. split; [auto|].
  split; [congruence|]. split; [congruence|]. split; [congruence|]. split; [congruence|]. split; [congruence|].
  exists G. split; auto. split.
  { intros i j Hj Hi. rewrite <- E1 by lia. apply Z; lia. }
  exists L, X, rr. do 3 (split; [auto|]).
  assert (Epup : exists l, order = pairs l /\ Pup = DMat (osize l) (osize l) (marginal_block (s_cov st) l)).
  { unfold get_marginal_covariance in EP. apply obind_ok in EP. destruct EP as (l & El & EP).
    injection EP as <-. exists l. split; auto. apply resolve_ok in El. apply El. }
  destruct Epup as (l & Pl & ->). simpl in G5.
  rewrite <- Gc in H.
  set (up := (dr HL - ty_size nv)%nat) in *. set (k := ty_size nv) in *.
  assert (Estat : dot up (fun i => rr (k + i)%nat) (mvec up (pdinv up (innov up (dc HR) (fun i j => X (k + i)%nat j)
     (marginal_block (s_cov st) l) (fun i j => dm Rn (k + i)%nat (k + j)%nat))) (fun i => rr (k + i)%nat))
    = nis (s_dim st) (s_cov st) up (widen (indices order) (fun i j => X (k + i)%nat j))
        (fun i j => dm Rn (k + i)%nat (k + j)%nat) (fun i => rr (k + i)%nat)).
  { unfold nis. apply dot_ext; [intros ? ?; auto|]. intros i Hi. apply mvec_ext; [|intros ? ?; auto].
    intros j Hj. apply pdinv_ext; auto. intros a c Ha Hc. unfold innov, madd. f_equal. rewrite G5.
    rewrite (small_innov (s_dim st)) by (rewrite <- Pl; auto). rewrite <- Pl. reflexivity. }
  simpl in H. simpl. rewrite <- Estat. rewrite <- Gb in H.
  destruct (Rltb_spec (mult * chi2q (dr HL)) (dot up (fun i => rr (k + i)%nat) (mvec up (pdinv up (innov up (dc HR) (fun i j => X (k + i)%nat j)
     (marginal_block (s_cov st) l) (fun i j => dm Rn (k + i)%nat (k + j)%nat))) (fun i => rr (k + i)%nat)))) as [Hlt|Hge].
  - injection H as <- <-. left. auto.
  - right. apply obind_ok in H. destruct H as (st1 & H1 & H). apply obind_ok in H. destruct H as (st2 & H2 & H).
    injection H as <- <-. split; auto. split; [lra|]. exists st1. split; auto.
    destruct (Nat.ltb_spec 0 up); [right|left; injection H2 as <-; split; auto; lia]. auto.
Qed.

Lemma initialize_exit chi2q st nv order HR HL Rn res mult :
  (exists t, In t (s_vars st) /\ ty_ptr t = ty_ptr nv) \/
  (dr Rn = dc Rn /\ (0 < dr Rn)%nat /\ isotropic Rn = false) ->
  initialize chi2q st nv order HR HL Rn res mult = Exit.
Proof.
  intros H. unfold initialize. destruct (find_top (s_vars st) (ty_ptr nv)) eqn:E; auto.
  destruct H as [(t & A & B)|(A & B & C)]; [destruct (find_top_none _ _ E _ A B)|].
  rewrite <- A, Nat.eqb_refl, (proj2 (Nat.ltb_lt _ _) B), C. reflexivity.
Qed.

Definition cams_ready (st : state) : Prop :=
  o_calib_intr (s_opts st) = true -> cams_ok st /\ NoDup (map fst (s_cintr st)).

Lemma sub_iso_sym_pd Rn k r : dr Rn = r -> dc Rn = r -> isotropic Rn = true -> (k <= r)%nat ->
  0 < dm Rn 0%nat 0%nat ->
  sym (r - k) (fun i j => dm Rn (k + i)%nat (k + j)%nat) /\ pd (r - k) (fun i j => dm Rn (k + i)%nat (k + j)%nat).
Proof.
  intros D1 D2 H Hk H0. pose proof (isotropic_scal Rn r D1 D2 H) as E.
  assert (E' : meq (r - k) (r - k) (mscal (dm Rn 0%nat 0%nat) mid) (fun i j => dm Rn (k + i)%nat (k + j)%nat)).
  { intros i j Hi Hj. rewrite (E (k + i)%nat (k + j)%nat) by lia. unfold mscal, mid. f_equal.
    destruct (Nat.eqb_spec i j), (Nat.eqb_spec (k + i) (k + j)); auto; lia. }
  split; [eapply sym_ext; [exact E'|apply sym_scal_id]|].
  intros x Hx. rewrite <- (quad_ext _ _ _ x E'). apply pd_scal_id; auto.
Qed.

Lemma initialize_total chi2q st nv order HR HL Rn res mult :
  state_ok st -> spsd (s_dim st) (s_cov st) -> in_cov (s_dim st) order -> fresh_var st nv -> cams_ready st ->
  let k := ty_size nv in let r := dr HL in
  dc HL = k -> (k <= r)%nat -> dr HR = r -> dn res = r -> dr Rn = r -> dc Rn = r ->
  dc HR = length (indices order) -> isotropic Rn = true -> 0 < dm Rn 0%nat 0%nat ->
  full_col_rank r k (dm HL) ->
  exists b st', initialize chi2q st nv order HR HL Rn res mult = Ok (b, st') /\
    state_ok st' /\ spsd (s_dim st') (s_cov st') /\
    s_dim st' = (if b then s_dim st + k else s_dim st)%nat /\
    (b = true -> exists vars nv', s_vars st' = vars ++ [nv'] /\
        Forall2 (fun t t' => ty_ptrs t' = ty_ptrs t /\ ty_id t' = ty_id t /\ ty_size t' = ty_size t /\ same_kind t t') (s_vars st) vars /\
        ty_ptrs nv' = ty_ptrs nv /\ same_kind nv nv' /\ ty_id nv' = Some (s_dim st) /\
        s_opts st' = s_opts st /\ s_next st' = s_next st /\ s_clones st' = s_clones st /\
        s_slam st' = s_slam st /\ s_imu st' = s_imu st /\ s_dt st' = s_dt st /\ s_time st' = s_time st /\
        s_cintr st' = s_cintr st /\ map fst (s_cams st') = map fst (s_cams st)).
Proof.
  intros Hok HP Hin F HC k r D1 D2 D3 D4 D5 D6 D7 Hiso H0 HR'.
  assert (Hm : (0 < k)%nat) by (apply vals_ok_pos; apply F).
  destruct (elimination r k (dm HL) (dm HR) (dv res)) as [Z (G & HG & E1 & E2 & E3)].
  set (s := fold_left nullspace_step (sched r k) (dm HL, dm HR, dv res)) in *.
  destruct s as [[L X] rr] eqn:Es. simpl in Z, E1, E2, E3.
  assert (HZ : forall i j, (j < k)%nat -> (j < i < r)%nat -> mmul r G (dm HL) i j = 0).
  { intros i j Hj Hi. rewrite <- E1 by lia. apply Z; lia. }
  assert (HLi : invertible k L).
  { apply tri_invertible; [intros; apply Z; lia|].
    pose proof (elim_top_rank r k G (dm HL) D2 HG HR' HZ) as T. intros x Hx. apply T.
    intros i Hi. rewrite <- (Hx i Hi). apply mvec_ext; [intros; symmetry; apply E1; lia|intros ? ?; auto]. }
  assert (Risok : isotropic (DMat k k (dm Rn)) = true).
  { apply isotropic_spec. simpl. intros i j Hi Hj. rewrite isotropic_spec, D5, D6 in Hiso.
    apply Hiso; lia. }
  destruct (init_inv_full st nv order (DMat k (dc HR) X) (DMat k k L) (DMat k k (dm Rn)) (DVec k rr)
     Hok (proj1 HP) Hin F eq_refl D7 eq_refl eq_refl eq_refl eq_refl eq_refl Risok HLi)
    as (st1 & nv' & Hinv & _ & _ & Ei & Eu & V1 & Dm1 & Est1 & Hcov & Hok1).
  simpl in Hcov.
  destruct (ty_update_inv _ _ _ Eu) as (_ & U1 & U2 & U3 & U4 & U5 & U6 & U7).
  assert (HP1 : spsd (s_dim st1) (s_cov st1)).
  { rewrite Dm1. eapply spsd_ext; [apply meq_sym, Hcov|]. apply spsd_add; apply spsd_congr; auto.
    apply (spsd_isotropic (DMat k k (dm Rn)) k); auto. simpl. lra. }
  assert (Hin1 : in_cov (s_dim st1) order) by (eapply in_cov_weaken; [|exact Hin]; lia).
  destruct (gmc_total st order Hin) as (Pup & EP).
  pose proof (gmc_eq _ _ _ EP) as (P1 & P2 & _ & _).
  assert (Heq : exists c, initialize chi2q st nv order HR HL Rn res mult =
     if Rltb (mult * chi2q r) c then Ok (false, st) else
       do st2 <- (if (0 <? r - k)%nat then EKFUpdate st1 order (DMat (r - k) (dc HR) (fun i j => X (k + i)%nat j))
                       (DVec (r - k) (fun i => rr (k + i)%nat))
                       (DMat (r - k) (r - k) (fun i j => dm Rn (k + i)%nat (k + j)%nat)) else Ok st1);
       Ok (true, st2)).
  { eexists. unfold initialize. rewrite (find_top_fresh st nv F).
    rewrite D5, D6, Nat.eqb_refl. unfold guard at 1. rewrite (proj2 (Nat.ltb_lt 0 r)) by lia. simpl andb. cbv match.
    rewrite Hiso. unfold guard at 1. fold k r. rewrite D1, D3, D4, !Nat.eqb_refl, (proj2 (Nat.leb_le k r) D2).
    unfold guard at 1. simpl andb. cbv match. rewrite fold_init. fold s. rewrite Es.
    rewrite EP. simpl obind. rewrite P2, D7, Nat.eqb_refl. unfold guard.
    rewrite <- D7. rewrite Ei. reflexivity. }
  destruct Heq as (c & Heq). rewrite Heq.
  destruct (Rltb (mult * chi2q r) c).
  { exists false, st. split; auto. split; auto. split; auto. split; auto. discriminate. }
  assert (Fr : s_opts st1 = s_opts st /\ s_next st1 = s_next st /\ s_clones st1 = s_clones st /\
        s_slam st1 = s_slam st /\ s_imu st1 = s_imu st /\ s_dt st1 = s_dt st /\ s_time st1 = s_time st /\
        s_cintr st1 = s_cintr st /\ s_cams st1 = s_cams st) by (rewrite Est1; simpl; auto 10).
  destruct Fr as (Fr1 & Fr2 & Fr3 & Fr4 & Fr5 & Fr6 & Fr7 & Fr8 & Fr9).
  destruct (Nat.ltb_spec 0 (r - k)).
  - destruct (sub_iso_sym_pd Rn k r D5 D6 Hiso D2 H0) as [RS RP].
    destruct (update_full st1 order (DMat (r - k) (dc HR) (fun i j => X (k + i)%nat j))
         (DVec (r - k) (fun i => rr (k + i)%nat)) (DMat (r - k) (r - k) (fun i j => dm Rn (k + i)%nat (k + j)%nat)))
      as (st2 & K & Eup & _ & D2' & _ & HP2 & HV2 & Hok2 & cams & Est2 & Cf & Ct); auto.
    { rewrite Fr1. intros Hcal. destruct (HC Hcal) as [C1 C2]. rewrite Fr8. split; auto.
      intros c0 p Hcp. rewrite Fr8 in Hcp. destruct (C1 c0 p Hcp) as ((v & A & B) & C'). rewrite Fr9. split; auto.
      exists v. split; auto. rewrite V1. apply in_or_app; auto. }
    rewrite Eup. simpl. exists true, st2. split; auto. split; auto. split; [rewrite D2'; auto|]. split; [rewrite D2', Dm1; reflexivity|].
    intros _. rewrite V1 in HV2. apply Forall2_app_inv_l in HV2. destruct HV2 as (va & vb & HA & HB & Ev).
    inversion HB as [|? nv2 ? ? (id & Hid & Hu) HB']; subst. inversion HB'; subst.
    destruct (ty_update_inv _ _ _ Hu) as (_ & W1 & W2 & W3 & W4 & _).
    exists va, nv2. split; auto. split.
    { clear -HA. induction HA as [|t t' a b (id & _ & Hu) _ IH]; constructor; auto.
      destruct (ty_update_inv _ _ _ Hu) as (_ & W1 & W2 & W3 & W4 & _). pose proof (update_kind _ _ _ Hu). auto. }
    split; [rewrite W4, set_id_ptrs, U4; auto|].
    split; [eapply same_kind_trans; [exact (update_kind _ _ _ Eu)|]; eapply same_kind_trans; [apply set_id_kind|exact (update_kind _ _ _ Hu)]|].
    split; [rewrite W1, set_id_id; auto|].
    rewrite Est2. simpl. rewrite Fr1 in *. do 8 (split; [auto|]).
    destruct (o_calib_intr (s_opts st)) eqn:Ec.
    + destruct (Ct eq_refl) as [C1 _]. rewrite C1, Fr9. reflexivity.
    + rewrite (Cf eq_refl), Fr9. reflexivity.
  - simpl. exists true, st1. split; auto. split; auto. split; auto. split; auto. intros _.
    exists (s_vars st), (set_local_id nv' (Some (s_dim st))). split; auto. split.
    { clear. induction (s_vars st); constructor; auto using same_kind_refl. }
    split; [rewrite set_id_ptrs, U4; auto|].
    split; [eapply same_kind_trans; [exact (update_kind _ _ _ Eu)|apply set_id_kind]|]. split; [rewrite set_id_id; auto|].
    rewrite Fr9. auto 10.
Qed.
