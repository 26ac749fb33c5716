From Coq Require Import Reals List Arith Bool Lia Lra Sorted.
From Verif Require Import RBool Outcome GeoModel GeoSpec GeoProofs Lin ImuModel ImuSpec DbModel DbSpec DbProofs UpdProofs4 InitModel InitSpec InitProofs.
Import ListNotations.
Open Scope R_scope.

Lemma norm_zero a : v3norm a = 0 -> a = v3zero.
Proof. intros E. pose proof (norm_sq a) as N. rewrite E in N. unfold v3dot in N. apply v3_ext; simpl; nra. Qed.
(** ** averages *)
Lemma v3sum_c l : v3sum l = V3 (total (map vx l)) (total (map vy l)) (total (map vz l)).
Proof. induction l as [|a l IH]; [reflexivity|]. simpl. rewrite IH. reflexivity. Qed.
Lemma inr_pos n : (1 <= n)%nat -> 0 < INR n.
Proof. intros H. apply lt_0_INR. lia. Qed.
Lemma v3avg_mean l : l <> [] -> is_vmean l (v3avg l).
Proof.
  intros H. assert (P : 0 < INR (length l)) by (apply inr_pos; destruct l; simpl; [congruence|lia]).
  unfold is_vmean, is_mean, v3avg. rewrite v3sum_c. unfold v3div. cbn [vx vy vz]. rewrite !map_length. repeat split; field; lra.
Qed.
Lemma sq_dev_total m l : sq_dev m l = total (map (fun a => (vx a - vx m) * (vx a - vx m) + (vy a - vy m) * (vy a - vy m) + (vz a - vz m) * (vz a - vz m)) l).
Proof. induction l as [|a l IH]; [reflexivity|]. cbn [sq_dev map total fold_right]. rewrite IH. reflexivity. Qed.
Lemma sq_dev_pos m l : 0 <= sq_dev m l.
Proof. induction l as [|a l IH]; simpl; [lra|]. unfold v3dot. nra. Qed.
Lemma inr_pred n : (2 <= n)%nat -> 0 < INR n - 1.
Proof. intros H. apply (le_INR 2) in H. simpl in H. lra. Qed.
Lemma a_std_spec l : (2 <= length l)%nat -> is_vstd l (v3avg l) (a_std l).
Proof.
  intros H. apply inr_pred in H. pose proof (sq_dev_pos (v3avg l) l) as P. split; [apply sqrt_pos|].
  unfold a_std. rewrite sqrt_sqrt by (apply Rmult_le_pos; auto; left; apply Rinv_0_lt_compat; auto). rewrite <- sq_dev_total. field. lra.
Qed.
Lemma vstd_unique l m s s' : (2 <= length l)%nat -> is_vstd l m s -> is_vstd l m s' -> s = s'.
Proof. intros H [A1 A2] [B1 B2]. apply inr_pred in H. rewrite <- B2 in A2. apply Rmult_eq_reg_l in A2; [nra|lra]. Qed.
Lemma vmean_unique l m m' : l <> [] -> is_vmean l m -> is_vmean l m' -> m = m'.
Proof.
  intros H (A1 & A2 & A3) (B1 & B2 & B3). assert (P : 0 < INR (length l)) by (apply inr_pos; destruct l; simpl; [congruence|lia]).
  unfold is_mean in *. rewrite map_length in *. apply v3_ext; apply (Rmult_eq_reg_l (INR (length l))); lra.
Qed.

(** ** static initialization *)
(** what has to hold of the buffer for the static initializer to accept *)
Definition static_ok (o : init_opts) (wait : bool) (newest : R) (data w10 w21 : list imu) (a : v3) : Prop :=
  within (newest - io_window o / 2) newest data w10 /\ within (newest - io_window o) (newest - io_window o / 2) data w21 /\
  (2 <= length w10)%nat /\ (2 <= length w21)%nat /\ is_vmean (map i_a w21) a /\
  exists m10 s10 s21, is_vmean (map i_a w10) m10 /\ is_vstd (map i_a w10) m10 s10 /\ is_vstd (map i_a w21) a s21 /\
    (if wait then io_thresh o <= s10 /\ s21 <= io_thresh o else s10 <= io_thresh o /\ s21 <= io_thresh o).

Lemma within_filter lo hi data lo' hi' : lo = lo' -> hi = hi' -> within lo' hi' data (filter (in_half lo hi) data).
Proof.
  intros -> ->. exists (in_half lo' hi'). split; auto. intros m. unfold in_half. rewrite andb_true_iff, Rltb_true, Rleb_true. tauto.
Qed.
Lemma within_unique lo hi data l l' : within lo hi data l -> within lo hi data l' -> l = l'.
Proof.
  intros (s & S & ->) (s' & S' & ->). apply filter_ext. intros m. specialize (S m). specialize (S' m).
  destruct (s m), (s' m); auto; exfalso; intuition congruence.
Qed.
Lemma last_default {A} (l : list A) d d' : l <> [] -> last l d = last l d'.
Proof. induction l as [|a l IH]; [congruence|]. intros _. destruct l; auto. simpl in *. apply IH. discriminate. Qed.

Lemma static_cases o first rest wait :
  let data := first :: rest in let newest := i_t (last data first) in
  let w10 := filter (in_half (newest - 5 / 10 * io_window o) (newest - 0 * io_window o)) data in
  let w21 := filter (in_half (newest - 1 * io_window o) (newest - 5 / 10 * io_window o)) data in
  let a := v3avg (map i_a w21) in
  ((2 <= length data)%nat /\ io_window o <= newest - i_t first /\ static_ok o wait newest data w10 w21 a /\
   ((a = v3zero /\ static_initialize o data wait = UB) \/
    (a <> v3zero /\ exists Rm, is_rot Rm /\ m3v Rm (V3 0 0 1) = v3div a (v3norm a) /\
      static_initialize o data wait = Ok (Some (mkIS (i_t (last w21 first)) (rot_2_quat Rm) v3zero v3zero (v3avg (map i_w w21))
        (v3sub a (m3v (quat_2_Rot (rot_2_quat Rm)) (V3 0 0 (io_gravity o)))) static_cov))))) \/
  (~ ((2 <= length data)%nat /\ io_window o <= newest - i_t first /\ exists w10 w21 a, static_ok o wait newest data w10 w21 a) /\
   static_initialize o data wait = Ok None).
Proof.
  intros data newest w10 w21 a.
  assert (W10 : within (newest - io_window o / 2) newest data w10) by (apply within_filter; lra).
  assert (W21 : within (newest - io_window o) (newest - io_window o / 2) data w21) by (apply within_filter; lra).
  assert (Only : forall w10' w21' a', static_ok o wait newest data w10' w21' a' ->
     (2 <= length w10)%nat /\ (2 <= length w21)%nat /\
     (if wait then io_thresh o <= a_std (map i_a w10) /\ a_std (map i_a w21) <= io_thresh o
      else a_std (map i_a w10) <= io_thresh o /\ a_std (map i_a w21) <= io_thresh o)).
  { intros w10' w21' a' (H1 & H2 & L1 & L2 & Ha & m10 & s10 & s21 & Hm & S1 & S2 & C).
    rewrite <- (within_unique _ _ _ _ _ W10 H1) in *. rewrite <- (within_unique _ _ _ _ _ W21 H2) in *. split; auto. split; auto.
    assert (N1 : map i_a w10 <> []) by (destruct w10; simpl in *; [lia|discriminate]).
    assert (N2 : map i_a w21 <> []) by (destruct w21; simpl in *; [lia|discriminate]).
    assert (L1' : (2 <= length (map i_a w10))%nat) by (rewrite map_length; auto). assert (L2' : (2 <= length (map i_a w21))%nat) by (rewrite map_length; auto).
    rewrite (vmean_unique _ _ _ N1 Hm (v3avg_mean _ N1)) in S1. rewrite (vmean_unique _ _ _ N2 Ha (v3avg_mean _ N2)) in S2.
    rewrite (vstd_unique _ _ _ _ L1' S1 (a_std_spec _ L1')) in C. rewrite (vstd_unique _ _ _ _ L2' S2 (a_std_spec _ L2')) in C. exact C. }
  pose proof (eq_refl (static_initialize o (first :: rest) wait)) as SE. unfold static_initialize in SE at 2.
  fold data in SE. fold newest in SE. cbv zeta in SE. fold w10 in SE. fold w21 in SE. fold a in SE.
  set (S := static_initialize o data wait) in *. clearbody S. revert SE.
  destruct (Nat.ltb_spec (length data) 2) as [B1|B1].
  { intros SE. right. split; [|exact SE]. intros (H & _). lia. }
  destruct (Rltb_spec (newest - i_t first) (io_window o)) as [B2|B2].
  { intros SE. right. split; [|exact SE]. intros (_ & H & _). lra. }
  destruct (Nat.ltb_spec (length w10) 2) as [B3|B3].
  { intros SE. right. split; [|exact SE]. intros (_ & _ & ? & ? & ? & H). apply Only in H. lia. }
  destruct (Nat.ltb_spec (length w21) 2) as [B4|B4].
  { intros SE. right. split; [|exact SE]. intros (_ & _ & ? & ? & ? & H). apply Only in H. lia. }
  cbn [orb].
  destruct (Rltb_spec (a_std (map i_a w10)) (io_thresh o)) as [C1|C1]; destruct (Rltb_spec (io_thresh o) (a_std (map i_a w21))) as [C2|C2];
    destruct (Rltb_spec (io_thresh o) (a_std (map i_a w10))) as [C3|C3]; destruct wait; cbn [andb orb negb]; intros SE; try lra;
    try (right; split; [|exact SE]; intros (_ & _ & ? & ? & ? & H); apply Only in H; cbv iota in H; lra).
  all: left.
  all: split; [exact B1|]; split; [lra|]; split;
    [split; [exact W10|]; split; [exact W21|]; split; [exact B3|]; split; [exact B4|]; split;
      [apply v3avg_mean; destruct w21; simpl in *; [lia|discriminate]|];
      exists (v3avg (map i_a w10)), (a_std (map i_a w10)), (a_std (map i_a w21)); split;
      [apply v3avg_mean; destruct w10; simpl in *; [lia|discriminate]|]; split;
      [apply a_std_spec; rewrite map_length; auto|]; split; [apply a_std_spec; rewrite map_length; auto|]; cbv iota; split; lra|].
  all: destruct (Req_dec (v3norm a) 0) as [Z|Z];
    [left; split; [apply norm_zero; exact Z
      |rewrite SE; unfold unit_of; rewrite Z; destruct (Reqb_spec 0 0); [reflexivity|congruence]]|].
  all: right; assert (NZ : a <> v3zero) by (apply norm_nz; auto); split; [exact NZ|].
  all: rewrite SE, unit_of_ok by auto; cbn [obind].
  all: assert (U : v3dot (v3div a (v3norm a)) (v3div a (v3norm a)) = 1) by (apply unit_of_unit; auto).
  all: destruct (gram_schmidt_rot (v3div a (v3norm a)) (unit_nz _ U)) as (Rm & E1 & E2 & E3).
  all: rewrite (unit_norm _ U), v3div_1 in E3; exists Rm; split; [exact E2|]; split; [exact E3|]; rewrite E1; reflexivity.
Qed.

Definition static_facts (o : init_opts) (data w21 : list imu) (a : v3) (s : init_state) : Prop :=
  unit_q (is_q s) /\
  v3add (m3v (quat_2_Rot (is_q s)) (V3 0 0 (io_gravity o))) (is_ba s) = a /\
  m3v (quat_2_Rot (is_q s)) (V3 0 0 (v3norm a)) = a /\
  is_vmean (map i_w w21) (is_bg s) /\ is_p s = v3zero /\ is_v s = v3zero /\
  (exists l m, w21 = l ++ [m] /\ is_time s = i_t m) /\ prior_cov (is_cov s) /\ sym 15 (is_cov s) /\ pd 15 (is_cov s).

Lemma static_accepts o data wait s : static_initialize o data wait = Ok (Some s) ->
  exists first last_r l w10 w21 a, data = l ++ [last_r] /\ hd_error data = Some first /\ (2 <= length data)%nat /\
    io_window o <= i_t last_r - i_t first /\ static_ok o wait (i_t last_r) data w10 w21 a /\ a <> v3zero /\ static_facts o data w21 a s.
Proof.
  intros H. destruct data as [|first rest]; [discriminate|].
  destruct (static_cases o first rest wait) as [(A & B & C & [(_ & E)|(NZ & Rm & E1 & E2 & E3)])|(_ & E)];
    [rewrite E in H; discriminate| |rewrite E in H; discriminate].
  rewrite E3 in H. apply (f_equal (fun x => match x with Ok (Some y) => y | _ => s end)) in H. cbv beta iota in H. subst s.
  exists first, (last (first :: rest) first), (removelast (first :: rest)). do 3 eexists.
  split; [apply app_removelast_last; discriminate|]. split; [reflexivity|]. split; [exact A|]. split; [exact B|]. split; [exact C|]. split; [exact NZ|].
  set (w21 := filter (in_half (i_t (last (first :: rest) first) - 1 * io_window o) _) (first :: rest)) in *. set (a := v3avg (map i_a w21)) in *. destruct C as (_ & W21 & _ & L2 & _). clearbody a.
  destruct (rot_2_quat_spec Rm E1) as (U & _ & EQ). unfold static_facts. cbn [is_q is_ba is_bg is_p is_v is_time is_cov]. rewrite EQ.
  split; [exact U|]. split; [apply v3_ext; simpl; ring|]. split.
  { assert (N : v3norm a <> 0) by (apply norm_nz; auto). replace (V3 0 0 (v3norm a)) with (v3scal (v3norm a) (V3 0 0 1)) by (unfold v3scal; simpl; f_equal; ring).
    rewrite m3v_scal, E2. apply v3_ext; simpl; field; auto. }
  assert (NE : w21 <> []) by (intros Z; rewrite Z in L2; simpl in L2; lia).
  split; [apply v3avg_mean; destruct w21; [congruence|discriminate]|]. split; [reflexivity|]. split; [reflexivity|].
  split; [exists (removelast w21), (last w21 first); split; [apply app_removelast_last; auto|reflexivity]|].
  split.
  { split; [|intros i j Hij; unfold static_cov; destruct (Nat.eqb_spec i j); [congruence|reflexivity]].
    intros i s Hn. unfold static_cov. rewrite Nat.eqb_refl.
    do 15 (destruct i as [|i]; [injection Hn as <-; simpl; ring|]). destruct i; discriminate. }
  apply diag_pd.
  - intros i j Hij. unfold static_cov. destruct (Nat.eqb_spec i j); [congruence|reflexivity].
  - intros i Hi. unfold static_cov. rewrite Nat.eqb_refl. destruct (Nat.ltb i 3), (Nat.ltb i 6), (Nat.ltb i 9); simpl; lra.
Qed.
(** and conversely it accepts whenever the pattern is there and the mean acceleration is not zero *)
Lemma static_accepts_iff o data wait : forall first last_r l, data = l ++ [last_r] -> hd_error data = Some first ->
  ((exists w10 w21 a, (2 <= length data)%nat /\ io_window o <= i_t last_r - i_t first /\ static_ok o wait (i_t last_r) data w10 w21 a /\ a <> v3zero) <->
   exists s, static_initialize o data wait = Ok (Some s)) /\
  (static_initialize o data wait = Ok None <->
   ~ exists w10 w21 a, (2 <= length data)%nat /\ io_window o <= i_t last_r - i_t first /\ static_ok o wait (i_t last_r) data w10 w21 a).
Proof.
  intros first last_r l E F. destruct data as [|first' rest]; [discriminate|]. injection F as ->.
  assert (EL : last (first :: rest) first = last_r) by (rewrite E; clear; induction l as [|a [|b l] IH]; auto; simpl in *; auto).
  destruct (static_cases o first rest wait) as [(A & B & C & D)|(N & E')]; rewrite EL in *.
  - destruct D as [(Z & EU)|(NZ & Rm & E1 & E2 & E3)].
    + split; [split|split].
      * intros (w10 & w21 & a & _ & _ & O & NZ). exfalso. apply NZ. rewrite <- Z.
        destruct C as (_ & W & _ & L & Ma & _), O as (_ & W' & _ & _ & Ma' & _). rewrite <- (within_unique _ _ _ _ _ W W') in Ma'.
        apply (vmean_unique _ _ _) with (2 := Ma') (3 := Ma). destruct (filter _ _); [simpl in L; lia|discriminate].
      * intros (s & Es). rewrite Es in EU. discriminate.
      * intros Es. rewrite Es in EU. discriminate.
      * intros H. exfalso. apply H. do 3 eexists. split; [exact A|]. split; [exact B|exact C].
    + split; [split|split].
      * intros _. eexists. exact E3.
      * intros _. do 3 eexists. split; [exact A|]. split; [exact B|]. split; [exact C|exact NZ].
      * intros Es. rewrite Es in E3. discriminate.
      * intros H. exfalso. apply H. do 3 eexists. split; [exact A|]. split; [exact B|exact C].
  - split; [split|split]; auto.
    + intros (w10 & w21 & a & H1 & H2 & O & _). exfalso. apply N. split; [exact H1|]. split; [exact H2|eauto].
    + intros (s & Es). rewrite Es in E'. discriminate.
    + intros _ (w10 & w21 & a & H1 & H2 & O). apply N. split; [exact H1|]. split; [exact H2|eauto].
Qed.
