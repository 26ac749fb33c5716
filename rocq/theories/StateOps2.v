(** Augmentation, window and landmark marginalization. *)
From Coq Require Import Reals List Arith Lia Lra Bool ZArith.
From Verif Require Import RBool Outcome Lin GeoModel GeoSpec GivensModel TypesModel StateModel StateSpec PdInv StateLin
  StateEkf TypesProofs StateOps.
Import ListNotations.
Open Scope R_scope.

(** ** time-offset augmentation *)
Lemma mid_sum n f (g : nat -> R) : (f < n)%nat -> sumn n (fun a => mid f a * g a) = g f.
Proof. intros H. exact (mmul_id_l n (fun a _ => g a) f 0%nat H). Qed.

Lemma aug_congr n (J P : mat) (f : nat -> nat) (c : nat -> R) g i j :
  (forall k a, J k a = mid (f k) a + c k * mid g a) ->
  (f i < n)%nat -> (f j < n)%nat -> (g < n)%nat ->
  congr n J P i j = P (f i) (f j) + c j * P (f i) g + c i * P g (f j) + c i * c j * P g g.
Proof.
  intros HJ Hi Hj Hg. rewrite congr_entry.
  assert (E : forall b, sumn n (fun a => J i a * P a b) = P (f i) b + c i * P g b).
  { intros b. rewrite (sumn_ext n _ (fun a => mid (f i) a * P a b + c i * (mid g a * P a b))).
    2:{ intros a _. rewrite HJ. ring. }
    rewrite sumn_plus, sumn_scal, (mid_sum n (f i) (fun a => P a b)), (mid_sum n g (fun a => P a b)) by auto.
    reflexivity. }
  rewrite (sumn_ext n _ (fun b => mid (f j) b * (P (f i) b + c i * P g b)
                                  + c j * (mid g b * (P (f i) b + c i * P g b)))).
  2:{ intros b _. rewrite E, HJ. ring. }
  rewrite sumn_plus, sumn_scal, (mid_sum n (f j) (fun b => P (f i) b + c i * P g b)),
    (mid_sum n g (fun b => P (f i) b + c i * P g b)) by auto.
  ring.
Qed.

Lemma dnc_rate w v k : (k < 6)%nat -> dnc w v k = pose_rate w v k.
Proof. intros H. do 6 (destruct k as [|k]; [reflexivity|]). lia. Qed.

Lemma dt_clone_cov n P loc did w v : (loc + 6 <= n)%nat -> (did < n)%nat ->
  meq (n + 6) (n + 6) (dt_cov (clone_cov P n loc 6) (n + 6) n did (dnc w v))
    (congr n (aug_J n loc did (pose_rate w v)) P).
Proof.
  intros Hloc Hdid i j Hi Hj.
  set (c := fun k => if (k <? n)%nat then 0 else pose_rate w v (k - n)%nat).
  rewrite (aug_congr n _ P (csrc n loc) c did).
  2:{ intros k a. unfold aug_J, csrc, c. destruct (k <? n)%nat; ring. }
  2:{ unfold csrc; nbs; lia. } 2:{ unfold csrc; nbs; lia. } 2: auto.
  unfold dt_cov, c.
  assert (Ed : csrc n loc did = did) by (unfold csrc; nbs; reflexivity).
  destruct (Nat.ltb_spec i n), (Nat.ltb_spec j n); nbs;
    rewrite ?clone_cov_eq, ?Ed by lia; rewrite ?dnc_rate by lia; ring.
Qed.

Lemma clone_frame st p st' c : state_ok st -> clone st p = Ok (st', c) ->
  s_opts st' = s_opts st /\ s_time st' = s_time st /\ s_imu st' = s_imu st /\ s_dt st' = s_dt st /\
  s_clones st' = s_clones st /\ s_slam st' = s_slam st /\ s_cintr st' = s_cintr st /\ s_cams st' = s_cams st.
Proof.
  intros Hok H. destruct (clone_inv _ _ _ _ Hok H) as (t & loc & c0 & _ & _ & _ & _ & _ & ->).
  simpl. auto 10.
Qed.

(** only bookkeeping fields differ *)
Lemma state_ok_ext st st' : s_vars st' = s_vars st -> s_dim st' = s_dim st -> s_next st' = s_next st ->
  s_dt st' = s_dt st -> state_ok st -> state_ok st'.
Proof.
  intros E1 E2 E3 E4 [A B C D E F G]. constructor; rewrite ?E1, ?E2, ?E3, ?E4; auto.
Qed.

Lemma find_top_in_nodup vars t : NoDup (flat_map ty_ptrs vars) -> In t vars ->
  find_top vars (ty_ptr t) = Some t.
Proof.
  intros ND Hin. destruct (find_top vars (ty_ptr t)) as [t'|] eqn:E.
  - apply find_top_some in E. destruct E as [A B]. f_equal. eapply nodup_ptr_inj; eauto.
  - destruct (find_top_none _ _ E t Hin). reflexivity.
Qed.

Lemma find_var_pose st imu : state_ok st -> In (TImu imu) (s_vars st) ->
  find_var (s_vars st) (po_ptr (io_pose imu)) = Some (TPose (io_pose imu)).
Proof.
  intros Hok Hin. pose proof (ok_nodup _ Hok) as ND. clear Hok.
  set (p := po_ptr (io_pose imu)).
  induction (s_vars st) as [|a l IH]; [destruct Hin|]. simpl. simpl in ND.
  destruct Hin as [->|Hin].
  - simpl. simpl in ND. inversion ND as [|? ? N1 N2]; subst. 
    destruct (Nat.eqb_spec (io_ptr imu) p) as [E|E].
    + exfalso. apply N1. fold p. simpl. auto.
    + rewrite Nat.eqb_refl. reflexivity.
  - assert (Hp : In p (flat_map ty_ptrs l)).
    { apply in_flat_map. exists (TImu imu). split; auto. simpl. auto. }
    assert (Hna : ~ In p (ty_ptrs a)).
    { intros Ha. revert Hp ND Ha. clear. induction (ty_ptrs a) as [|x xs IHx]; simpl; [tauto|].
      intros Hp ND [->|Ha]; inversion ND; subst; auto.
      apply H1. apply in_or_app; auto. }
    destruct (Nat.eqb_spec (ty_ptr a) p) as [E|E].
    { exfalso. apply Hna. rewrite <- E. apply ty_ptr_in_ptrs. }
    destruct (check_if_subvariable a p) as [s|] eqn:Ec.
    { exfalso. apply Hna. clear -Ec. destruct a as [v|v|q|po|i]; simpl in *; try discriminate.
      - unfold pose_sub in Ec. destruct (Nat.eqb_spec p (qo_ptr (po_q po))); [subst; auto|].
        destruct (Nat.eqb_spec p (wo_ptr (po_p po))); [subst; auto|discriminate].
      - unfold pose_sub in Ec.
        repeat match type of Ec with context[Nat.eqb ?a ?b] => destruct (Nat.eqb_spec a b); auto 10 end.
        discriminate. }
    apply IH; auto. clear -ND. induction (ty_ptrs a); simpl in ND; auto. inversion ND; auto.
Qed.

Lemma vals_ok_pos t : vals_ok t -> (0 < ty_size t)%nat.
Proof. destruct t; simpl; intros; lia. Qed.

Lemma augment_inv st w st' : state_ok st -> augment_clone st w = Ok st' ->
  find_clone_time (s_clones st) (s_time st) = None /\
  exists imu loc pose st1,
    In (TImu imu) (s_vars st) /\ io_ptr imu = s_imu st /\ io_id imu = Some loc /\
    (loc + 15 <= s_dim st)%nat /\
    clone st (po_ptr (io_pose imu)) = Ok (st1, TPose pose) /\
    s_vars st1 = s_vars st ++ [TPose pose] /\ s_dim st1 = (s_dim st + 6)%nat /\
    po_val pose = PVal (iv_q (io_val imu)) (iv_p (io_val imu)) /\
    po_fej pose = PVal (iv_q (io_fej imu)) (iv_p (io_fej imu)) /\
    po_id pose = Some (s_dim st) /\
    s_cov st1 = clone_cov (s_cov st) (s_dim st) loc 6 /\
    s_vars st' = s_vars st1 /\ s_dim st' = s_dim st1 /\ s_next st' = s_next st1 /\
    s_opts st' = s_opts st /\ s_time st' = s_time st /\ s_imu st' = s_imu st /\ s_dt st' = s_dt st /\
    s_slam st' = s_slam st /\ s_cintr st' = s_cintr st /\ s_cams st' = s_cams st /\
    s_clones st' = s_clones st ++ [(s_time st, po_ptr pose)] /\
    (if o_calib_dt (s_opts st) then
       exists dtv did, In dtv (s_vars st) /\ ty_ptr dtv = s_dt st /\ ty_id dtv = Some did /\
         (did < s_dim st)%nat /\
         s_cov st' = dt_cov (s_cov st1) (s_dim st + 6) (s_dim st) did (dnc w (iv_v (io_val imu)))
     else s_cov st' = s_cov st1).
Proof.
  intros Hok. unfold augment_clone.
  destruct (find_clone_time (s_clones st) (s_time st)) as [|] eqn:Ect; [discriminate|].
  destruct (find_top (s_vars st) (s_imu st)) as [ti|] eqn:Ei; [|discriminate].
  destruct ti as [| | | |imu]; try discriminate.
  intros H. apply obind_ok in H. destruct H as ([st1 c] & Hcl & H).
  split; [reflexivity|].
  apply find_top_some in Ei. destruct Ei as [Hin Hptr]. simpl in Hptr.
  pose proof (proj1 (Forall_forall _ _) (ok_subs _ Hok) _ Hin) as HS.
  pose proof (proj1 (Forall_forall _ _) (ok_vals _ Hok) _ Hin) as HV.
  destruct (consecutive_in _ _ _ _ (ok_layout _ Hok) Hin) as (loc & Hid & _ & Hle). simpl in Hid, Hle.
  pose proof (clone_frame _ _ _ _ Hok Hcl) as (Fo & Ft & Fi & Fd & Fc & Fs & Fn & Fk).
  pose proof (clone_ok _ _ _ _ Hok Hcl) as Hok1.
  destruct (clone_inv _ _ _ _ Hok Hcl) as (t & loc' & c0 & Ef & Eid & Hle' & Hc0 & Ec & Est1).
  rewrite (find_var_pose st imu Hok Hin) in Ef. injection Ef as <-.
  simpl in Eid. destruct HS as (S1 & S2 & S3 & S4 & S5).
  rewrite S1, Hid in Eid. injection Eid as <-.
  simpl in Hc0. injection Hc0 as <-. simpl in Ec. subst c.
  set (pose := pose_set_id _ _) in *.
  destruct HV as (V1 & V2 & V3). destruct V1 as (_ & V4 & V5).
  assert (Epv : po_val pose = PVal (iv_q (io_val imu)) (iv_p (io_val imu))).
  { unfold pose. simpl. rewrite V4, V2. reflexivity. }
  assert (Epf : po_fej pose = PVal (iv_q (io_fej imu)) (iv_p (io_fej imu))).
  { unfold pose. simpl. rewrite V5, V3. reflexivity. }
  assert (Ev : wo_val (io_v imu) = iv_v (io_val imu)) by (rewrite V2; reflexivity).
  assert (Eloc : (loc + 0)%nat = loc) by lia. rewrite Eloc in Est1.
  exists imu, loc, pose, st1.
  assert (Hvars1 : s_vars st1 = s_vars st ++ [TPose pose]) by (rewrite Est1; reflexivity).
  assert (Hdim1 : s_dim st1 = (s_dim st + 6)%nat) by (rewrite Est1; reflexivity).
  assert (Hcov1 : s_cov st1 = clone_cov (s_cov st) (s_dim st) loc 6) by (rewrite Est1; reflexivity).
  assert (Hpid : po_id pose = Some (s_dim st)) by reflexivity.
  assert (Hpp : po_ptr pose = s_next st) by reflexivity.
  do 11 (split; [first [assumption|exact Hcl]|]).
  destruct (o_calib_dt (s_opts st)) eqn:Edt.
  - simpl in H, Hpid.
    destruct (find_top (s_vars st1) (s_dt st)) as [dtv|] eqn:Efd; [|discriminate].
    destruct (ty_id dtv) as [did|] eqn:Edid; [|discriminate].
    unfold guard in H.
    match type of H with context[if ?b then _ else _] => destruct b eqn:Eg end; [|discriminate].
    apply andb_prop in Eg. destruct Eg as [_ Eg]. apply Nat.ltb_lt in Eg.
    apply find_top_some in Efd. destruct Efd as [Hind Hpd].
    rewrite Hvars1 in Hind. apply in_app_or in Hind.
    destruct Hind as [Hind|[<-|[]]].
    2:{ exfalso. pose proof (ok_dt _ Hok) as HD. simpl in Hpd. rewrite <- Hpd in HD. simpl in HD. lia. }
    injection H as <-. simpl.
    do 10 (split; [auto; congruence|]). split; [rewrite Fc; reflexivity|].
    destruct (consecutive_in _ _ _ _ (ok_layout _ Hok) Hind) as (did' & E1 & _ & E2).
    rewrite Edid in E1. injection E1 as <-.
    exists dtv, did. do 3 (split; [auto|]). split.
    + simpl in Eg. rewrite Hdim1 in Eg.
      pose proof (ok_layout _ Hok) as HL.
      pose proof (vals_ok_pos dtv (proj1 (Forall_forall _ _) (ok_vals _ Hok) _ Hind)). lia.
    + rewrite Hdim1, Ev. reflexivity.
  - injection H as <-. simpl.
    do 10 (split; [auto; congruence|]). split; [rewrite Fc; reflexivity|]. reflexivity.
Qed.

Lemma augment_cov st w st' : state_ok st -> augment_clone st w = Ok st' ->
  exists imu loc, In (TImu imu) (s_vars st) /\ io_ptr imu = s_imu st /\ io_id imu = Some loc /\
    s_dim st' = (s_dim st + 6)%nat /\
    if o_calib_dt (s_opts st) then
      exists dtv did, In dtv (s_vars st) /\ ty_ptr dtv = s_dt st /\ ty_id dtv = Some did /\
        meq (s_dim st') (s_dim st') (s_cov st')
          (congr (s_dim st) (aug_J (s_dim st) loc did (pose_rate w (iv_v (io_val imu)))) (s_cov st))
    else meq (s_dim st') (s_dim st') (s_cov st')
           (congr (s_dim st) (aug_J (s_dim st) loc 0 (fun _ => 0)) (s_cov st)).
Proof.
  intros Hok H.
  destruct (augment_inv _ _ _ Hok H) as (_ & imu & loc & pose & st1 & Hin & Hp & Hid & Hle & Hcl & Hv1 & Hd1 &
    Hpv & Hpf & Hpid & Hc1 & Hv' & Hd' & _ & _ & _ & _ & _ & _ & _ & _ & _ & Hc).
  exists imu, loc. do 3 (split; [auto|]). split; [congruence|]. rewrite Hd', Hd1.
  destruct (o_calib_dt (s_opts st)).
  - destruct Hc as (dtv & did & A & B & C & D & E). exists dtv, did. do 3 (split; [auto|]).
    rewrite E, Hc1. apply dt_clone_cov; auto; lia.
  - rewrite Hc, Hc1. intros i j Hi Hj. rewrite clone_cov_eq by lia.
    rewrite (aug_congr (s_dim st) _ (s_cov st) (csrc (s_dim st) loc) (fun _ => 0) 0%nat).
    + ring.
    + intros k a. unfold aug_J, csrc. destruct (k <? s_dim st)%nat; ring.
    + unfold csrc; nbs; lia.
    + unfold csrc; nbs; lia.
    + lia.
Qed.

Lemma augment_ok st w st' : state_ok st -> augment_clone st w = Ok st' -> state_ok st'.
Proof.
  intros Hok H.
  destruct (augment_inv _ _ _ Hok H) as (_ & imu & loc & pose & st1 & Hin & Hp & Hid & Hle & Hcl & Hv1 & Hd1 &
    Hpv & Hpf & Hpid & Hc1 & Hv' & Hd' & Hn' & _ & _ & _ & Hdt & _).
  apply (state_ok_ext st1); auto.
  - pose proof (clone_frame _ _ _ _ Hok Hcl). intuition congruence.
  - eapply clone_ok; eauto.
Qed.

Lemma spsd_congr m n A P : spsd n P -> spsd m (congr n A P).
Proof. intros [H1 H2]. split; [apply sym_congr; auto|apply psd_congr; auto]. Qed.

Lemma spsd_augment st w st' : state_ok st -> augment_clone st w = Ok st' ->
  spsd (s_dim st) (s_cov st) -> spsd (s_dim st') (s_cov st').
Proof.
  intros Hok H HP. destruct (augment_cov _ _ _ Hok H) as (imu & loc & _ & _ & _ & _ & Hc).
  destruct (o_calib_dt (s_opts st)).
  - destruct Hc as (dtv & did & _ & _ & _ & E). eapply spsd_ext; [|apply spsd_congr; eauto].
    intros i j Hi Hj. symmetry. apply E; auto.
  - eapply spsd_ext; [|apply spsd_congr; eauto]. intros i j Hi Hj. symmetry. apply Hc; auto.
Qed.

Lemma augment_exit st w p : find_clone_time (s_clones st) (s_time st) = Some p -> augment_clone st w = Exit.
Proof. unfold augment_clone. intros ->. reflexivity. Qed.

Lemma find_clone_some l t p : find_clone_time l t = Some p -> In (t, p) l.
Proof.
  unfold find_clone_time. destruct (find _ l) as [e|] eqn:E; [|discriminate].
  intros H. injection H as <-. apply find_some in E. destruct E as [A B].
  apply Reqb_true in B. subst t. destruct e; auto.
Qed.
Lemma find_clone_none l t : find_clone_time l t = None <-> ~ In t (map fst l).
Proof.
  unfold find_clone_time. destruct (find _ l) as [e|] eqn:E; simpl.
  - split; [discriminate|]. intros H. exfalso. apply H. apply find_some in E. destruct E as [A B].
    apply Reqb_true in B. subst t. apply in_map; auto.
  - split; auto. intros _ Hin. apply in_map_iff in Hin. destruct Hin as (e & <- & Hin).
    apply (find_none _ _ E) in Hin. apply Reqb_false in Hin. auto.
Qed.

(** ** the window *)
Lemma margtimestep_acc l acc : fold_left (fun acc (e : R * nat) => match acc with
                          | None => Some (fst e)
                          | Some t => if Rltb (fst e) t then Some (fst e) else acc
                          end) l acc =
   match acc with
   | None => match l with [] => None | e :: l' =>
       Some (fold_left (fun m (e : R * nat) => if Rltb (fst e) m then fst e else m) l' (fst e)) end
   | Some m => Some (fold_left (fun m (e : R * nat) => if Rltb (fst e) m then fst e else m) l m)
   end.
Proof.
  assert (X : forall l m, fold_left (fun acc (e : R * nat) => match acc with
                          | None => Some (fst e)
                          | Some t => if Rltb (fst e) t then Some (fst e) else acc
                          end) l (Some m) =
     Some (fold_left (fun m (e : R * nat) => if Rltb (fst e) m then fst e else m) l m)).
  { clear. induction l as [|e l IH]; simpl; intros m; auto. destruct (Rltb (fst e) m); apply IH. }
  destruct acc; auto. destruct l; auto. simpl. apply X.
Qed.

Lemma fold_min l m : let r := fold_left (fun m (e : R * nat) => if Rltb (fst e) m then fst e else m) l m in
  (r = m \/ In r (map fst l)) /\ r <= m /\ forall e, In e l -> r <= fst e.
Proof.
  revert m. induction l as [|e l IH]; simpl; intros m.
  - split; [auto|]. split; [lra|tauto].
  - destruct (Rltb_spec (fst e) m) as [H|H].
    + destruct (IH (fst e)) as ([A|A] & B & C); (split; [|split; [lra|intros e' [<-|He']; [lra|auto]]]); auto.
    + destruct (IH m) as ([A|A] & B & C); (split; [|split; [lra|intros e' [<-|He']; [lra|auto]]]); auto.
Qed.

Lemma margtimestep_min st t : margtimestep st = Some t ->
  In t (map fst (s_clones st)) /\ forall e, In e (s_clones st) -> t <= fst e.
Proof.
  unfold margtimestep. rewrite margtimestep_acc. destruct (s_clones st) as [|e l]; [discriminate|].
  intros H. injection H as <-. destruct (fold_min l (fst e)) as (A & B & C). simpl. split.
  - destruct A as [->|A]; auto.
  - intros e' [<-|He']; auto.
Qed.
Lemma margtimestep_none st : margtimestep st = None -> s_clones st = [].
Proof. unfold margtimestep. rewrite margtimestep_acc. destruct (s_clones st); [auto|discriminate]. Qed.

Lemma marginalize_frame st p st' m : state_ok st -> marginalize st p = Ok (st', m) ->
  s_opts st' = s_opts st /\ s_time st' = s_time st /\ s_imu st' = s_imu st /\ s_dt st' = s_dt st /\
  s_clones st' = s_clones st /\ s_slam st' = s_slam st /\ s_cintr st' = s_cintr st /\
  s_cams st' = s_cams st /\ s_next st' = s_next st.
Proof.
  intros Hok H. destruct (marginalize_inv _ _ _ _ Hok H) as (l1 & marg & l2 & mid & _ & _ & _ & _ & _ & -> & _).
  simpl. auto 10.
Qed.

(** constructor of an object *)
Definition same_kind (t t' : ty) : Prop :=
  match t, t' with
  | TVec _, TVec _ | TV3 _, TV3 _ | TQuat _, TQuat _ | TPose _, TPose _ | TImu _, TImu _ => True
  | _, _ => False
  end.
Lemma same_kind_refl t : same_kind t t.
Proof. destruct t; exact I. Qed.
Lemma same_kind_trans a b c : same_kind a b -> same_kind b c -> same_kind a c.
Proof. destruct a, b; simpl; try tauto; destruct c; simpl; tauto. Qed.
Lemma set_id_kind t k : same_kind t (set_local_id t k).
Proof. destruct t; exact I. Qed.
Lemma shift_id_kind mid msz t : same_kind t (shift_id mid msz t).
Proof.
  unfold shift_id. destruct (ty_id t); [|apply same_kind_refl].
  destruct (mid <? n)%nat; [apply set_id_kind|apply same_kind_refl].
Qed.

(** exactly the variable with pointer [p] disappears *)
Lemma marginalize_vars st p st' m : state_ok st -> marginalize st p = Ok (st', m) ->
  (forall t, In t (s_vars st) -> ty_ptr t <> p ->
     exists t', In t' (s_vars st') /\ same_obj t t' /\ same_kind t t') /\
  (forall t', In t' (s_vars st') -> ty_ptr t' <> p /\
     exists t, In t (s_vars st) /\ same_obj t t' /\ same_kind t t').
Proof.
  intros Hok H.
  destruct (marginalize_inv _ _ _ _ Hok H) as (l1 & marg & l2 & mid & El & Hp & _ & _ & _ & -> & _). simpl.
  pose proof (ok_nodup _ Hok) as ND.
  assert (Hne : forall t, In t (l1 ++ l2) -> ty_ptr t <> p).
  { intros t Ht E. assert (E' : t = marg).
    { apply (nodup_ptr_inj (s_vars st)); auto; rewrite ?El, ?Hp; auto.
      - apply in_app_or in Ht. apply in_or_app. simpl. tauto.
      - apply in_or_app; simpl; auto. }
    subst t. rewrite El, flat_map_app in ND. simpl in ND.
    assert (X : In (ty_ptr marg) (flat_map ty_ptrs l1 ++ flat_map ty_ptrs l2)).
    { rewrite <- flat_map_app. apply ptr_in_flat. auto. }
    pose proof (ty_ptr_in_ptrs marg) as Y. revert ND X Y. generalize (ty_ptr marg), (ty_ptrs marg).
    intros q lm. clear. intros ND X Y.
    apply in_split in Y. destruct Y as (a & b & ->).
    rewrite <- !app_assoc in ND. simpl in ND. rewrite app_assoc in ND.
    apply NoDup_remove_2 in ND. apply ND. apply in_app_or in X.
    rewrite !in_app_iff. tauto. }
  split.
  - intros t Ht Hn. rewrite El in Ht. apply in_app_or in Ht. destruct Ht as [Ht|[<-|Ht]].
    + exists t. split; [apply in_or_app; auto|]. split; [repeat split; auto|apply same_kind_refl].
    + congruence.
    + exists (shift_id mid (ty_size marg) t). split.
      * apply in_or_app. right. apply in_map; auto.
      * split; [apply shift_id_same|apply shift_id_kind].
  - intros t' Ht'. apply in_app_or in Ht'. destruct Ht' as [Ht'|Ht'].
    + split; [apply Hne; apply in_or_app; auto|]. exists t'. rewrite El.
      split; [apply in_or_app; auto|]. split; [repeat split; auto|apply same_kind_refl].
    + apply in_map_iff in Ht'. destruct Ht' as (t & <- & Ht).
      assert (X : same_obj t (shift_id mid (ty_size marg) t)) by apply shift_id_same.
      split.
      * rewrite ty_ptr_hd. destruct X as (-> & _). rewrite <- ty_ptr_hd. apply Hne. apply in_or_app; auto.
      * exists t. rewrite El. split; [apply in_or_app; simpl; auto|]. split; auto. apply shift_id_kind.
Qed.

Lemma old_clone_inv st st' : state_ok st -> marginalize_old_clone st = Ok st' ->
  (st' = st /\ (Z.of_nat (length (s_clones st)) <= o_max_clones (s_opts st))%Z) \/
  (exists t p st1 m, (o_max_clones (s_opts st) < Z.of_nat (length (s_clones st)))%Z /\
     In (t, p) (s_clones st) /\ (forall e, In e (s_clones st) -> t <= fst e) /\
     marginalize st p = Ok (st1, m) /\ state_ok st1 /\
     s_clones st1 = s_clones st /\
     st' = set_clones st1 (filter (fun e => negb (Reqb (fst e) t)) (s_clones st))).
Proof.
  intros Hok. unfold marginalize_old_clone.
  destruct (Z.ltb_spec (o_max_clones (s_opts st)) (Z.of_nat (length (s_clones st)))) as [Hlt|Hge].
  - destruct (margtimestep st) as [t|] eqn:Em; [|discriminate].
    destruct (find_clone_time (s_clones st) t) as [p|] eqn:Ef; [|discriminate].
    intros H. apply obind_ok in H. destruct H as ([st1 m] & Hm & H). injection H as <-. simpl.
    right. exists t, p, st1, m.
    pose proof (marginalize_frame _ _ _ _ Hok Hm) as F. destruct F as (_ & _ & _ & _ & F & _).
    rewrite F. split; auto. split; [apply find_clone_some; auto|].
    split; [apply (margtimestep_min _ _ Em)|]. split; auto. split; [eapply marginalize_ok; eauto|auto].
  - intros H. injection H as <-. left. split; auto.
Qed.

Lemma set_clones_ok st c : state_ok st -> state_ok (set_clones st c).
Proof. intros H. apply (state_ok_ext st); auto. Qed.
Lemma set_slam_ok st c : state_ok st -> state_ok (set_slam st c).
Proof. intros H. apply (state_ok_ext st); auto. Qed.
Lemma set_time_ok st c : state_ok st -> state_ok (set_time st c).
Proof. intros H. apply (state_ok_ext st); auto. Qed.

Lemma old_clone_ok st st' : state_ok st -> marginalize_old_clone st = Ok st' -> state_ok st'.
Proof.
  intros Hok H. destruct (old_clone_inv _ _ Hok H) as [[-> _]|(t & p & st1 & m & _ & _ & _ & _ & H1 & _ & ->)]; auto.
  apply set_clones_ok; auto.
Qed.
Lemma spsd_old_clone st st' : state_ok st -> marginalize_old_clone st = Ok st' ->
  spsd (s_dim st) (s_cov st) -> spsd (s_dim st') (s_cov st').
Proof.
  intros Hok H HP. destruct (old_clone_inv _ _ Hok H) as [[-> _]|(t & p & st1 & m & _ & _ & _ & Hm & H1 & _ & ->)]; auto.
  simpl. apply (spsd_marginalize st p st1 m); auto.
Qed.

(** removing the (unique) entry with key t *)
Lemma filter_key_length (l : list (R * nat)) t p : NoDup (map fst l) -> In (t, p) l ->
  length l = S (length (filter (fun e => negb (Reqb (fst e) t)) l)).
Proof.
  induction l as [|e l IH]; simpl; [tauto|]. intros ND [->|Hin].
  - simpl. destruct (Reqb_spec t t) as [_|]; [|tauto]. simpl. f_equal.
    inversion ND as [|? ? N1 N2]; subst. clear -N1. induction l as [|a l IH]; simpl; auto.
    destruct (Reqb_spec (fst a) t) as [E|E]; simpl.
    + exfalso. apply N1. subst. simpl; auto.
    + f_equal. apply IH. intros H. apply N1. simpl; auto.
  - inversion ND as [|? ? N1 N2]; subst. destruct (Reqb_spec (fst e) t) as [E|E]; simpl.
    + exfalso. apply N1. rewrite E. change t with (fst (t, p)). apply in_map; auto.
    + f_equal. apply IH; auto.
Qed.

Lemma slam_loop_inv : forall todo st kept st', state_ok st -> sym (s_dim st) (s_cov st) ->
  marg_slam_loop st todo kept = Ok st' ->
  state_ok st' /\ s_slam st' = kept ++ filter (fun e => negb (slam_kill (s_opts st) e)) todo /\
  s_opts st' = s_opts st /\ s_time st' = s_time st /\ s_imu st' = s_imu st /\ s_dt st' = s_dt st /\
  s_clones st' = s_clones st /\ s_cintr st' = s_cintr st /\ s_cams st' = s_cams st /\ s_next st' = s_next st /\
  (exists f, projects f st st') /\
  (forall t, In t (s_vars st) -> ~ In (ty_ptr t) (map (fun e => fst (snd e)) (filter (slam_kill (s_opts st)) todo)) ->
     exists t', In t' (s_vars st') /\ same_obj t t' /\ same_kind t t') /\
  (forall t', In t' (s_vars st') ->
     ~ In (ty_ptr t') (map (fun e => fst (snd e)) (filter (slam_kill (s_opts st)) todo)) /\
     exists t, In t (s_vars st) /\ same_obj t t' /\ same_kind t t').
Proof.
  induction todo as [|e todo IH]; simpl; intros st kept st' Hok HS H.
  - injection H as <-. simpl. rewrite app_nil_r. split; [apply set_slam_ok; auto|].
    do 9 (split; [auto|]). split.
    + exists (fun i => i). destruct (projects_refl st Hok) as (A & B & C). split; [exact A|split; [exact B|exact C]].
    + split.
      * intros t Ht _. exists t. split; auto. split; [repeat split; auto|apply same_kind_refl].
      * intros t Ht. split; [tauto|]. exists t. split; auto. split; [repeat split; auto|apply same_kind_refl].
  - destruct (slam_kill (s_opts st) e) eqn:Ek; simpl.
    + apply obind_ok in H. destruct H as ([st1 m] & Hm & H). simpl in H.
      pose proof (marginalize_ok _ _ _ _ Hok Hm) as Hok1.
      pose proof (marginalize_frame _ _ _ _ Hok Hm) as (F1 & F2 & F3 & F4 & F5 & F6 & F7 & F8 & F9).
      destruct (marginalize_projects _ _ _ _ Hok HS Hm) as (f & Hf).
      assert (HS1 : sym (s_dim st1) (s_cov st1)).
      { destruct Hf as (A & B & _). intros i j Hi Hj. unfold mtr. rewrite !B by auto. apply HS; auto. }
      destruct (marginalize_vars _ _ _ _ Hok Hm) as (MV1 & MV2).
      destruct (IH _ _ _ Hok1 HS1 H) as (G0 & G1 & G2 & G3 & G4 & G5 & G6 & G7 & G8 & G9 & (g & Hg) & G10 & G11).
      rewrite F1 in *.
      split; auto. split; [auto|]. do 8 (split; [congruence|]). split; [exists (fun i => f (g i)); eapply projects_trans; eauto|].
      split.
      * intros t Ht Hn. destruct (MV1 t Ht) as (t1 & A & B & C); [intros E; apply Hn; auto|].
        destruct (G10 t1 A) as (t' & A' & B' & C').
        { intros X. apply Hn. right. rewrite ty_ptr_hd in X. destruct B as (B & _). rewrite B in X.
          rewrite ty_ptr_hd. auto. }
        exists t'. split; auto. split; [eapply same_obj_trans; eauto|eapply same_kind_trans; eauto].
      * intros t' Ht'. destruct (G11 t' Ht') as (A & t1 & B & C & D). destruct (MV2 t1 B) as (E & t & E1 & E2 & E3).
        split.
        { intros [X|X]; [|auto]. apply E. rewrite ty_ptr_hd. destruct C as (C & _). rewrite <- C, <- ty_ptr_hd. auto. }
        exists t. split; auto. split; [eapply same_obj_trans; eauto|eapply same_kind_trans; eauto].
    + destruct (IH _ _ _ Hok HS H) as (G0 & G1 & G2). split; auto. split; auto.
      rewrite G1, <- app_assoc. reflexivity.
Qed.
