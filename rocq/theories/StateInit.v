(** Construction of the state. *)
From Coq Require Import Reals List Arith Lia Lra Bool ZArith.
From Verif Require Import RBool Outcome Lin GeoModel GeoSpec GivensModel TypesModel StateModel StateSpec PdInv StateLin
  StateEkf TypesProofs GeoProofs StateOps StateOps2.
Import ListNotations.
Open Scope R_scope.

(** ** the variable list *)
Record binv (b : list ty * nat) (B : nat) (e : list (nat * nat)) : Prop := mkB
  { b_layout : consecutive 0 (fst b) (snd b);
    b_subs : Forall subs_ok (fst b); b_vals : Forall vals_ok (fst b); b_unit : Forall ori_unit (fst b);
    b_nodup : NoDup (flat_map ty_ptrs (fst b));
    b_lt : forall p, In p (flat_map ty_ptrs (fst b)) -> (p < B)%nat;
    b_exp : map (fun t => (ty_ptr t, ty_size t)) (fst b) = e }.

Lemma binv_mono b B B' e : (B <= B')%nat -> binv b B e -> binv b B' e.
Proof. intros H [A1 A2 A3 A4 A5 A6 A7]. constructor; auto. intros p Hp. apply A6 in Hp. lia. Qed.

Lemma NoDup_disj {A} (l1 l2 : list A) : NoDup l1 -> NoDup l2 -> (forall x, In x l1 -> ~ In x l2) -> NoDup (l1 ++ l2).
Proof.
  intros H1 H2 H. induction l1 as [|a l1 IH]; simpl; auto. inversion H1; subst. constructor.
  - intros Hin. apply in_app_or in Hin. destruct Hin; auto. apply (H a); simpl; auto.
  - apply IH; auto. intros x Hx. apply H. simpl; auto.
Qed.

Lemma push_inv b B e t B' : binv b B e -> vals_ok t -> ori_unit t -> NoDup (ty_ptrs t) ->
  (forall p, In p (ty_ptrs t) -> (B <= p < B')%nat) -> (B <= B')%nat ->
  binv (push_var b t) B' (e ++ [(ty_ptr t, ty_size t)]).
Proof.
  intros [A1 A2 A3 A4 A5 A6 A7] V U N P HB. unfold push_var. constructor; simpl.
  - apply consecutive_app. exists (snd b). split; auto. simpl. rewrite set_id_id, set_id_size. auto.
  - apply Forall_app. split; auto. constructor; auto. apply set_id_subs.
  - apply Forall_app. split; auto. constructor; auto. apply set_id_vals; auto.
  - apply Forall_app. split; auto. constructor; auto. apply set_id_unit; auto.
  - rewrite flat_map_app. simpl. rewrite app_nil_r, set_id_ptrs. apply NoDup_disj; auto.
    intros x H1 H2. apply A6 in H1. apply P in H2. lia.
  - intros p Hp. rewrite flat_map_app in Hp. simpl in Hp. rewrite app_nil_r, set_id_ptrs in Hp.
    apply in_app_or in Hp. destruct Hp as [Hp|Hp]; [apply A6 in Hp; lia|apply P in Hp; lia].
  - rewrite map_app, A7. simpl. rewrite set_id_ptr, set_id_size. reflexivity.
Qed.

Lemma push_if_inv c b B e t B' : binv b B e -> vals_ok t -> ori_unit t -> NoDup (ty_ptrs t) ->
  (forall p, In p (ty_ptrs t) -> (B <= p < B')%nat) -> (B <= B')%nat ->
  binv (push_if c t b) B' (e ++ if c then [(ty_ptr t, ty_size t)] else []).
Proof.
  intros Hb V U N P HB. destruct c; simpl.
  - eapply push_inv; eauto.
  - rewrite app_nil_r. eapply binv_mono; eauto.
Qed.

Lemma new_vec_vals p n : (0 < n)%nat -> vals_ok (TVec (new_vec p n)).
Proof. intros H. simpl. rewrite repeat_length. auto. Qed.

Definition exp_sizes (o : opts) : list (nat * nat) := map (fun e => (fst e, length (snd e))) (expected o).

Definition cam_exp (o : opts) (i : nat) : list (nat * list R) :=
  (if o_calib_pose o then [(ptr_pose i, repeat (5 / 1000) 3 ++ repeat (15 / 1000) 3)] else []) ++
  (if o_calib_intr o then [(ptr_intr i, repeat 1 4 ++ repeat (5 / 1000) 4)] else []).
Definition sz (e : nat * list R) : nat * nat := (fst e, length (snd e)).

Lemma cams_inv o K : forall i0 b e, binv b (13 + 4 * i0) e ->
  binv (fold_left (fun b i =>
     push_if (o_calib_intr o) (TVec (new_vec (ptr_intr i) 8))
       (push_if (o_calib_pose o) (TPose (new_pose (ptr_pose i))) b)) (seq i0 K) b)
    (13 + 4 * (i0 + K)) (e ++ map sz (flat_map (cam_exp o) (seq i0 K))).
Proof.
  induction K as [|K IH]; intros i0 b e Hb; simpl.
  - rewrite app_nil_r. rewrite Nat.add_0_r. auto.
  - replace (i0 + S K)%nat with (S i0 + K)%nat by lia.
    rewrite map_app, app_assoc. apply IH.
    assert (E : map sz (cam_exp o i0) =
      (if o_calib_pose o then [(ptr_pose i0, 6%nat)] else []) ++ (if o_calib_intr o then [(ptr_intr i0, 8%nat)] else [])).
    { unfold cam_exp. destruct (o_calib_pose o), (o_calib_intr o); reflexivity. }
    rewrite E, app_assoc.
    apply (push_if_inv (o_calib_intr o) _ (16 + 4 * i0) _ (TVec (new_vec (ptr_intr i0) 8))).
    + apply (push_if_inv (o_calib_pose o) _ (13 + 4 * i0) _ (TPose (new_pose (ptr_pose i0)))); auto.
      * simpl. unfold pose_vals_ok, quat_ok; simpl. auto.
      * simpl. unfold unit_q, qid; simpl. ring.
      * simpl. unfold pose_ptrs, ptr_pose; simpl. repeat constructor; simpl; lia.
      * intros p Hp. simpl in Hp. unfold pose_ptrs, ptr_pose in Hp; simpl in Hp. lia.
      * lia.
    + apply new_vec_vals; lia.
    + exact I.
    + simpl. repeat constructor. simpl; tauto.
    + intros p Hp. simpl in Hp. unfold ptr_intr in Hp. lia.
    + lia.
Qed.

Lemma app_if {A} (c d : bool) (x : list A) : (if c && d then x else []) = (if c then if d then x else [] else []).
Proof. destruct c, d; reflexivity. Qed.

Lemma build_vars_inv o : binv (build_vars o) (13 + 4 * o_ncams o) (map sz (expected o)).
Proof.
  unfold build_vars.
  assert (H0 : binv (push_var ([], 0%nat) (TImu (new_imu ptr_imu))) 7 ([] ++ [(ptr_imu, 15%nat)])).
  { apply (push_inv _ 0 [] (TImu (new_imu ptr_imu)) 7).
    - constructor; simpl; auto; try constructor. tauto.
    - simpl. unfold pose_vals_ok, quat_ok; simpl. auto.
    - simpl. unfold unit_q, qid; simpl. ring.
    - change (NoDup (seq 0 7)). apply seq_NoDup.
    - intros p Hp. change (In p (seq 0 7)) in Hp. apply in_seq in Hp. lia.
    - lia. }
  pose proof (push_if_inv (o_calib_imu o) _ 7 _ (TVec (new_dm ptr_dw)) 8 H0) as H1.
  pose proof (push_if_inv (o_calib_imu o) _ 8 _ (TVec (new_dm ptr_da)) 9
     (H1 ltac:(simpl; auto with arith) I ltac:(repeat constructor; simpl; tauto) ltac:(simpl; intros; unfold ptr_dw in *; lia) ltac:(lia))) as H2.
  pose proof (push_if_inv (o_calib_imu o && o_calib_gsens o) _ 9 _ (TVec (new_vec ptr_tg 9)) 10
     (H2 ltac:(simpl; auto with arith) I ltac:(repeat constructor; simpl; tauto) ltac:(simpl; intros; unfold ptr_da in *; lia) ltac:(lia))) as H3.
  pose proof (push_if_inv (o_calib_imu o && o_kalibr o) _ 10 _ (TQuat (new_quat ptr_gyro)) 11
     (H3 ltac:(simpl; auto with arith) I ltac:(repeat constructor; simpl; tauto) ltac:(simpl; intros; unfold ptr_tg in *; lia) ltac:(lia))) as H4.
  assert (QU : forall p, ori_unit (TQuat (new_quat p))) by (intros; simpl; unfold unit_q, qid; simpl; ring).
  pose proof (push_if_inv (o_calib_imu o && negb (o_kalibr o)) _ 11 _ (TQuat (new_quat ptr_acc)) 12
     (H4 ltac:(split; reflexivity) (QU _) ltac:(repeat constructor; simpl; tauto) ltac:(simpl; intros; unfold ptr_gyro in *; lia) ltac:(lia))) as H5.
  pose proof (push_if_inv (o_calib_dt o) _ 12 _ (TVec (new_vec ptr_dt 1)) 13
     (H5 ltac:(split; reflexivity) (QU _) ltac:(repeat constructor; simpl; tauto) ltac:(simpl; intros; unfold ptr_acc in *; lia) ltac:(lia))) as H6.
  specialize (H6 ltac:(simpl; auto with arith) I ltac:(repeat constructor; simpl; tauto) ltac:(simpl; intros; unfold ptr_dt in *; lia) ltac:(lia)).
  pose proof (cams_inv o (o_ncams o) 0 _ _ H6) as H7. rewrite Nat.add_0_l in H7.
  match type of H7 with binv _ _ ?e => assert (E : e = map sz (expected o)) end.
  { unfold expected. rewrite !map_app. change (flat_map (fun i => _) (seq 0 (o_ncams o))) with (flat_map (cam_exp o) (seq 0 (o_ncams o))).
    rewrite !app_if. destruct (o_calib_imu o), (o_calib_gsens o), (o_kalibr o), (o_calib_dt o); reflexivity. }
  rewrite E in H7. exact H7.
Qed.

(** ** priors *)
Definition asg := (nat * nat * nat * R)%type.
Definition do_asg (vars : list ty) (C : mat) (a : asg) : outcome mat :=
  let '(p, off, k, s) := a in set_prior vars p off k s C.
Definition assigns (o : opts) : list asg :=
  (if o_calib_imu o then [(ptr_dw, 0%nat, 6%nat, 5 / 1000)] else []) ++
  (if o_calib_imu o then [(ptr_da, 0%nat, 6%nat, 8 / 1000)] else []) ++
  (if o_calib_imu o && o_calib_gsens o then [(ptr_tg, 0%nat, 9%nat, 5 / 1000)] else []) ++
  (if o_calib_imu o && o_kalibr o then [(ptr_gyro, 0%nat, 3%nat, 5 / 1000)] else []) ++
  (if o_calib_imu o && negb (o_kalibr o) then [(ptr_acc, 0%nat, 3%nat, 5 / 1000)] else []) ++
  (if o_calib_dt o then [(ptr_dt, 0%nat, 1%nat, 1 / 100)] else []) ++
  (if o_calib_pose o then flat_map (fun i => [(ptr_pose i, 0%nat, 3%nat, 5 / 1000); (ptr_pose i, 3%nat, 3%nat, 15 / 1000)])
                            (seq 0 (o_ncams o)) else []) ++
  (if o_calib_intr o then flat_map (fun i => [(ptr_intr i, 0%nat, 4%nat, 1); (ptr_intr i, 4%nat, 4%nat, 5 / 1000)])
                            (seq 0 (o_ncams o)) else []).

Lemma ofold_app {A S} (f : S -> A -> outcome S) l1 l2 s :
  ofold f (l1 ++ l2) s = obind (ofold f l1 s) (ofold f l2).
Proof.
  revert s. induction l1 as [|a l1 IH]; simpl; intros s; auto. destruct (f s a); simpl; auto.
Qed.

Lemma ofold_flat vars (g : nat -> asg) (h : nat -> asg) l C :
  ofold (do_asg vars) (flat_map (fun i => [g i; h i]) l) C =
  ofold (fun C i => do A <- do_asg vars C (g i); do_asg vars A (h i)) l C.
Proof.
  revert C. induction l as [|i l IH]; simpl; intros C; auto.
  destruct (do_asg vars C (g i)) as [A| |]; simpl; auto. destruct (do_asg vars A (h i)) as [B| |]; simpl; auto.
Qed.

Lemma ofold_one vars a C : ofold (do_asg vars) [a] C = do_asg vars C a.
Proof. simpl. destruct (do_asg vars C a); reflexivity. Qed.

Lemma when_asg vars c p off k s C : when c (set_prior vars p off k s) C =
  ofold (do_asg vars) (if c then [(p, off, k, s)] else []) C.
Proof. destruct c; [rewrite ofold_one|]; reflexivity. Qed.

Lemma when_flat vars c (g h : nat -> asg) l C :
  when c (ofold (fun C i => do A <- do_asg vars C (g i); do_asg vars A (h i)) l) C =
  ofold (do_asg vars) (if c then flat_map (fun i => [g i; h i]) l else []) C.
Proof. destruct c; [simpl; rewrite <- ofold_flat|]; reflexivity. Qed.

Lemma obind_assoc {A B D} (x : outcome A) (f : A -> outcome B) (g : B -> outcome D) :
  obind (obind x f) g = obind x (fun a => obind (f a) g).
Proof. destruct x; reflexivity. Qed.

Lemma obind_ext {A B} (x : outcome A) (f g : A -> outcome B) : (forall a, f a = g a) -> obind x f = obind x g.
Proof. intros H. destruct x; simpl; auto. Qed.

Lemma build_cov_asg o vars n : build_cov o vars n = ofold (do_asg vars) (assigns o) (mscal (1 / 1000 * (1 / 1000)) mid).
Proof.
  unfold build_cov, assigns.
  do 6 (rewrite ofold_app, <- when_asg; apply obind_ext; intros ?).
  rewrite ofold_app, <- (when_flat vars (o_calib_pose o)). apply obind_ext; intros C7.
  rewrite <- (when_flat vars (o_calib_intr o)). reflexivity.
Qed.

(** value of one diagonal slot (pointer, component) after a list of assignments *)
Definition slot_step (p a : nat) (v : R) (x : asg) : R :=
  let '(p', off, k, s) := x in if (p' =? p)%nat && (off <=? a)%nat && (a <? off + k)%nat then s * s else v.
Definition slot (l : list asg) (p a : nat) (v : R) : R := fold_left (slot_step p a) l v.

Lemma asg_ok vars n l C : consecutive 0 vars n -> NoDup (flat_map ty_ptrs vars) ->
  (forall p off k s, In (p, off, k, s) l -> exists t, In t vars /\ ty_ptr t = p /\ (off + k <= ty_size t)%nat) ->
  (forall i j, (i < n)%nat -> (j < n)%nat -> i <> j -> C i j = 0) ->
  exists C', ofold (do_asg vars) l C = Ok C' /\
    (forall i j, (i < n)%nat -> (j < n)%nat -> i <> j -> C' i j = 0) /\
    (forall t id a, In t vars -> ty_id t = Some id -> (a < ty_size t)%nat ->
       C' (id + a)%nat (id + a)%nat = slot l (ty_ptr t) a (C (id + a)%nat (id + a)%nat)).
Proof.
  intros Hc ND. revert C. induction l as [|[[[p off] k] s] l IH]; intros C Hl HC; simpl.
  - exists C. auto.
  - destruct (Hl p off k s (or_introl eq_refl)) as (t & Ht & Hp & Hsz).
    destruct (consecutive_in _ _ _ _ Hc Ht) as (id & Hid & _ & Hb).
    unfold set_prior. rewrite <- Hp, (find_top_in_nodup vars t ND Ht), Hid. simpl.
    destruct (IH (set_block C (id + off) (id + off) k k (mscal (s * s) mid))) as (C' & E & A & B).
    + intros p' off' k' s' Hin. apply (Hl p' off' k' s'). simpl; auto.
    + intros i j Hi Hj Hij. unfold set_block, mscal, mid.
      destruct ((id + off <=? i)%nat && (i <? id + off + k)%nat && (id + off <=? j)%nat && (j <? id + off + k)%nat) eqn:G; auto.
      assert (E : (i - (id + off) =? j - (id + off))%nat = false).
      { repeat rewrite andb_true_iff in G. destruct G as [[[G1 G2] G3] G4].
        apply Nat.leb_le in G1, G3. apply Nat.eqb_neq. lia. }
      rewrite E. ring.
    + exists C'. split; [exact E|]. split; [exact A|].
      intros t' id' a Ht' Hid' Ha. rewrite (B t' id' a Ht' Hid' Ha). f_equal.
      unfold set_block, mscal, mid, slot_step.
      destruct (ty_ptr t =? ty_ptr t')%nat eqn:Ep.
      * apply Nat.eqb_eq in Ep. assert (t = t') by (eapply nodup_ptr_inj; eauto). subst t'.
        assert (id' = id) by congruence. subst id'.
        rewrite Nat.eqb_refl. simpl.
        destruct (off <=? a)%nat eqn:G1, (a <? off + k)%nat eqn:G2; simpl.
        -- apply Nat.leb_le in G1; apply Nat.ltb_lt in G2.
           assert (E1 : (id + off <=? id + a)%nat = true) by (apply Nat.leb_le; lia).
           assert (E2 : (id + a <? id + off + k)%nat = true) by (apply Nat.ltb_lt; lia).
           rewrite E1, E2. simpl. ring.
        -- apply Nat.ltb_ge in G2. assert (E2 : (id + a <? id + off + k)%nat = false) by (apply Nat.ltb_ge; lia).
           rewrite E2, !andb_false_r. reflexivity.
        -- apply Nat.leb_gt in G1. assert (E1 : (id + off <=? id + a)%nat = false) by (apply Nat.leb_gt; lia).
           rewrite E1. reflexivity.
        -- apply Nat.leb_gt in G1. assert (E1 : (id + off <=? id + a)%nat = false) by (apply Nat.leb_gt; lia).
           rewrite E1. reflexivity.
      * simpl. assert (G : ((id + off <=? id' + a)%nat && (id' + a <? id + off + k)%nat) = false).
        { apply not_true_is_false. intros G. apply andb_true_iff in G. destruct G as [G1 G2].
          apply Nat.leb_le in G1; apply Nat.ltb_lt in G2.
          apply In_nth_error in Ht. destruct Ht as [i Hi]. apply In_nth_error in Ht'. destruct Ht' as [i' Hi'].
          assert (i = i').
          { apply (consecutive_owner_unique _ _ _ (id' + a) Hc i t i' t'); auto.
            - exists id. split; auto. lia.
            - exists id'. split; auto. lia. }
          subst i'. rewrite Hi in Hi'. injection Hi' as <-. rewrite Nat.eqb_refl in Ep. discriminate. }
        rewrite G. reflexivity.
Qed.

Lemma slot_app l1 l2 p a v : slot (l1 ++ l2) p a v = slot l2 p a (slot l1 p a v).
Proof. apply fold_left_app. Qed.

Lemma slot_none l p a v : (forall p' off k s, In (p', off, k, s) l -> p' <> p) -> slot l p a v = v.
Proof.
  revert v. induction l as [|[[[p' off] k] s] l IH]; intros v H; simpl; auto.
  assert (E : (p' =? p)%nat = false) by (apply Nat.eqb_neq; apply (H p' off k s); simpl; auto).
  rewrite E. simpl. apply IH. intros q o' k' s' Hin. apply (H q o' k' s'); simpl; auto.
Qed.

Lemma slot_flat (g h : nat -> asg) n i p a v : (i < n)%nat ->
  (forall j, (j < n)%nat -> j <> i -> fst (fst (fst (g j))) <> p /\ fst (fst (fst (h j))) <> p) ->
  slot (flat_map (fun j => [g j; h j]) (seq 0 n)) p a v = slot [g i; h i] p a v.
Proof.
  intros Hi Hn. replace n with (i + (1 + (n - i - 1)))%nat by lia.
  rewrite seq_app, flat_map_app, slot_app.
  rewrite (slot_none (flat_map (fun j => [g j; h j]) (seq 0 i))).
  - rewrite seq_app. simpl.
    change (slot (flat_map (fun j => [g j; h j]) (seq (i + 1) (n - i - 1))) p a (slot_step p a (slot_step p a v (g i)) (h i)) = slot [g i; h i] p a v).
    rewrite slot_none; [reflexivity|].
    intros p' off k s Hin. apply in_flat_map in Hin. destruct Hin as (j & Hj & Hin). apply in_seq in Hj.
    destruct (Hn j) as [A B]; [lia|lia|].
    destruct Hin as [E|[E|[]]]; [rewrite E in A|rewrite E in B]; auto.
  - intros p' off k s Hin. apply in_flat_map in Hin. destruct Hin as (j & Hj & Hin). apply in_seq in Hj.
    destruct (Hn j) as [A B]; [lia|lia|].
    destruct Hin as [E|[E|[]]]; [rewrite E in A|rewrite E in B]; auto.
Qed.

Lemma nth_repeat' (x d : R) n a : (a < n)%nat -> nth a (repeat x n) d = x.
Proof. revert a. induction n; intros [|a]; simpl; intros; auto; try lia. apply IHn. lia. Qed.

(** prefix of the assignments that concerns no camera *)
Definition asg_imu (o : opts) : list asg :=
  (if o_calib_imu o then [(ptr_dw, 0%nat, 6%nat, 5 / 1000)] else []) ++
  (if o_calib_imu o then [(ptr_da, 0%nat, 6%nat, 8 / 1000)] else []) ++
  (if o_calib_imu o && o_calib_gsens o then [(ptr_tg, 0%nat, 9%nat, 5 / 1000)] else []) ++
  (if o_calib_imu o && o_kalibr o then [(ptr_gyro, 0%nat, 3%nat, 5 / 1000)] else []) ++
  (if o_calib_imu o && negb (o_kalibr o) then [(ptr_acc, 0%nat, 3%nat, 5 / 1000)] else []) ++
  (if o_calib_dt o then [(ptr_dt, 0%nat, 1%nat, 1 / 100)] else []).
Definition asg_pose (o : opts) : list asg :=
  if o_calib_pose o then flat_map (fun i => [(ptr_pose i, 0%nat, 3%nat, 5 / 1000); (ptr_pose i, 3%nat, 3%nat, 15 / 1000)])
                            (seq 0 (o_ncams o)) else [].
Definition asg_intr (o : opts) : list asg :=
  if o_calib_intr o then flat_map (fun i => [(ptr_intr i, 0%nat, 4%nat, 1); (ptr_intr i, 4%nat, 4%nat, 5 / 1000)])
                            (seq 0 (o_ncams o)) else [].
Lemma assigns_split o : assigns o = asg_imu o ++ asg_pose o ++ asg_intr o.
Proof. unfold assigns, asg_imu. rewrite <- !app_assoc. reflexivity. Qed.

Lemma asg_imu_ptr o p off k s : In (p, off, k, s) (asg_imu o) -> (7 <= p < 13)%nat.
Proof.
  unfold asg_imu, ptr_dw, ptr_da, ptr_tg, ptr_gyro, ptr_acc, ptr_dt.
  destruct (o_calib_imu o), (o_calib_gsens o), (o_kalibr o), (o_calib_dt o); simpl; intros H;
    repeat (destruct H as [H|H]; [injection H as <- <- <- <-; lia|]); tauto.
Qed.
Lemma asg_pose_ptr o p off k s : In (p, off, k, s) (asg_pose o) -> exists i, (i < o_ncams o)%nat /\ p = ptr_pose i /\ (off + k <= 6)%nat /\ o_calib_pose o = true.
Proof.
  unfold asg_pose. destruct (o_calib_pose o); simpl; [|tauto]. intros H. apply in_flat_map in H. destruct H as (i & Hi & H).
  apply in_seq in Hi. exists i. destruct H as [E|[E|[]]]; injection E as <- <- <- <-; repeat split; auto; lia.
Qed.
Lemma asg_intr_ptr o p off k s : In (p, off, k, s) (asg_intr o) -> exists i, (i < o_ncams o)%nat /\ p = ptr_intr i /\ (off + k <= 8)%nat /\ o_calib_intr o = true.
Proof.
  unfold asg_intr. destruct (o_calib_intr o); simpl; [|tauto]. intros H. apply in_flat_map in H. destruct H as (i & Hi & H).
  apply in_seq in Hi. exists i. destruct H as [E|[E|[]]]; injection E as <- <- <- <-; repeat split; auto; lia.
Qed.

Definition exp_imu (o : opts) : list (nat * list R) :=
  [(ptr_imu, repeat (1 / 1000) 15)] ++
  (if o_calib_imu o then
     [(ptr_dw, repeat (5 / 1000) 6); (ptr_da, repeat (8 / 1000) 6)] ++
     (if o_calib_gsens o then [(ptr_tg, repeat (5 / 1000) 9)] else []) ++
     (if o_kalibr o then [(ptr_gyro, repeat (5 / 1000) 3)] else [(ptr_acc, repeat (5 / 1000) 3)])
   else []) ++
  (if o_calib_dt o then [(ptr_dt, [1 / 100])] else []).
Lemma expected_split o : expected o = exp_imu o ++ flat_map (cam_exp o) (seq 0 (o_ncams o)).
Proof. unfold expected, exp_imu. rewrite <- !app_assoc. reflexivity. Qed.

Ltac slot_small :=
  let a := fresh "a" in let Ha := fresh "Ha" in
  intros a Ha; first [exfalso; lia | destruct a as [|a]; [reflexivity|]; revert a Ha; slot_small].

Lemma slot_imu o e a : In e (exp_imu o) -> (a < length (snd e))%nat ->
  slot (asg_imu o) (fst e) a (1 / 1000 * (1 / 1000)) = (nth a (snd e) 0)².
Proof.
  intros He Ha. unfold Rsqr. unfold exp_imu in He. unfold asg_imu.
  destruct (o_calib_imu o), (o_calib_gsens o), (o_kalibr o), (o_calib_dt o); simpl in He;
    repeat (destruct He as [<-|He]; [cbn [fst snd repeat length] in *; revert a Ha; slot_small|]); destruct He.
Qed.

Lemma slot_expected o e a : In e (expected o) -> (a < length (snd e))%nat ->
  slot (assigns o) (fst e) a (1 / 1000 * (1 / 1000)) = (nth a (snd e) 0)².
Proof.
  intros He Ha. rewrite expected_split in He. rewrite assigns_split, !slot_app.
  apply in_app_or in He. destruct He as [He|He].
  - assert (P : (fst e < 13)%nat).
    { unfold exp_imu, ptr_imu, ptr_dw, ptr_da, ptr_tg, ptr_gyro, ptr_acc, ptr_dt in He.
      destruct (o_calib_imu o), (o_calib_gsens o), (o_kalibr o), (o_calib_dt o); simpl in He;
      repeat (destruct He as [<-|He]; [simpl; lia|]); destruct He. }
    rewrite (slot_none (asg_intr o)), (slot_none (asg_pose o)).
    + apply slot_imu; auto.
    + intros p off k s H. apply asg_pose_ptr in H. destruct H as (i & _ & -> & _). unfold ptr_pose. lia.
    + intros p off k s H. apply asg_intr_ptr in H. destruct H as (i & _ & -> & _). unfold ptr_intr. lia.
  - apply in_flat_map in He. destruct He as (i & Hi & He). apply in_seq in Hi.
    assert (P : (13 <= fst e)%nat).
    { unfold cam_exp, ptr_pose, ptr_intr in He. destruct (o_calib_pose o), (o_calib_intr o); simpl in He;
      repeat (destruct He as [<-|He]; [simpl; lia|]); destruct He. }
    rewrite (slot_none (asg_imu o)).
    2:{ intros p off k s H. apply asg_imu_ptr in H. lia. }
    unfold cam_exp in He. apply in_app_or in He. destruct He as [He|He].
    + destruct (o_calib_pose o) eqn:Ec; [|destruct He]. destruct He as [<-|[]]. cbn [fst snd] in *.
      rewrite (slot_none (asg_intr o)).
      2:{ intros p off k s H. apply asg_intr_ptr in H. destruct H as (j & _ & -> & _). unfold ptr_intr, ptr_pose. lia. }
      unfold asg_pose. rewrite Ec.
      rewrite (slot_flat (fun i => (ptr_pose i, 0%nat, 3%nat, 5 / 1000)) (fun i => (ptr_pose i, 3%nat, 3%nat, 15 / 1000)) _ i); [|lia|].
      2:{ intros j Hj Hji. simpl. unfold ptr_pose. lia. }
      unfold slot. cbn [fold_left]. unfold slot_step. rewrite Nat.eqb_refl. unfold Rsqr.
      cbn [app repeat length] in *. do 6 (destruct a as [|a]; [reflexivity|]). lia.
    + destruct (o_calib_intr o) eqn:Ec; [|destruct He]. destruct He as [<-|[]]. cbn [fst snd] in *.
      rewrite (slot_none (asg_pose o)).
      2:{ intros p off k s H. apply asg_pose_ptr in H. destruct H as (j & _ & -> & _). unfold ptr_intr, ptr_pose. lia. }
      unfold asg_intr. rewrite Ec.
      rewrite (slot_flat (fun i => (ptr_intr i, 0%nat, 4%nat, 1)) (fun i => (ptr_intr i, 4%nat, 4%nat, 5 / 1000)) _ i); [|lia|].
      2:{ intros j Hj Hji. simpl. unfold ptr_intr. lia. }
      unfold slot. cbn [fold_left]. unfold slot_step. rewrite Nat.eqb_refl. unfold Rsqr.
      cbn [app repeat length] in *. do 8 (destruct a as [|a]; [reflexivity|]). lia.
Qed.

Lemma asg_in_expected o p off k s : In (p, off, k, s) (assigns o) ->
  exists m, In (p, m) (map sz (expected o)) /\ (off + k <= m)%nat.
Proof.
  rewrite assigns_split. intros H. apply in_app_or in H. destruct H as [H|H].
  - assert (G : exists m, In (p, m) (map sz (exp_imu o)) /\ (off + k <= m)%nat).
    { unfold asg_imu in H. unfold exp_imu.
      destruct (o_calib_imu o), (o_calib_gsens o), (o_kalibr o), (o_calib_dt o); simpl in H;
      repeat (destruct H as [H|H];
        [injection H as <- <- <- <-; first [exists 6%nat; split; [simpl; tauto|lia] | exists 9%nat; split; [simpl; tauto|lia]
          | exists 3%nat; split; [simpl; tauto|lia] | exists 1%nat; split; [simpl; tauto|lia]]|]); destruct H. }
    destruct G as (m & G1 & G2). exists m. split; auto. rewrite expected_split, map_app. apply in_or_app. auto.
  - apply in_app_or in H. destruct H as [H|H].
    + apply asg_pose_ptr in H. destruct H as (i & Hi & -> & Hk & Ec). exists 6%nat. split; auto.
      rewrite expected_split, map_app. apply in_or_app. right. apply in_map_iff.
      exists (ptr_pose i, repeat (5 / 1000) 3 ++ repeat (15 / 1000) 3). split; [reflexivity|].
      apply in_flat_map. exists i. split; [apply in_seq; lia|]. unfold cam_exp. rewrite Ec. simpl. auto.
    + apply asg_intr_ptr in H. destruct H as (i & Hi & -> & Hk & Ec). exists 8%nat. split; auto.
      rewrite expected_split, map_app. apply in_or_app. right. apply in_map_iff.
      exists (ptr_intr i, repeat 1 4 ++ repeat (5 / 1000) 4). split; [reflexivity|].
      apply in_flat_map. exists i. split; [apply in_seq; lia|]. unfold cam_exp. rewrite Ec.
      apply in_or_app. right. simpl. auto.
Qed.

Lemma exp_owner (E : list (nat * list R)) : forall vars off n, map (fun t => (ty_ptr t, ty_size t)) vars = map sz E ->
  consecutive off vars n ->
  n = (off + length (flat_map snd E))%nat /\
  forall i, (off <= i < n)%nat -> exists t e id a, In t vars /\ In e E /\ ty_ptr t = fst e /\ ty_size t = length (snd e) /\
    ty_id t = Some id /\ i = (id + a)%nat /\ (a < ty_size t)%nat /\
    nth (i - off) (flat_map snd E) 0 = nth a (snd e) 0.
Proof.
  induction E as [|e E IH]; intros [|t vars] off n Hm Hc; simpl in *; try discriminate.
  - subst. split; [lia|]. intros; lia.
  - injection Hm as Hp Hs Hm. destruct Hc as [Hid Hc]. destruct (IH vars _ n Hm Hc) as [Hn HO].
    rewrite app_length. split; [lia|]. intros i Hi.
    destruct (Nat.lt_ge_cases i (off + ty_size t)) as [L|L].
    + exists t, e, off, (i - off)%nat. repeat match goal with |- _ /\ _ => split end; auto; try lia.
      rewrite app_nth1; auto. lia.
    + destruct (HO i) as (t' & e' & id & a & A1 & A2 & A3 & A4 & A5 & A6 & A7 & A8); [lia|].
      exists t', e', id, a. repeat match goal with |- _ /\ _ => split end; auto.
      rewrite app_nth2; [|lia]. rewrite <- A8. f_equal. lia.
Qed.

Lemma new_state_ok o cams : exists st, new_state o cams = Ok st /\
  map (fun t => (ty_ptr t, ty_size t)) (s_vars st) = map sz (expected o) /\
  s_dim st = length (flat_map snd (expected o)) /\
  (forall i j, (i < s_dim st)%nat -> (j < s_dim st)%nat ->
     s_cov st i j = if (i =? j)%nat then (nth i (flat_map snd (expected o)) 0)² else 0) /\
  state_ok st /\ s_opts st = o /\ s_clones st = [] /\ s_slam st = [] /\ s_cams st = cams /\ s_imu st = ptr_imu /\ s_dt st = ptr_dt.
Proof.
  pose proof (build_vars_inv o) as [B1 B2 B3 B4 B5 B6 B7].
  unfold new_state. destruct (build_vars o) as [vars n] eqn:Eb. cbn [fst snd] in *.
  destruct (exp_owner (expected o) vars 0 n B7 B1) as [Hn HO]. rewrite Nat.add_0_l in Hn.
  rewrite build_cov_asg.
  destruct (asg_ok vars n (assigns o) (mscal (1 / 1000 * (1 / 1000)) mid) B1 B5) as (C & E & A & D).
  - intros p off k s Hin. apply asg_in_expected in Hin. destruct Hin as (m & Hm & Hk). rewrite <- B7 in Hm.
    apply in_map_iff in Hm. destruct Hm as (t & Et & Ht). injection Et as <- <-. exists t. auto.
  - intros i j _ _ Hij. unfold mscal, mid. rewrite (proj2 (Nat.eqb_neq i j) Hij). ring.
  - rewrite E. cbn [obind]. eexists. split; [reflexivity|]. cbn [s_vars s_dim s_cov s_opts s_clones s_slam s_cams s_imu s_dt].
    repeat match goal with |- _ /\ _ => split end; auto.
    + intros i j Hi Hj. destruct (i =? j)%nat eqn:Eij.
      * apply Nat.eqb_eq in Eij. subst j.
        destruct (HO i) as (t & e & id & a & A1 & A2 & A3 & A4 & A5 & A6 & A7 & A8); [lia|].
        rewrite Nat.sub_0_r in A8. rewrite A8, A6. rewrite (D t id a A1 A5 A7).
        unfold mscal, mid. rewrite Nat.eqb_refl, Rmult_1_r, A3. apply slot_expected; auto. lia.
      * apply A; auto. apply Nat.eqb_neq; auto.
    + constructor; simpl; auto. unfold ptr_dt. lia.
Qed.

Lemma psd_diagonal n (d : nat -> R) : (forall i, 0 <= d i) -> psd n (fun i j => if (i =? j)%nat then d i else 0).
Proof.
  intros H x. unfold quad. apply sumn_nonneg. intros i Hi.
  rewrite (sumn_delta n i); auto.
  - rewrite Nat.eqb_refl. replace (x i * d i * x i) with (d i * (x i)²) by (unfold Rsqr; ring).
    apply Rmult_le_pos; auto. apply Rle_0_sqr.
  - intros j Hj Hji. rewrite (proj2 (Nat.eqb_neq i j)); auto. ring.
Qed.

Lemma new_state_spsd o cams st : new_state o cams = Ok st -> spsd (s_dim st) (s_cov st).
Proof.
  intros H. destruct (new_state_ok o cams) as (st' & E & _ & _ & HC & _). rewrite E in H. injection H as <-.
  split.
  - intros i j Hi Hj. unfold mtr. rewrite !HC by auto. rewrite Nat.eqb_sym.
    destruct (j =? i)%nat eqn:Ej; auto. apply Nat.eqb_eq in Ej. subst; auto.
  - apply (psd_ext (s_dim st') (fun i j => if (i =? j)%nat then (nth i (flat_map snd (expected o)) 0)² else 0)).
    + intros i j Hi Hj. rewrite HC; auto.
    + apply psd_diagonal. intros. apply Rle_0_sqr.
Qed.
