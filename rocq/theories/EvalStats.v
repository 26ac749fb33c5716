(** Statistics and association output. *)
From Coq Require Import Reals List Arith Bool Lia Lra Sorted Permutation.
From Verif Require Import RBool Outcome GeoModel GeoSpec InitModel InitSpec EvalModel EvalSpec EvalProofs.
Import ListNotations.
Open Scope R_scope.

Lemma omap_vat {A B} (src : list A) (f : B -> nat) : forall ps, Forall (fun p => (f p < length src)%nat) ps ->
  exists r, omap (fun p => vat src (f p)) ps = Ok r /\ picks src (map f ps) r.
Proof.
  induction ps as [|p ps IH]; intros H; [exists []; split; [reflexivity|constructor]|].
  inversion H; subst. destruct (IH H3) as (r & E & P). destruct (nth_error src (f p)) as [x|] eqn:X; [|apply nth_error_None in X; lia].
  exists (x :: r). split; [|constructor; auto]. cbn [omap]. unfold vat at 1. rewrite X, E. reflexivity.
Qed.

Lemma association_spec off maxd est gt : traj_wf est -> traj_wf gt ->
  exists pairs, StronglySorted lt2 pairs /\ Forall (near off maxd (t_times est) (t_times gt)) pairs /\
    pairs = assoc_loop off maxd 0 (t_times est) (indexed 0 (t_times gt)) /\
    (if (length (t_times est) <? 3)%nat then perform_association off maxd est gt = Ok (est, gt)
     else exists e g, perform_association off maxd est gt = Ok (e, g) /\
       t_times e = t_times g /\ picks (t_times gt) (map snd pairs) (t_times g) /\
       picks (t_poses est) (map fst pairs) (t_poses e) /\ picks (t_poses gt) (map snd pairs) (t_poses g) /\
       (t_co est = [] -> t_co e = [] /\ t_cp e = [] /\ t_co g = [] /\ t_cp g = []) /\
       (t_co est <> [] -> picks (t_co est) (map fst pairs) (t_co e) /\ picks (t_cp est) (map fst pairs) (t_cp e) /\
          (t_co gt = [] -> t_co g = repeat m3zero (length pairs) /\ t_cp g = repeat m3zero (length pairs)) /\
          (t_co gt <> [] -> picks (t_co gt) (map snd pairs) (t_co g) /\ picks (t_cp gt) (map snd pairs) (t_cp g)))).
Proof.
  intros [WE CE] [WG CG].
  destruct (assoc_basic off maxd (t_times est) (t_times gt) (t_times est) [] (t_times gt) [] eq_refl eq_refl) as [A B]. cbn [length] in A, B.
  exists (assoc_loop off maxd 0 (t_times est) (indexed 0 (t_times gt))). set (ps := assoc_loop _ _ _ _ _) in *.
  split; [exact B|]. assert (N : Forall (near off maxd (t_times est) (t_times gt)) ps) by (eapply Forall_impl; [|exact A]; intros p (_ & _ & H); exact H).
  split; [exact N|]. split; [reflexivity|].
  assert (FE : Forall (fun p => (fst p < length (t_times est))%nat) ps) by (eapply Forall_impl; [|exact N]; intros p (e & g & H & _ & _); apply nth_error_Some; congruence).
  assert (FG : Forall (fun p => (snd p < length (t_times gt))%nat) ps) by (eapply Forall_impl; [|exact N]; intros p (e & g & _ & H & _); apply nth_error_Some; congruence).
  unfold perform_association. fold ps. clearbody ps.
  destruct (omap_vat (t_times gt) snd ps FG) as (tg & -> & P1).
  destruct (omap_vat (t_poses est) fst ps) as (pe & -> & P2); [rewrite WE; exact FE|].
  destruct (omap_vat (t_poses gt) snd ps) as (pg & -> & P3); [rewrite WG; exact FG|]. cbn [obind].
  destruct (t_co est) as [|c0 cs] eqn:Ec.
  - cbn [obind]. destruct (length (t_times est) <? 3)%nat; [reflexivity|]. eexists _, _. split; [reflexivity|]. cbn [t_times t_poses t_co t_cp].
    split; [reflexivity|]. split; [exact P1|]. split; [exact P2|]. split; [exact P3|]. split; [intros; auto|]. intros H; congruence.
  - rewrite <- Ec. destruct CE as [CE|[CE1 CE2]]; [congruence|].
    destruct (omap_vat (t_co est) fst ps) as (ce & -> & P4); [rewrite Ec, CE1; exact FE|].
    destruct (omap_vat (t_cp est) fst ps) as (cpe & -> & P5); [rewrite CE2; exact FE|]. cbn [obind].
    destruct (t_co gt) as [|g0 gs] eqn:Eg.
    + cbn [obind]. destruct (length (t_times est) <? 3)%nat; [reflexivity|]. eexists _, _. split; [reflexivity|]. cbn [t_times t_poses t_co t_cp].
      split; [reflexivity|]. split; [exact P1|]. split; [exact P2|]. split; [exact P3|]. split; [intros; congruence|]. intros _.
      split; [exact P4|]. split; [exact P5|]. split; [|intros H; congruence]. intros _. clear. induction ps as [|p ps IH]; simpl; [auto|].
      destruct IH as [I1 I2]. split; f_equal; auto.
    + rewrite <- Eg. destruct CG as [CG|[CG1 CG2]]; [congruence|].
      destruct (omap_vat (t_co gt) snd ps) as (cg & -> & P6); [rewrite Eg, CG1; exact FG|].
      destruct (omap_vat (t_cp gt) snd ps) as (cpg & -> & P7); [rewrite CG2; exact FG|]. cbn [obind].
      destruct (length (t_times est) <? 3)%nat; [reflexivity|]. eexists _, _. split; [reflexivity|]. cbn [t_times t_poses t_co t_cp].
      split; [reflexivity|]. split; [exact P1|]. split; [exact P2|]. split; [exact P3|]. split; [intros; congruence|]. intros _.
      split; [exact P4|]. split; [exact P5|]. split; [intros; congruence|]. auto.
Qed.

(** sorting *)
Lemma rinsert_perm x l : Permutation (x :: l) (rinsert x l).
Proof. induction l as [|y l IH]; simpl; auto. destruct (Rleb x y); auto. rewrite perm_swap. constructor. exact IH. Qed.
Lemma rsort_perm l : Permutation l (rsort l).
Proof. induction l as [|x l IH]; simpl; auto. rewrite <- rinsert_perm. constructor. exact IH. Qed.
Lemma rinsert_sorted x l : StronglySorted Rle l -> StronglySorted Rle (rinsert x l).
Proof.
  induction l as [|y l IH]; intros H; simpl; [repeat constructor|]. inversion H; subst. destruct (Rleb_spec x y) as [L|L].
  - constructor; [exact H|]. constructor; [exact L|]. eapply Forall_impl; [|exact H3]. intros; simpl in *; lra.
  - constructor; [auto|]. apply Forall_forall. intros z Hz. rewrite Forall_forall in H3.
    apply (Permutation_in z (Permutation_sym (rinsert_perm x l))) in Hz. destruct Hz as [<-|Hz]; [lra|auto].
Qed.
Lemma rsort_sorted l : StronglySorted Rle (rsort l).
Proof. induction l; simpl; [constructor|apply rinsert_sorted; auto]. Qed.
Lemma sorted_unique (l1 l2 : list R) : StronglySorted Rle l1 -> StronglySorted Rle l2 -> Permutation l1 l2 -> l1 = l2.
Proof.
  revert l2. induction l1 as [|x l1 IH]; intros l2 S1 S2 P; [symmetry; apply Permutation_nil; auto|].
  destruct l2 as [|y l2]; [symmetry in P; apply Permutation_nil in P; discriminate|].
  inversion S1; inversion S2; subst. rewrite Forall_forall in H2, H6.
  assert (x = y). { pose proof (Permutation_in x P (or_introl eq_refl)) as A. pose proof (Permutation_in y (Permutation_sym P) (or_introl eq_refl)) as B.
    destruct A as [A|A], B as [B|B]; try congruence. specialize (H6 _ A). specialize (H2 _ B). lra. }
  subst y. f_equal. apply IH; auto. apply Permutation_cons_inv with x; auto.
Qed.
Lemma rsort_permut l l' : Permutation l l' -> rsort l = rsort l'.
Proof. intros P. apply sorted_unique; auto using rsort_sorted. rewrite <- !rsort_perm. exact P. Qed.

Lemma total_app l1 l2 : total (l1 ++ l2) = total l1 + total l2.
Proof. unfold total. induction l1; simpl; lra. Qed.
Lemma total_perm l l' : Permutation l l' -> total l = total l'.
Proof. unfold total. induction 1; simpl; lra. Qed.
Lemma fold_left_total {A} (g : A -> R) : forall l a, fold_left (fun a x => a + g x) l a = a + total (map g l).
Proof. induction l; intros; simpl; [lra|]. rewrite IHl. lra. Qed.
Lemma total_nonneg l : (forall x, In x l -> 0 <= x) -> 0 <= total l.
Proof. unfold total. induction l; intros H; simpl; [lra|]. specialize (IHl (fun x I => H x (or_intror I))). specialize (H a (or_introl eq_refl)). lra. Qed.

Lemma is_mean_perm l l' m : Permutation l l' -> is_mean l m -> is_mean l' m.
Proof. unfold is_mean. intros P. rewrite (total_perm l l' P), (Permutation_length P). auto. Qed.

Lemma nth_split_mid (v : list R) k : (k < length v)%nat -> exists a b, v = a ++ nth k v 0 :: b /\ length a = k.
Proof. intros H. destruct (nth_split v 0 H) as (a & b & E & L). exists a, b. auto. Qed.
Lemma sorted_le_app (l1 : list R) x l2 y : StronglySorted Rle (l1 ++ x :: l2) -> (In y l1 -> y <= x) /\ (In y l2 -> x <= y).
Proof.
  induction l1 as [|a l1 IH]; intros H; inversion H; subst.
  - split; [easy|]. rewrite Forall_forall in H3. auto.
  - destruct (IH H2) as [A B]. split; [|exact B]. intros [<-|I]; auto. rewrite Forall_forall in H3. apply H3, in_elt.
Qed.
Lemma sorted_le_app2 (l1 l2 : list R) x y : StronglySorted Rle (l1 ++ l2) -> In x l1 -> In y l2 -> x <= y.
Proof.
  induction l1 as [|a l1 IH]; intros H I J; [destruct I|]. inversion H; subst. rewrite Forall_forall in H3.
  destruct I as [<-|I]; [apply H3, in_app_iff; auto|auto].
Qed.

Lemma median_spec v : StronglySorted Rle v -> v <> [] -> is_median v (median_of v).
Proof.
  intros Sv Ne. unfold median_of. set (n := length v).
  assert (Hn : (0 < n)%nat) by (unfold n; destruct v; [congruence|simpl; lia]).
  pose proof (Nat.div_mod n 2 ltac:(lia)) as DM. pose proof (Nat.mod_upper_bound n 2 ltac:(lia)) as MB.
  set (k := (n / 2)%nat) in *. set (r := (n mod 2)%nat) in *. clearbody k r.
  destruct (Nat.eqb_spec n 1) as [E1|E1].
  - destruct v as [|x [|y v]]; try (unfold n in E1; simpl in E1; lia). rewrite E1. simpl.
    exists [], [x], []. split; [apply Permutation_refl|]. repeat split; try easy. left; reflexivity.
  - destruct (Nat.eqb_spec r 1) as [E2|E2].
    + destruct (nth_split_mid v k) as (a & b & E & L); [fold n; lia|]. set (m := nth k v 0) in *. clearbody m.
      assert (Lb : length a = length b). { assert (X : n = (length a + S (length b))%nat) by (unfold n; rewrite E, app_length; reflexivity). lia. }
      exists a, [m], b. rewrite E in *. split; [apply Permutation_refl|]. split; [exact Lb|].
      split; [intros x y I [<-|[]]; apply (sorted_le_app a m b x Sv); auto|].
      split; [intros x y [<-|[]] I; apply (sorted_le_app a m b y Sv); auto|]. left; reflexivity.
    + destruct (Nat.ltb_spec 1 n) as [H1|H1]; [|lia].
      destruct (nth_split_mid v (k - 1)) as (a & b & E & L); [fold n; lia|].
      destruct b as [|y b].
      { exfalso. assert (X : n = (length a + 1)%nat) by (unfold n; rewrite E at 1; rewrite app_length; reflexivity). lia. }
      set (x := nth (k - 1) v 0) in *. clearbody x.
      assert (Ey : nth k v 0 = y). { rewrite E. replace (a ++ x :: y :: b) with ((a ++ [x]) ++ y :: b) by (rewrite <- app_assoc; reflexivity).
        replace k with (length (a ++ [x])) by (rewrite app_length; simpl; lia). apply nth_middle. }
      rewrite Ey.
      assert (Lb : length a = length b). { assert (X : n = (length a + S (S (length b)))%nat) by (unfold n; rewrite E, app_length; reflexivity). lia. }
      exists a, [x; y], b. rewrite E in *. split; [apply Permutation_refl|]. split; [exact Lb|].
      split; [intros u w I J; apply (sorted_le_app2 a (x :: y :: b) u w Sv); auto; destruct J as [<-|[<-|[]]]; simpl; auto|].
      split; [intros u w J I; replace (a ++ x :: y :: b) with ((a ++ [x; y]) ++ b) in Sv by (rewrite <- app_assoc; reflexivity);
        apply (sorted_le_app2 (a ++ [x; y]) b u w Sv); auto; apply in_app_iff; auto|].
      right. exists x, y. split; [reflexivity|lra].
Qed.
Lemma is_median_perm l l' m : Permutation l l' -> is_median l m -> is_median l' m.
Proof. intros P (lo & mid & hi & Q & H). exists lo, mid, hi. split; [rewrite <- P; exact Q|exact H]. Qed.
Lemma median_between l m lo hi : is_median l m -> (forall x, In x l -> lo <= x <= hi) -> lo <= m <= hi.
Proof.
  intros (a & mid & b & P & _ & _ & _ & [->|(x & y & -> & E)]) H.
  - apply H. rewrite P. apply in_app_iff. right; left; auto.
  - assert (lo <= x <= hi) by (apply H; rewrite P; apply in_app_iff; right; left; auto).
    assert (lo <= y <= hi) by (apply H; rewrite P; apply in_app_iff; right; right; left; auto). lra.
Qed.
Lemma total_bounds l lo hi : (forall x, In x l -> lo <= x <= hi) -> INR (length l) * lo <= total l <= INR (length l) * hi.
Proof.
  unfold total. induction l as [|x l IH]; intros H; [simpl; lra|]. specialize (IH (fun y I => H y (or_intror I))). specialize (H x (or_introl eq_refl)).
  cbn [length fold_right]. rewrite S_INR. lra.
Qed.
Lemma total_sq_dev v m : is_mean v m -> total (map (fun x => x * x) v) = INR (length v) * (m * m) + total (map (fun x => (x - m) * (x - m)) v).
Proof.
  unfold is_mean. intros E.
  assert (G : total (map (fun x => (x - m) * (x - m)) v) = total (map (fun x => x * x) v) - 2 * m * total v + INR (length v) * (m * m)).
  { clear E. unfold total. induction v as [|x v IH]; [simpl; lra|]. cbn [map fold_right length]. rewrite IH, S_INR. lra. }
  rewrite G, <- E. lra.
Qed.

Lemma calculate_spec st : s_values st <> [] -> 0 <= s_rmse st -> calc_facts st (calculate st) (s_values st).
Proof.
  intros Ne Hr. set (vals := s_values st) in *. unfold calculate. fold vals.
  pose proof (rsort_perm vals) as P. pose proof (rsort_sorted vals) as Sv.
  assert (Ne' : rsort vals <> []). { intros E. rewrite E in P. apply Permutation_sym, Permutation_nil in P. auto. }
  set (v := rsort vals) in *. clearbody v. clearbody vals.
  assert (Ln : length v = length vals) by (symmetry; apply Permutation_length; auto).
  replace (match v with [] => st | _ :: _ => _ end) with
    (mkStats (fold_left Rplus v 0 / INR (length v)) (median_of v)
      (if Nat.eqb (length v) 1 then None else Some (sqrt (fold_left (fun a x => a + (x - fold_left Rplus v 0 / INR (length v)) ^ 2) v 0 / (INR (length v) - 1))))
      (sqrt (fold_left (fun a x => a + x * x) v (s_rmse st) / INR (length v))) (nth 0 v 0) (nth (length v - 1) v 0)
      (option_map (fun s => fold_left Rplus v 0 / INR (length v) + 2.326 * s)
        (if Nat.eqb (length v) 1 then None else Some (sqrt (fold_left (fun a x => a + (x - fold_left Rplus v 0 / INR (length v)) ^ 2) v 0 / (INR (length v) - 1))))) vals)
    by (destruct v; [congruence|reflexivity]).
  assert (Hn : (0 < length v)%nat) by (destruct v; [congruence|simpl; lia]).
  assert (HN : 0 < INR (length v)) by (apply lt_0_INR; auto).
  set (m := fold_left Rplus v 0 / INR (length v)).
  assert (Em : is_mean v m).
  { unfold is_mean, m. pose proof (fold_left_total (fun x => x) v 0) as F. rewrite map_id in F.
    replace (fold_left Rplus v 0) with (0 + total v) by (rewrite <- F; reflexivity). field. lra. }
  clearbody m.
  assert (Min : In (nth 0 v 0) v /\ forall x, In x v -> nth 0 v 0 <= x).
  { destruct v as [|a v]; [congruence|]. simpl. split; auto. inversion Sv; subst. rewrite Forall_forall in H2. intros x [<-|I]; [lra|auto]. }
  assert (Max : In (nth (length v - 1) v 0) v /\ forall x, In x v -> x <= nth (length v - 1) v 0).
  { destruct (nth_split_mid v (length v - 1)) as (a & b & E & L); [lia|]. set (y := nth (length v - 1) v 0) in *. clearbody y.
    assert (b = []). { assert (X : length v = (length a + S (length b))%nat) by (rewrite E, app_length; reflexivity). destruct b; auto. simpl in X. lia. }
    subst b. rewrite E in *. split; [apply in_elt|]. intros x I. apply in_app_iff in I. destruct I as [I|[<-|[]]]; [|lra]. apply (sorted_le_app a y [] x Sv); auto. }
  set (mn := nth 0 v 0) in *. set (mx := nth (length v - 1) v 0) in *. clearbody mn mx.
  pose proof (median_spec v Sv Ne') as Med. set (md := median_of v) in *. clearbody md.
  assert (SQ : fold_left (fun a x => a + x * x) v (s_rmse st) = s_rmse st + total (map (fun x => x * x) v)) by (rewrite (fold_left_total (fun x => x * x)); reflexivity).
  assert (SD : fold_left (fun a x => a + (x - m) ^ 2) v 0 = total (map (fun x => (x - m) * (x - m)) v)).
  { rewrite (fold_left_total (fun x => (x - m) ^ 2)). rewrite Rplus_0_l. f_equal. apply map_ext. intros; ring. }
  rewrite SQ, SD.
  assert (Pq : total (map (fun x => x * x) v) = total (map (fun x => x * x) vals)) by (apply total_perm, Permutation_map, Permutation_sym, P).
  assert (Pd : total (map (fun x => (x - m) * (x - m)) v) = total (map (fun x => (x - m) * (x - m)) vals)) by (apply total_perm, Permutation_map, Permutation_sym, P).
  assert (Qn : 0 <= total (map (fun x => x * x) v)) by (apply total_nonneg; intros x I; apply in_map_iff in I; destruct I as (y & <- & _); apply Rle_0_sqr).
  assert (Dn : 0 <= total (map (fun x => (x - m) * (x - m)) v)) by (apply total_nonneg; intros x I; apply in_map_iff in I; destruct I as (y & <- & _); apply Rle_0_sqr).
  assert (Bd : forall x, In x v -> mn <= x <= mx) by (intros x I; split; [apply Min|apply Max]; auto).
  assert (RM : 0 <= sqrt ((s_rmse st + total (map (fun x => x * x) v)) / INR (length v)) /\
    INR (length v) * (sqrt ((s_rmse st + total (map (fun x => x * x) v)) / INR (length v)) * sqrt ((s_rmse st + total (map (fun x => x * x) v)) / INR (length v))) = s_rmse st + total (map (fun x => x * x) v)).
  { split; [apply sqrt_pos|]. rewrite sqrt_sqrt; [field; lra|]. apply Rmult_le_pos; [lra|]. left. apply Rinv_0_lt_compat; auto. }
  unfold calc_facts. cbn [s_values s_mean s_median s_min s_max s_rmse s_std s_99].
  split; [reflexivity|]. split; [apply (is_mean_perm v); [apply Permutation_sym; exact P|exact Em]|].
  split; [apply (is_median_perm v); [apply Permutation_sym; exact P|exact Med]|].
  split; [split; [rewrite P; apply Min|intros x I; rewrite P in I; apply Min; auto]|].
  split; [split; [rewrite P; apply Max|intros x I; rewrite P in I; apply Max; auto]|].
  split; [apply (median_between v); auto|].
  split. { pose proof (total_bounds v mn mx Bd) as TB. unfold is_mean in Em. rewrite <- Em in TB. split; apply Rmult_le_reg_l with (INR (length v)); lra. }
  split; [rewrite <- Ln, <- Pq; exact RM|].
  split. { intros L1. rewrite Ln, L1. simpl. auto. }
  intros L1. rewrite <- Ln in L1. destruct (Nat.eqb_spec (length v) 1) as [X|_]; [congruence|]. eexists. split; [reflexivity|].
  assert (H1 : 1 < INR (length v)) by (apply lt_1_INR; lia).
  assert (STD : (INR (length v) - 1) * (sqrt (total (map (fun x => (x - m) * (x - m)) v) / (INR (length v) - 1)) * sqrt (total (map (fun x => (x - m) * (x - m)) v) / (INR (length v) - 1))) = total (map (fun x => (x - m) * (x - m)) v)).
  { rewrite sqrt_sqrt; [field; lra|]. apply Rmult_le_pos; [lra|]. left. apply Rinv_0_lt_compat; lra. }
  split; [split; [apply sqrt_pos|rewrite <- Ln, <- Pd; exact STD]|]. split; [reflexivity|].
  rewrite <- Ln, STD, (proj2 RM), (total_sq_dev v m Em). lra.
Qed.

Lemma calculate_permut st st' : Permutation (s_values st) (s_values st') -> s_values st <> [] -> s_rmse st = s_rmse st' ->
  let a := calculate st in let b := calculate st' in
  s_mean a = s_mean b /\ s_median a = s_median b /\ s_std a = s_std b /\ s_rmse a = s_rmse b /\ s_min a = s_min b /\ s_max a = s_max b /\ s_99 a = s_99 b.
Proof.
  intros P Ne E. unfold calculate. rewrite <- (rsort_permut _ _ P), <- E.
  pose proof (rsort_perm (s_values st)) as Q. destruct (rsort (s_values st)) as [|x l]; [apply Permutation_sym, Permutation_nil in Q; congruence|].
  cbn [s_mean s_median s_std s_rmse s_min s_max s_99]. tauto.
Qed.
