(** Proofs about the tracker model: thinning, detection, matching. *)
From Coq Require Import Reals List Arith ZArith Bool Lia Lra.
From Verif Require Import RBool Outcome DbModel DbSpec DbProofs DbThms TrackModel TrackSpec.
Import ListNotations.
Open Scope R_scope.

(** ** integer conversion *)
Lemma Int_part_bounds x : IZR (Int_part x) <= x < IZR (Int_part x) + 1.
Proof. destruct (base_Int_part x). lra. Qed.
Lemma Int_part_unique x z : IZR z <= x < IZR z + 1 -> Int_part x = z.
Proof.
  intros [A B]. destruct (Int_part_bounds x) as [C D].
  assert (IZR (Int_part x) < IZR (z + 1)) by (rewrite plus_IZR; lra).
  assert (IZR z < IZR (Int_part x + 1)) by (rewrite plus_IZR; lra).
  apply lt_IZR in H. apply lt_IZR in H0. lia.
Qed.
Lemma to_int_nonneg x : 0 <= x -> to_int x = Int_part x.
Proof. unfold to_int. destruct (Rleb_spec 0 x); intros; [reflexivity|lra]. Qed.
Lemma Int_part_lt x z : (Int_part x < z)%Z <-> x < IZR z.
Proof.
  destruct (Int_part_bounds x). split; intros X.
  - assert (Int_part x + 1 <= z)%Z by lia. apply IZR_le in H1. rewrite plus_IZR in H1. lra.
  - apply lt_IZR. lra.
Qed.
Lemma Int_part_le x z : (z <= Int_part x)%Z <-> IZR z <= x.
Proof. pose proof (Int_part_lt x z). split; intros X; [apply Rnot_lt_le|apply Z.nlt_ge]; intros Y; apply H in Y || apply H in Y; try lra; lia. Qed.
Lemma to_int_pos_le x z : (0 < z)%Z -> ((z <= to_int x)%Z <-> IZR z <= x).
Proof.
  intros Z0. unfold to_int. apply IZR_lt in Z0. destruct (Rleb_spec 0 x); [apply Int_part_le|].
  split; intros X; [|lra]. assert (0 <= Int_part (- x))%Z by (apply Int_part_le; lra). apply lt_IZR in Z0. lia.
Qed.
Lemma to_int_neg x : x < 0 -> (to_int x <= 0)%Z.
Proof. intros X. unfold to_int. destruct (Rleb_spec 0 x); [lra|]. assert (0 <= Int_part (- x))%Z by (apply Int_part_le; lra). lia. Qed.

(** ** subsequences *)
Lemma subseq_refl {A} (l : list A) : subseq l l.
Proof. induction l; constructor; auto. Qed.
Lemma subseq_in {A} (a b : list A) x : subseq a b -> In x a -> In x b.
Proof. induction 1; cbn; intros; [contradiction|tauto|tauto]. Qed.
Lemma subseq_map {A B} (f : A -> B) a b : subseq a b -> subseq (map f a) (map f b).
Proof. induction 1; cbn; constructor; auto. Qed.
Lemma subseq_nodup {A} (a b : list A) : subseq a b -> NoDup b -> NoDup a.
Proof.
  induction 1; intros N; [constructor| |]; inversion N; subst; auto.
  constructor; auto. intros I. apply H2. eapply subseq_in; eauto.
Qed.

Lemma map_combine {A B} (a : list A) (b : list B) : length a = length b ->
  map fst (combine a b) = a /\ map snd (combine a b) = b.
Proof.
  revert b. induction a as [|x a IH]; destruct b as [|y b]; cbn; intros L; try discriminate; auto.
  destruct (IH b) as [E1 E2]; [lia|]. rewrite E1, E2. auto.
Qed.
Lemma combine_maps {A B} (l : list (A * B)) : combine (map fst l) (map snd l) = l.
Proof. induction l as [|[a b] l IH]; cbn; congruence. Qed.

(** ** cells *)
Lemma cell_eqb_eq a b : cell_eqb a b = true <-> a = b.
Proof.
  unfold cell_eqb. rewrite andb_true_iff, !Z.eqb_eq. destruct a, b; cbn. split; [intros [-> ->]; auto|].
  intros E; injection E; auto.
Qed.
Lemma occupied_in g c : occupied g c = true <-> In c g.
Proof.
  unfold occupied. rewrite existsb_exists. split.
  - intros [x [I E]]. apply cell_eqb_eq in E. subst; auto.
  - intros I. exists c. split; auto. apply cell_eqb_eq; auto.
Qed.

(** decision used by the loop *)
Definition passes (o : kopts) (fr : frame) (p : pt) : bool :=
  (inner fr p && cell_in o fr (cell o p) && grid_in o fr p &&
   negb (fr_mask fr (to_int (fst p)) (to_int (snd p))))%bool.

Lemma div_lt_iff a b c : 0 < b -> (a / b < c <-> a < b * c).
Proof.
  intros B. split; intros X.
  - apply Rmult_lt_compat_l with (r := b) in X; auto. replace (b * (a / b)) with a in X by (field; lra). lra.
  - apply Rmult_lt_reg_l with b; auto. replace (b * (a / b)) with a by (field; lra). lra.
Qed.
Lemma div_le_iff a b c : 0 < b -> (c <= a / b <-> b * c <= a).
Proof. intros B. pose proof (div_lt_iff a b c B). split; intros X; apply Rnot_lt_le; intros Y; apply H in Y; lra. Qed.

Lemma size_close_eq o n : (0 < ko_px o)%Z -> (0 < n)%Z -> size_close o n = Int_part (IZR n / IZR (ko_px o)).
Proof.
  intros A B. unfold size_close. apply to_int_nonneg. apply IZR_lt in A, B.
  apply Rlt_le, Rdiv_lt_0_compat; auto.
Qed.

Lemma axis_cell o n x : (0 < ko_px o)%Z -> (0 < n)%Z -> 0 <= x ->
  (to_int (x / IZR (ko_px o)) < size_close o n)%Z <-> x < IZR (ko_px o) * IZR (Int_part (IZR n / IZR (ko_px o))).
Proof.
  intros A B X. pose proof (IZR_lt _ _ A) as A'. rewrite size_close_eq; auto.
  rewrite to_int_nonneg by (apply div_le_iff; lra). rewrite Int_part_lt, div_lt_iff by auto. tauto.
Qed.

Lemma cell_nonneg o x : (0 < ko_px o)%Z -> 0 <= x -> (0 <= to_int (x / IZR (ko_px o)))%Z.
Proof.
  intros A X. apply IZR_lt in A. assert (0 <= x / IZR (ko_px o)) by (apply div_le_iff; lra).
  rewrite to_int_nonneg by auto. apply Int_part_le. lra.
Qed.

Lemma dims_true o fr : dims_ok o fr = true <->
  ((0 < ko_px o) /\ (0 < ko_gx o) /\ (0 < ko_gy o) /\ (0 < fr_w fr) /\ (0 < fr_h fr))%Z.
Proof. unfold dims_ok. rewrite !andb_true_iff, !Z.ltb_lt. tauto. Qed.

Lemma axis_grid w g x : (0 < w)%Z -> (0 < g)%Z -> 0 <= x -> x < IZR w ->
  (0 <= Int_part (x / (IZR w / IZR g)) < g)%Z.
Proof.
  intros A B X Y. apply IZR_lt in A, B. assert (P : 0 < IZR w / IZR g) by (apply Rdiv_lt_0_compat; auto). split.
  - apply Int_part_le. apply div_le_iff; auto. lra.
  - apply Int_part_lt. apply div_lt_iff; auto. replace (IZR w / IZR g * IZR g) with (IZR w) by (field; lra). auto.
Qed.

Lemma passes_stays o fr p : dims_ok o fr = true -> (passes o fr p = true <-> stays o fr p).
Proof.
  intros D. apply dims_true in D. destruct D as (D1 & D2 & D3 & D4 & D5).
  unfold passes, stays, inner. rewrite !andb_true_iff, negb_true_iff, !Z.leb_le, !Z.ltb_lt.
  rewrite !to_int_pos_le by lia.
  assert (L : forall x n, 10 <= x -> (to_int x < n - 10)%Z <-> x < IZR n - 10).
  { intros x n X. rewrite to_int_nonneg by lra. rewrite Int_part_lt, minus_IZR. tauto. }
  split.
  - intros [[[[[[A1 A2] A3] A4] B] C] M].
    apply L in A2; auto. apply L in A4; auto.
    unfold cell_in in B. rewrite !andb_true_iff, !Z.leb_le, !Z.ltb_lt in B. cbn [cell fst snd] in B.
    destruct B as [[[_ B1] _] B2]. apply axis_cell in B1; auto; [|lra]. apply axis_cell in B2; auto; [|lra].
    rewrite !to_int_nonneg in M by lra. repeat split; auto.
  - intros ([A1 A2] & [A3 A4] & B1 & B2 & M). repeat split; auto.
    + apply L; auto.
    + apply L; auto.
    + unfold cell_in. rewrite !andb_true_iff, !Z.leb_le, !Z.ltb_lt. cbn [cell fst snd].
      repeat split; try (apply cell_nonneg; auto; lra); apply axis_cell; auto; lra.
    + unfold grid_in. rewrite !andb_true_iff, !Z.leb_le, !Z.ltb_lt.
      destruct (axis_grid (fr_w fr) (ko_gx o) (fst p)); auto; try lra.
      destruct (axis_grid (fr_h fr) (ko_gy o) (snd p)); auto; try lra.
    + rewrite !to_int_nonneg by lra. auto.
Qed.

Lemma same_cell_eq o p q : (0 < ko_px o)%Z -> 0 <= fst p -> 0 <= snd p -> 0 <= fst q -> 0 <= snd q ->
  (same_cell o p q <-> cell o p = cell o q).
Proof.
  intros D P1 P2 Q1 Q2. pose proof (IZR_lt _ _ D) as D'.
  assert (T : forall x, 0 <= x -> to_int (x / IZR (ko_px o)) = Int_part (x / IZR (ko_px o))).
  { intros x X. apply to_int_nonneg. apply div_le_iff; lra. }
  assert (U : forall x a, IZR a * IZR (ko_px o) <= x < (IZR a + 1) * IZR (ko_px o) <-> Int_part (x / IZR (ko_px o)) = a).
  { intros x a. split.
    - intros [A B]. apply Int_part_unique. split; [apply div_le_iff|apply div_lt_iff]; lra.
    - intros <-. destruct (Int_part_bounds (x / IZR (ko_px o))) as [A B].
      apply div_le_iff in A; auto. apply div_lt_iff in B; auto. lra. }
  unfold cell. rewrite !T by auto. split.
  - intros (a & b & A & B & C & E). apply U in A, B, C, E. congruence.
  - intros E. injection E as E1 E2. exists (Int_part (fst p / IZR (ko_px o))), (Int_part (snd p / IZR (ko_px o))).
    rewrite !U. auto.
Qed.

(** ** thinning *)
Lemma thin_spec o fr st ids pts g : length ids = length pts ->
  exists l g', thin o fr st pts ids g = Ok (map snd l, map fst l, g') /\
    subseq l (combine ids pts) /\
    (forall x, In x l -> passes o fr (snd x) = true) /\
    g' = rev (map (fun x => cell o (snd x)) l) ++ g /\
    (forall x, In x (combine ids pts) -> passes o fr (snd x) = true -> In (cell o (snd x)) g') /\
    ((forall i, st i = false) -> NoDup (map (fun x => cell o (snd x)) l) /\ forall x, In x l -> ~ In (cell o (snd x)) g).
Proof.
  revert ids g. induction pts as [|p pts IH]; intros [|i ids] g L; try discriminate.
  - exists [], g. cbn. split; [reflexivity|]. split; [constructor|]. split; [intros ? []|]. split; [reflexivity|].
    split; [intros ? []|]. intros _. split; [constructor|intros ? []].
  - cbn [thin]. set (c := cell o p). assert (L' : length ids = length pts) by (cbn in L; lia).
    destruct (negb (inner fr p) || negb (cell_in o fr c) || negb (grid_in o fr p) ||
              (occupied g c && negb (st i)) || fr_mask fr (to_int (fst p)) (to_int (snd p)))%bool eqn:B.
    + destruct (IH ids g L') as (l & g' & E & S1 & S2 & S3 & S4 & S5). exists l, g'. split; [exact E|].
      split; [cbn; constructor; auto|]. split; [auto|]. split; [auto|]. split; [|auto].
      intros x [<-|I] Px; [|auto]. cbn [snd] in *. fold c.
      assert (O : occupied g c = true).
      { unfold passes in Px. fold c in Px. rewrite !andb_true_iff, negb_true_iff in Px.
        destruct Px as [[[P1 P2] P3] P4]. rewrite P1, P2, P3, P4 in B. cbn in B. rewrite orb_false_r in B.
        apply andb_true_iff in B. tauto. }
      rewrite S3. apply in_app_iff. right. apply occupied_in; auto.
    + destruct (IH ids (c :: g) L') as (l & g' & E & S1 & S2 & S3 & S4 & S5). rewrite E. cbn [obind].
      rewrite !orb_false_iff, !negb_false_iff in B. destruct B as [[[[B1 B2] B3] B4] B5].
      exists ((i, p) :: l), g'. split; [reflexivity|]. split; [cbn; constructor; auto|].
      assert (PP : passes o fr p = true) by (unfold passes; fold c; rewrite B1, B2, B3, B5; reflexivity).
      split; [intros x [<-|I]; auto|]. split.
      { rewrite S3. cbn [map rev snd]. rewrite <- app_assoc. reflexivity. }
      split; [intros x [<-|I] Px; [|auto]; cbn [snd]; fold c; rewrite S3; apply in_app_iff; right; left; auto|].
      intros st0. destruct (S5 st0) as [N1 N2]. rewrite st0 in B4. cbn in B4. rewrite andb_true_r in B4.
      cbn [map snd]. fold c. split.
      * constructor; auto. intros I. apply in_map_iff in I. destruct I as (x & Ex & Ix).
        apply (N2 x Ix). rewrite Ex. left; auto.
      * intros x [<-|I]; cbn [snd]; fold c.
        -- intros X. apply occupied_in in X. congruence.
        -- intros X. apply (N2 x I). right; auto.
Qed.

Lemma pick_new_spec o fr det g :
  (forall p, In p (pick_new o fr det g) -> In p det /\ cell_in o fr (cell o p) = true /\ ~ In (cell o p) g) /\
  NoDup (map (cell o) (pick_new o fr det g)) /\ subseq (pick_new o fr det g) det.
Proof.
  revert g. induction det as [|p det IH]; intros g; cbn [pick_new].
  - split; [intros ? []|]. split; constructor.
  - destruct (cell_in o fr (cell o p) && negb (occupied g (cell o p)))%bool eqn:B.
    + apply andb_true_iff in B. rewrite negb_true_iff in B. destruct B as [B1 B2].
      destruct (IH (cell o p :: g)) as (A & N & S0). split; [|split].
      * intros q [<-|I].
        -- split; [left; auto|]. split; auto. intros X. apply occupied_in in X. congruence.
        -- destruct (A q I) as (A1 & A2 & A3). split; [right; auto|]. split; auto. intros X. apply A3. right; auto.
      * cbn. constructor; auto. intros X. apply in_map_iff in X. destruct X as (q & E & I).
        destruct (A q I) as (_ & _ & A3). apply A3. left; auto.
      * constructor; auto.
    + destruct (IH g) as (A & N & S0). split; [|split]; auto.
      * intros q I. destruct (A q I) as (A1 & A2 & A3). split; [right; auto|auto].
      * constructor; auto.
Qed.

(** ** detection in one image *)
Lemma detect_mono_spec o fr det ids pts cur :
  dims_ok o fr = true -> length ids = length pts ->
  exists l new, detect_mono o fr det pts ids cur =
      Ok (map snd l ++ new, map fst l ++ seq (S cur) (length new), (cur + length new)%nat) /\
    subseq l (combine ids pts) /\
    (forall x, In x l -> stays o fr (snd x)) /\
    (forall x, In x (combine ids pts) -> stays o fr (snd x) -> exists y, In y l /\ cell o (snd y) = cell o (snd x)) /\
    NoDup (map (cell o) (map snd l ++ new)) /\
    (forall p, In p new -> In p det /\ cell_in o fr (cell o p) = true) /\
    (new = [] \/ (few o <= ko_feats o - Z.of_nat (length l))%Z).
Proof.
  intros D L. unfold detect_mono. rewrite D. cbn [guard].
  destruct (thin_spec o fr (fun _ => false) ids pts [] L) as (l & g' & E & S1 & S2 & S3 & S4 & S5).
  rewrite E. cbn [obind]. rewrite map_length.
  destruct (S5 (fun _ => eq_refl)) as [N _]. rewrite app_nil_r in S3.
  assert (Q1 : forall x, In x l -> stays o fr (snd x)) by (intros x I; apply passes_stays; auto).
  assert (Q2 : forall x, In x (combine ids pts) -> stays o fr (snd x) -> exists y, In y l /\ cell o (snd y) = cell o (snd x)).
  { intros x I X. apply passes_stays in X; auto. specialize (S4 x I X). rewrite S3 in S4. apply in_rev, in_map_iff in S4.
    destruct S4 as (y & Ey & Iy). eauto. }
  destruct (Z.ltb_spec (ko_feats o - Z.of_nat (length l)) (few o)) as [Lt|Ge].
  - exists l, []. cbn [length seq]. rewrite !app_nil_r, Nat.add_0_r. split; [reflexivity|]. split; [auto|]. split; [auto|]. split; [auto|].
    split; [rewrite map_map; auto|]. split; [intros ? []|]. left; auto.
  - destruct (pick_new_spec o fr det g') as (A & B & C). exists l, (pick_new o fr det g'). split; [reflexivity|].
    split; [auto|]. split; [auto|]. split; [auto|]. split.
    + rewrite map_app, map_map. apply NoDup_app_intro; auto.
      intros c I J. apply in_map_iff in J. destruct J as (p & <- & J). destruct (A p J) as (_ & _ & A3). apply A3.
      rewrite S3. apply in_rev in I. auto.
    + split; [intros p I; destruct (A p I) as (A1 & A2 & _); auto|]. right; auto.
Qed.
