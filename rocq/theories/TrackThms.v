(** Theorem-level lemmas about the trackers. *)
From Coq Require Import Reals List Arith ZArith Bool Lia Lra.
From Verif Require Import RBool Outcome DbModel DbSpec DbProofs DbThms TrackModel TrackSpec TrackProofs TrackProofs2.
Import ListNotations.
Open Scope R_scope.

(** ** C45 *)
Lemma ids_thm o P s : treach o P s ->
  (forall cam, length (aget (k_ids s) cam) = length (aget (k_pts s) cam) /\ NoDup (aget (k_ids s) cam)) /\
  (forall id cam, sees s id cam -> (4 * ko_aruco o + 1 < id <= k_cur s)%nat) /\
  (forall id c c', sees s id c -> sees s id c' -> c <> c' -> P c c').
Proof. intros T. destruct (treach_inv o P s T) as ((_ & W & _) & L & B). split; [auto|]. split; auto. Qed.

Lemma never_reused_thm o P s s' id cam : treach o P s -> tsteps o P s s' ->
  (id <= k_cur s)%nat -> ~ sees s id cam -> ~ sees s' id cam.
Proof.
  intros T T' H N X. destruct (treach_inv o P s T) as (W & L & _).
  destruct (tsteps_inv _ _ _ _ W L T') as (_ & _ & _ & B). destruct (B _ _ X) as [|Y]; [auto|lia].
Qed.

(** ** simulated tracker *)
Definition sim_obs (und : nat -> pt -> pt) (t : R) (cam : nat) (fs : list (nat * pt)) (f : nat) : list obs :=
  map (fun e => (t, snd e, und cam (snd e))) (filter (fun e => Nat.eqb (fst e) f) fs).
Fixpoint sim_run (und : nat -> pt -> pt) (size : nat -> frame) (msgs : list (R * list (nat * list (nat * pt)))) (s : ktrk) : ktrk :=
  match msgs with
  | [] => s
  | (t, l) :: msgs' => sim_run und size msgs' (sim_feed und s t size l)
  end.
Definition sim_fed (und : nat -> pt -> pt) (msgs : list (R * list (nat * list (nat * pt)))) (f c : nat) : list obs :=
  flat_map (fun m => flat_map (fun e => if Nat.eqb (fst e) c then sim_obs und (fst m) c (snd e) f else []) (snd m)) msgs.

Lemma sim_record_spec und cur t cam fs : forall d, db_ok d ->
  db_ok (sim_record und cur d t cam fs) /\
  (forall f c, track (sim_record und cur d t cam fs) (f + cur) c =
     track d (f + cur) c ++ (if Nat.eqb cam c then sim_obs und t c fs f else [])) /\
  (forall i c, (i < cur)%nat -> track (sim_record und cur d t cam fs) i c = track d i c).
Proof.
  induction fs as [|[g p] fs IH]; intros d OK; cbn [sim_record].
  - split; [auto|]. split; [intros; destruct (Nat.eqb cam c); cbn; rewrite app_nil_r; auto|auto].
  - destruct (update_feature_spec d (g + cur) t cam p (und cam p) OK) as (U1 & U2 & U3 & U4 & _).
    destruct (IH _ U1) as (A & B & C). split; [auto|]. split.
    + intros f c. rewrite B. unfold sim_obs. cbn [filter fst]. destruct (Nat.eqb_spec g f) as [->|N].
      * destruct (Nat.eqb_spec cam c) as [->|Nc]; [rewrite U2, <- app_assoc; reflexivity|]. rewrite U3 by auto. auto.
      * f_equal. unfold track. rewrite U4; auto. lia.
    + intros i c H. rewrite C by auto. unfold track. rewrite U4; auto. lia.
Qed.

Lemma sim_feed_spec und t size l : forall s, db_ok (k_db s) ->
  let s' := sim_feed und s t size l in
  db_ok (k_db s') /\ k_cur s' = k_cur s /\
  (forall f c, track (k_db s') (f + k_cur s) c =
     track (k_db s) (f + k_cur s) c ++ flat_map (fun e => if Nat.eqb (fst e) c then sim_obs und t c (snd e) f else []) l) /\
  (forall i c, (i < k_cur s)%nat -> track (k_db s') i c = track (k_db s) i c).
Proof.
  induction l as [|[cam fs] l IH]; intros s OK; cbn [sim_feed].
  - cbn. split; [auto|]. split; [auto|]. split; [intros; rewrite app_nil_r; auto|auto].
  - destruct (sim_record_spec und (k_cur s) t cam fs (k_db s) OK) as (A & B & C).
    destruct (IH (sim_feed1 und s t (size cam) cam fs) A) as (I1 & I2 & I3 & I4). cbn [sim_feed1 set_last k_cur k_db] in *.
    split; [auto|]. split; [auto|]. split.
    + intros f c. rewrite I3, B. cbn [flat_map fst snd]. rewrite app_assoc. auto.
    + intros i c H. rewrite I4, C; auto.
Qed.

Lemma sim_run_spec und size msgs : forall s, db_ok (k_db s) ->
  k_cur (sim_run und size msgs s) = k_cur s /\
  (forall f c, track (k_db (sim_run und size msgs s)) (f + k_cur s) c = track (k_db s) (f + k_cur s) c ++ sim_fed und msgs f c) /\
  (forall i c, (i < k_cur s)%nat -> track (k_db (sim_run und size msgs s)) i c = track (k_db s) i c).
Proof.
  induction msgs as [|[t l] msgs IH]; intros s OK; cbn [sim_run].
  - cbn. split; [auto|]. split; [intros; rewrite app_nil_r; auto|auto].
  - destruct (sim_feed_spec und t size l s OK) as (A & B & C & D). destruct (IH _ A) as (I1 & I2 & I3).
    rewrite B in *. split; [auto|]. split.
    + intros f c. rewrite I2, C. unfold sim_fed. cbn [flat_map fst snd]. rewrite app_assoc. auto.
    + intros i c H. rewrite I3, D; auto.
Qed.

Lemma sim_thm o und size msgs :
  let s := sim_run und size msgs (track_new o) in
  (forall f c, track (k_db s) (f + (4 * ko_aruco o + 1)) c = sim_fed und msgs f c) /\
  (forall i c, (i <= 4 * ko_aruco o)%nat -> track (k_db s) i c = []).
Proof.
  destruct (sim_run_spec und size msgs (track_new o)) as (A & B & C); [split; [constructor|intros ? ? []]|].
  cbn [track_new k_cur k_db] in *. split; [intros; rewrite B; reflexivity|]. intros i c H. rewrite C by lia. reflexivity.
Qed.

(** what the trackers remember for the drawing of a camera: the features of its last list *)
Definition sim_last (msgs : list (R * list (nat * list (nat * pt)))) (c : nat) : list (nat * pt) :=
  last (map snd (filter (fun e => Nat.eqb (fst e) c) (flat_map snd msgs))) [].
Lemma sim_feed_last und t size l : forall s c,
  k_cur (sim_feed und s t size l) = k_cur s /\
  (aget (k_ids (sim_feed und s t size l)) c, aget (k_pts (sim_feed und s t size l)) c) =
  fold_left (fun a e => if Nat.eqb (fst e) c then (map (fun x => fst x + k_cur s)%nat (snd e), map snd (snd e)) else a) l
    (aget (k_ids s) c, aget (k_pts s) c).
Proof.
  induction l as [|[cam fs] l IH]; intros s c; [split; reflexivity|]. cbn [sim_feed fold_left fst snd].
  destruct (IH (sim_feed1 und s t (size cam) cam fs) c) as [I1 I2]. rewrite I1, I2. cbn [sim_feed1 set_last k_cur k_ids k_pts].
  split; [reflexivity|]. rewrite !aget_aset, (Nat.eqb_sym c cam). destruct (Nat.eqb cam c); reflexivity.
Qed.
Lemma sim_run_last und size msgs : forall s c,
  (aget (k_ids (sim_run und size msgs s)) c, aget (k_pts (sim_run und size msgs s)) c) =
  fold_left (fun a e => if Nat.eqb (fst e) c then (map (fun x => fst x + k_cur s)%nat (snd e), map snd (snd e)) else a) (flat_map snd msgs)
    (aget (k_ids s) c, aget (k_pts s) c).
Proof.
  induction msgs as [|[t l] msgs IH]; intros s c; [reflexivity|]. cbn [sim_run flat_map snd].
  destruct (sim_feed_last und t size l s c) as [E1 E2]. rewrite IH, E1, E2, fold_left_app. reflexivity.
Qed.
Lemma fold_last {A} (g : nat * list (nat * pt) -> A) c l : forall a d, a = g (c, d) -> (forall k x, g (k, x) = g (c, x)) ->
  fold_left (fun a e => if Nat.eqb (fst e) c then g e else a) l a = g (c, last (map snd (filter (fun e => Nat.eqb (fst e) c) l)) d).
Proof.
  induction l as [|[k x] l IH]; intros a d E G; [exact E|]. cbn [fold_left filter fst]. destruct (Nat.eqb k c); [|apply IH; auto].
  rewrite (IH _ x (G k x) G). cbn [map snd]. f_equal. f_equal. generalize (map snd (filter (fun e => Nat.eqb (fst e) c) l)). intros m.
  cbn [last]. destruct m as [|y m]; [reflexivity|]. generalize y. clear. induction m as [|z m IH]; intros y; [reflexivity|]. cbn [last] in *. apply IH.
Qed.
Lemma sim_last_thm o und size msgs c :
  let s := sim_run und size msgs (track_new o) in
  aget (k_ids s) c = map (fun e => fst e + (4 * ko_aruco o + 1))%nat (sim_last msgs c) /\ aget (k_pts s) c = map snd (sim_last msgs c).
Proof.
  cbv zeta. pose proof (sim_run_last und size msgs (track_new o) c) as E.
  rewrite (fold_last (fun e => (map (fun x => fst x + k_cur (track_new o))%nat (snd e), map snd (snd e))) c _ _ []) in E; [|reflexivity|reflexivity].
  injection E as E1 E2. rewrite E1, E2. split; reflexivity.
Qed.

(** ** ArUco ids *)
Lemma aruco_corners_in M fr tag : forall cs n i p, In (i, p) (aruco_corners M fr tag n cs) ->
  exists k, (k < length cs)%nat /\ i = aruco_id M tag (n + k) /\ nth_error cs k = Some p.
Proof.
  induction cs as [|c cs IH]; intros n i p; cbn [aruco_corners]; [intros []|].
  assert (R0 : In (i, p) (aruco_corners M fr tag (S n) cs) ->
    exists k, (k < length (c :: cs))%nat /\ i = aruco_id M tag (n + k) /\ nth_error (c :: cs) k = Some p).
  { intros I. destruct (IH _ _ _ I) as (k & A & B & C). exists (S k). cbn [length nth_error]. split; [lia|]. split; [|auto].
    rewrite B. f_equal. lia. }
  destruct (fr_mask fr (to_int (fst c)) (to_int (snd c))); [auto|]. intros [X|X]; [|auto].
  injection X as <- <-. exists 0%nat. cbn. rewrite Nat.add_0_r. split; [lia|auto].
Qed.
Lemma aruco_tags_in M fr tags : forall l i p, aruco_tags M fr tags = Ok l -> In (i, p) l ->
  exists tag cs k, In (tag, cs) tags /\ (tag <= M)%nat /\ (k < 4)%nat /\ i = aruco_id M tag k /\ nth_error cs k = Some p.
Proof.
  induction tags as [|[tag cs] tags IH]; intros l i p E I; cbn [aruco_tags] in E; [injection E as <-; destruct I|].
  destruct (Nat.ltb_spec M tag).
  - destruct (IH _ _ _ E I) as (a & b & k & X & Y). exists a, b, k. split; [right|]; auto.
  - apply guard_ok in E; [|discriminate]. destruct E as [L E]. apply Nat.eqb_eq in L.
    apply obind_ok in E. destruct E as (r & Er & E). injection E as <-. apply in_app_iff in I. destruct I as [I|I].
    + apply aruco_corners_in in I. destruct I as (k & A & B & C). exists tag, cs, k. split; [left; auto|]. split; [auto|]. split; [lia|auto].
    + destruct (IH _ _ _ Er I) as (a & b & k & X & Y). exists a, b, k. split; [right|]; auto.
Qed.
Lemma aruco_range_thm o und s t fr cam tags s' : aruco_track o und s t fr cam tags = Ok s' ->
  forall i, In i (aget (k_ids s') cam) -> (i <= 4 * ko_aruco o)%nat.
Proof.
  unfold aruco_track. intros E i I. apply guard_ok in E; [|discriminate]. destruct E as [_ E].
  apply obind_ok in E. destruct E as (l & El & E). injection E as <-. cbn [set_last k_ids] in I.
  rewrite aget_aset, Nat.eqb_refl in I. apply in_map_iff in I. destruct I as ([j p] & <- & I).
  destruct (aruco_tags_in _ _ _ _ _ _ El I) as (tag & cs & k & _ & H & K & -> & _). cbn. unfold aruco_id. nia.
Qed.
Lemma aruco_inj M tag n tag' n' : (tag < M)%nat -> (tag' < M)%nat -> aruco_id M tag n = aruco_id M tag' n' -> tag = tag' /\ n = n'.
Proof.
  unfold aruco_id. intros A B E.
  assert (n = n'). { apply (f_equal (fun x => x / M)%nat) in E. rewrite !Nat.div_add, !Nat.div_small in E by lia. auto. }
  subst. lia.
Qed.

(** ** C46 *)
Lemma alook_snoc {A} (m : amap A) k v k' : alook m k = None -> alook (m ++ [(k, v)]) k' = if Nat.eqb k' k then Some v else alook m k'.
Proof.
  induction m as [|[a b] m IH]; cbn; intros H; [auto|]. destruct (Nat.eqb_spec k a) as [->|N]; [discriminate|].
  rewrite IH by auto. destruct (Nat.eqb_spec k' a) as [->|N']; [|auto]. destruct (Nat.eqb_spec a k); [congruence|auto].
Qed.
Lemma alook_aerase {A} (m : amap A) k k' : alook (aerase m k) k' = if Nat.eqb k' k then None else alook m k'.
Proof.
  unfold aerase. rewrite (alook_filter_keys (fun x => negb (Nat.eqb x k)) m k'). destruct (Nat.eqb k' k); auto.
Qed.
Lemma alook_mapv {A B} (g : A -> B) (m : amap A) k : alook (map (fun e => (fst e, g (snd e))) m) k = option_map g (alook m k).
Proof. induction m as [|[a b] m IH]; cbn; [auto|]. destruct (Nat.eqb k a); auto. Qed.
Lemma aget_mapv {A B} (g : list A -> list B) (m : amap (list A)) k : g [] = [] ->
  aget (map (fun e => (fst e, g (snd e))) m) k = g (aget m k).
Proof. intros G. unfold aget. rewrite alook_mapv. destruct (alook m k); cbn; auto. Qed.

Lemma change_id_thm s old new : db_ok (k_db s) -> old <> new -> alook (k_db s) new = None ->
  let s' := change_feat_id s old new in
  db_ok (k_db s') /\
  alook (k_db s') old = None /\
  (forall cam, track (k_db s') new cam = track (k_db s) old cam) /\
  (forall f, alook (k_db s) old = Some f -> exists f', alook (k_db s') new = Some f' /\ f_id f' = new /\ f_del f' = f_del f /\ f_pos f' = f_pos f) /\
  (forall id, id <> old -> id <> new -> alook (k_db s') id = alook (k_db s) id) /\
  k_pts s' = k_pts s /\
  (forall cam k, nth_error (aget (k_ids s') cam) k =
     option_map (fun i => if Nat.eqb i old then new else i) (nth_error (aget (k_ids s) cam) k)).
Proof.
  intros OK N F s'. subst s'. unfold change_feat_id. cbn [k_db k_pts k_ids].
  assert (T : forall cam k, nth_error (aget (map (fun e => (fst e, map (fun i => if Nat.eqb i old then new else i) (snd e))) (k_ids s)) cam) k =
     option_map (fun i => if Nat.eqb i old then new else i) (nth_error (aget (k_ids s) cam) k)).
  { intros cam k. rewrite (aget_mapv (map (fun i => if Nat.eqb i old then new else i))) by auto. apply nth_error_map. }
  destruct (alook (k_db s) old) as [f|] eqn:E.
  - assert (Z : alook (aerase (k_db s) old) new = None) by (rewrite alook_aerase; destruct (Nat.eqb new old); auto).
    rewrite Z. destruct (db_ok_look _ _ _ OK E) as [E1 Ff].
    assert (LK : forall id, alook (aerase (k_db s) old ++ [(new, rename_feature f new)]) id =
      if Nat.eqb id new then Some (rename_feature f new) else if Nat.eqb id old then None else alook (k_db s) id).
    { intros id. rewrite alook_snoc, alook_aerase by auto. auto. }
    split.
    { split.
      - rewrite map_app. apply nodup_snoc; [apply nodup_filter_keys; apply OK|]. cbn. apply alook_none_key in Z. auto.
      - intros id g I. apply in_app_iff in I. destruct I as [I|[I|[]]].
        + apply filter_In in I. apply OK. tauto.
        + injection I as <- <-. split; [auto|]. exact Ff. }
    split; [rewrite LK; destruct (Nat.eqb_spec old new); [congruence|]; rewrite Nat.eqb_refl; auto|].
    split; [intros cam; unfold track; rewrite LK, Nat.eqb_refl, E; reflexivity|].
    split; [intros g G; injection G as <-; eexists; split; [rewrite LK, Nat.eqb_refl; reflexivity|]; cbn; auto|].
    split; [intros id A B; rewrite LK; destruct (Nat.eqb_spec id new); [congruence|]; destruct (Nat.eqb_spec id old); [congruence|auto]|].
    auto.
  - split; [auto|]. split; [auto|]. split; [intros cam; unfold track; rewrite F, E; auto|]. split; [discriminate|]. auto.
Qed.

(** ** C47 *)
Lemma nodup_app_l {A} (a b : list A) : NoDup (a ++ b) -> NoDup a.
Proof.
  induction a as [|x a IH]; cbn; intros N; [constructor|]. inversion N; subst. constructor; auto.
  intros I. apply H1. apply in_app_iff; auto.
Qed.
Lemma one_per_cell_intro o l : (0 < ko_px o)%Z -> (forall p, In p l -> 0 <= fst p /\ 0 <= snd p) ->
  NoDup (map (cell o) l) -> one_per_cell o l.
Proof.
  intros D P N i j p q I J S0. destruct (P p (nth_error_In _ _ I)). destruct (P q (nth_error_In _ _ J)).
  apply same_cell_eq in S0; auto.
  apply (proj1 (NoDup_nth_error (map (cell o) l)) N); [rewrite map_length; apply nth_error_Some; congruence|].
  rewrite !nth_error_map, I, J. cbn. congruence.
Qed.

Lemma stays_nonneg o fr p : stays o fr p -> 0 <= fst p /\ 0 <= snd p.
Proof. intros ([A _] & [B _] & _). lra. Qed.

Lemma detect_thm o fr det ids pts cur : dims_ok o fr = true -> length ids = length pts ->
  exists l new, detect_mono o fr det pts ids cur =
      Ok (map snd l ++ new, map fst l ++ seq (S cur) (length new), (cur + length new)%nat) /\
    subseq l (combine ids pts) /\
    (forall x, In x l -> stays o fr (snd x)) /\
    (forall x, In x (combine ids pts) -> stays o fr (snd x) -> exists y, In y l /\ same_cell o (snd y) (snd x)) /\
    one_per_cell o (map snd l) /\
    (forall p, In p new -> In p det) /\
    ((forall p, In p det -> 0 <= fst p /\ 0 <= snd p) -> one_per_cell o (map snd l ++ new)) /\
    (new = [] \/ (Z.min 20 (Z.quot (ko_feats o) 2) <= ko_feats o - Z.of_nat (length l))%Z).
Proof.
  intros D L. destruct (detect_mono_spec o fr det ids pts cur D L) as (l & new & E & S1 & S2 & S3 & S4 & S5 & S6).
  exists l, new. split; [exact E|]. split; [auto|]. split; [auto|]. apply dims_true in D. destruct D as (D & _).
  assert (NL : forall p, In p (map snd l) -> 0 <= fst p /\ 0 <= snd p).
  { intros p I. apply in_map_iff in I. destruct I as (x & <- & I). apply S2 in I. eapply stays_nonneg; eauto. }
  split.
  { intros x I X. destruct (S3 x I X) as (y & Iy & Ey). exists y. split; [auto|].
    destruct (stays_nonneg _ _ _ X). destruct (stays_nonneg _ _ _ (S2 y Iy)). apply same_cell_eq; auto. }
  split. { apply one_per_cell_intro; auto. rewrite map_app in S4. apply nodup_app_l in S4. auto. }
  split; [intros p I; apply S5; auto|]. split; [|exact S6].
  intros ND. apply one_per_cell_intro; auto. intros p I. apply in_app_iff in I. destruct I as [I|I]; [auto|]. apply ND. apply S5; auto.
Qed.

(** ** frames *)
Definition inside (fr : frame) (p : pt) : Prop := 0 <= fst p < IZR (fr_w fr) /\ 0 <= snd p < IZR (fr_h fr).
Lemma bad_pt_inside fr p : bad_pt false fr p = false <-> inside fr p.
Proof.
  unfold bad_pt, inside. rewrite !orb_false_iff, !Rltb_false, !Z.leb_gt. split.
  - intros [[A B] [C D]]. rewrite to_int_nonneg in C, D by lra. apply Int_part_lt in C, D. lra.
  - intros [[A B] [C D]]. rewrite !to_int_nonneg by lra. rewrite !Int_part_lt. auto.
Qed.

Lemma in_combine_nth {A B} (a : list A) (b : list B) x y : In (x, y) (combine a b) <-> exists k, nth_error a k = Some x /\ nth_error b k = Some y.
Proof.
  revert b. induction a as [|u a IH]; intros [|v b]; cbn.
  - split; [intros []|]. intros ([|k] & H & _); discriminate.
  - split; [intros []|]. intros ([|k] & H & _); discriminate.
  - split; [intros []|]. intros ([|k] & _ & H); discriminate.
  - rewrite IH. split.
    + intros [E|(k & E)]; [injection E as <- <-; exists 0%nat; auto|exists (S k); auto].
    + intros ([|k] & E1 & E2); [left; cbn in *; congruence|right; exists k; auto].
Qed.

Lemma matching_nth klt pts k p : nth_error (matching klt pts) k = Some (p, true) <->
  (10 <= length pts)%nat /\ (k < length pts)%nat /\ klt k = (p, true).
Proof.
  unfold matching. destruct (Nat.ltb_spec (length pts) 10).
  - rewrite nth_error_map. split; [destruct (nth_error pts k); cbn; discriminate|lia].
  - rewrite nth_error_map. split.
    + destruct (nth_error (seq 0 (length pts)) k) as [j|] eqn:E; cbn; [|discriminate]. intros X. injection X as X.
      assert (k < length (seq 0 (length pts)))%nat by (apply nth_error_Some; congruence). rewrite seq_length in H0.
      rewrite (nth_error_nth' _ 0%nat) in E by (rewrite seq_length; auto). rewrite seq_nth in E by auto. injection E as <-. auto.
    + intros (_ & A & B). rewrite (nth_error_nth' _ 0%nat) by (rewrite seq_length; auto). rewrite seq_nth by auto. cbn. congruence.
Qed.

Lemma frame_thm o P und s t ci s' : treach o P s -> feed_monocular o und s t ci = Ok s' ->
  let cam := ci_cam ci in
  (forall c, c <> cam -> tracked s' c = tracked s c) /\
  (aget (k_pts s) cam = [] -> k_db s' = k_db s) /\
  (aget (k_pts s) cam <> [] ->
    exists lf ps is_, alook (k_last s) cam = Some lf /\
      detect_mono o lf (ci_det ci) (aget (k_pts s) cam) (aget (k_ids s) cam) (k_cur s) = Ok (ps, is_, k_cur s') /\
      (forall i p, In (i, p) (tracked s' cam) <->
         (10 <= length ps)%nat /\ inside (ci_frame ci) p /\ fr_mask (ci_frame ci) (Int_part (fst p)) (Int_part (snd p)) = false /\
         exists k, nth_error is_ k = Some i /\ ci_klt ci k = (p, true)) /\
      (forall i p, In (i, p) (tracked s' cam) -> track (k_db s') i cam = track (k_db s) i cam ++ [(t, p, und cam p)])) /\
  (forall i c, c <> cam \/ ~ In i (aget (k_ids s') cam) -> track (k_db s') i c = track (k_db s) i c).
Proof.
  intros T E cam. destruct (treach_inv o P s T) as (W & _ & _).
  pose proof (feed_mono_step _ _ _ _ _ _ W E) as M. destruct (mono_step_db _ _ _ _ _ _ W M) as (_ & D2 & D3).
  split; [intros c N; unfold tracked; rewrite (ms_pts _ _ _ _ _ _ M), (ms_ids _ _ _ _ _ _ M) by auto; auto|].
  unfold feed_monocular in E. fold cam in E, M, D2, D3. apply guard_ok in E; [|discriminate]. destruct E as [_ E].
  split.
  { intros Z. rewrite Z in E. apply obind_ok in E. destruct E as ([[ps is_] cur] & _ & E). injection E as <-. reflexivity. }
  split; [|exact D2].
  intros NZ. destruct (aget (k_pts s) cam) as [|p0 pr] eqn:P0; [congruence|].
  destruct (alook (k_last s) cam) as [lf|]; [|discriminate].
  apply obind_ok in E. destruct E as ([[ps is_] cur] & Ed & E).
  exists lf, ps, is_. split; [auto|].
  destruct W as (_ & LN & SB & _). destruct (LN cam) as [L N].
  pose proof Ed as Ed'. rewrite P0 in L. apply detect_mono_ids in Ed'; auto.
  2:{ intros i I. apply (SB i cam). left; auto. }
  destruct Ed' as (a & b & c & X & L1 & _). injection X as <- <- <-.
  assert (D4 : forall i p, In (i, p) (tracked s' cam) -> track (k_db s') i cam = track (k_db s) i cam ++ [(t, p, und cam p)]).
  { destruct D3 as [[Z _]|D3]; [congruence|auto]. }
  destruct (matching (ci_klt ci) ps) as [|m0 m] eqn:Em.
  - assert (Lp : length ps = 0%nat) by (rewrite <- (matching_length (ci_klt ci)), Em; auto).
    injection E as E. subst s'. cbn [set_last k_cur]. split; [auto|]. split; [|exact D4].
    unfold tracked. cbn [set_last k_ids k_pts]. rewrite !aget_aset, Nat.eqb_refl. cbn. intros i p. split; [intros []|]. intros (H & _). lia.
  - rewrite <- Em in E. apply obind_ok in E. destruct E as (g & Eg & E).
    destruct (keep_mono_spec (ci_frame ci) (matching (ci_klt ci) ps) is_) as (l & E' & S1 & S2); [rewrite matching_length; auto|].
    rewrite E' in Eg. injection Eg as <-. injection E as E. subst s'. cbn [set_last k_cur]. split; [auto|]. split; [|exact D4].
    unfold tracked. cbn [set_last k_ids k_pts fst snd]. rewrite !aget_aset, Nat.eqb_refl, combine_maps.
    intros i p. rewrite S2, bad_pt_inside, in_combine_nth. split.
    + intros ((k & K1 & K2) & I & Mk). apply matching_nth in K2. destruct K2 as (K2 & K3 & K4). split; [auto|]. split; [auto|].
      destruct I as [[I1 I2] [I3 I4]]. rewrite !to_int_nonneg in Mk by auto. split; [auto|]. exists k. auto.
    + intros (H & I & Mk & k & K1 & K2). destruct I as [[I1 I2] [I3 I4]]. split; [|split; [split; auto|rewrite !to_int_nonneg; auto]].
      exists k. split; [auto|]. apply matching_nth. split; [auto|]. split; [|auto]. rewrite <- L1. apply nth_error_Some. congruence.
Qed.

Lemma frame_stereo_thm o P und s t l r s' : treach o P s -> feed_stereo o und s t l r = Ok s' ->
  aget (k_pts s) (ci_cam l) <> [] -> aget (k_pts s) (ci_cam r) <> [] ->
  forall cam, 
    (cam <> ci_cam l -> cam <> ci_cam r -> tracked s' cam = tracked s cam /\ forall i, track (k_db s') i cam = track (k_db s) i cam) /\
    (cam = ci_cam l \/ cam = ci_cam r ->
      (forall i p, In (i, p) (tracked s' cam) -> track (k_db s') i cam = track (k_db s) i cam ++ [(t, p, und cam p)]) /\
      (forall i, ~ In i (aget (k_ids s') cam) -> track (k_db s') i cam = track (k_db s) i cam)).
Proof.
  intros T E Zl Zr. destruct (treach_inv o P s T) as (W & _ & _). destruct (feed_stereo_steps _ _ _ _ _ _ _ W E) as (N & s1 & M1 & M2).
  assert (W1 : wf s1) by (eapply mono_step_wf; eauto).
  destruct (mono_step_db _ _ _ _ _ _ W M1) as (_ & A2 & A3). destruct (mono_step_db _ _ _ _ _ _ W1 M2) as (_ & B2 & B3).
  destruct A3 as [[? _]|A3]; [congruence|].
  destruct B3 as [[Z _]|B3]; [rewrite (ms_pts _ _ _ _ _ _ M1) in Z; congruence|].
  intros cam. split.
  - intros N1 N2. split.
    + unfold tracked. rewrite (ms_pts _ _ _ _ _ _ M2), (ms_ids _ _ _ _ _ _ M2), (ms_pts _ _ _ _ _ _ M1), (ms_ids _ _ _ _ _ _ M1) by auto. auto.
    + intros i. rewrite B2, A2 by auto. auto.
  - assert (TL : tracked s' (ci_cam l) = tracked s1 (ci_cam l)) by (unfold tracked; rewrite (ms_pts _ _ _ _ _ _ M2), (ms_ids _ _ _ _ _ _ M2) by auto; auto).
    intros [-> | ->].
    + split.
      * intros i p I. rewrite B2 by auto. apply A3. rewrite <- TL. auto.
      * intros i I. rewrite B2, A2; auto. right. rewrite <- (ms_ids _ _ _ _ _ _ M2); auto.
    + split.
      * intros i p I. rewrite (B3 i p I). f_equal. apply A2. auto.
      * intros i I. rewrite B2, A2; auto.
Qed.
