(** Theorems about the files of a simulation and the values plotted from them. *)
From Coq Require Import Reals List Arith ZArith Bool Ascii Lia Lra.
From Verif Require Import RBool Outcome GeoModel GeoSpec GeoProofs InitModel EvalModel EvalSpec FileModel FileSpec FileProofs ErrSpec ErrProofs ErrPose SimFileModel SimFileSpec SimFileProofs SimFileThms.
Import ListNotations.
Open Scope R_scope.

Lemma stds_pure fs rs : stds fs rs -> rs = map (fun f => std_pure (f_t f) (f_s f)) fs.
Proof. induction 1 as [|f r fs rs E _ IH]; [reflexivity|]. cbn [map]. rewrite <- IH, (std_row_pure _ _ _ E). reflexivity. Qed.
Lemma stds_map rd fs rs : stds fs rs -> map (vals rd) rs = map (fun f => vals rd (std_pure (f_t f) (f_s f))) fs.
Proof. intros H. rewrite (stds_pure _ _ H), map_map. reflexivity. Qed.
Lemma est_t rd f : nth_error (est_of rd f) 0 = Some (rd 5%nat (f_t f)).
Proof. reflexivity. Qed.
Lemma gt_t rd f : same_moment f -> nth_error (gt_of rd f) 0 = Some (rd 5%nat (f_t f)).
Proof. intros (H & _). cbn. rewrite H. reflexivity. Qed.
Lemma frame_eta f : mkF (f_t f) (f_s f) (f_g f) = f.
Proof. destruct f; reflexivity. Qed.

Lemma plot_state_thm rd f0 fr rs tmax : (forall f, In f (f0 :: fr) -> same_moment f) -> stds (f0 :: fr) rs ->
  exists o, plot_state (map (est_of rd) (f0 :: fr)) (map (vals rd) rs) (map (gt_of rd) (f0 :: fr)) tmax = Ok o /\
    plotted rd (f0 :: fr) (rd 5%nat (f_t f0)) tmax (fun _ => 1) (shows_state rd) o.
Proof.
  intros M S. rewrite (stds_map _ _ _ S). unfold plot_state, first_row.
  change (vat (map (est_of rd) (f0 :: fr)) 0) with (Ok (est_of rd f0)). cbn [obind]. rewrite (ent_ok _ _ _ (est_t rd f0)). cbn [obind].
  apply (loop_ok rd None state_one _ tmax (est_of rd) (fun f => vals rd (std_pure (f_t f) (f_s f))) (gt_of rd) (fun _ => 1) (shows_state rd) (f0 :: fr) []).
  intros f I. split; [apply est_t|]. split; [apply gt_t, M, I|]. split; [reflexivity|].
  pose proof (head_state rd (f_t f) (f_s f) (f_g f) (length (ss_cams (f_s f))) (proj1 (M f I))) as H. rewrite frame_eta in H. exact H.
Qed.
Lemma plot_time_thm rd f0 fr rs tmax : (forall f, In f (f0 :: fr) -> same_moment f) -> stds (f0 :: fr) rs ->
  exists o, plot_timeoff (map (est_of rd) (f0 :: fr)) (map (vals rd) rs) (map (gt_of rd) (f0 :: fr)) tmax = Ok o /\
    plotted rd (f0 :: fr) (rd 5%nat (f_t f0)) tmax (dev_time rd) (shows_time rd) o.
Proof.
  intros M S. rewrite (stds_map _ _ _ S). unfold plot_timeoff, first_row.
  change (vat (map (est_of rd) (f0 :: fr)) 0) with (Ok (est_of rd f0)). cbn [obind]. rewrite (ent_ok _ _ _ (est_t rd f0)). cbn [obind].
  apply (loop_ok rd (Some 16%nat) time_one _ tmax (est_of rd) (fun f => vals rd (std_pure (f_t f) (f_s f))) (gt_of rd) (dev_time rd) (shows_time rd) (f0 :: fr) []).
  intros f I. split; [apply est_t|]. split; [apply gt_t, M, I|]. split; [apply std_dt|].
  pose proof (head_time rd (f_t f) (f_s f) (f_g f) (length (ss_cams (f_s f)))) as H. rewrite frame_eta in H. exact H.
Qed.
Lemma cams_INR n : cams_of (INR n) = n.
Proof. unfold cams_of. rewrite Int_part_INR. apply Nat2Z.id. Qed.
Lemma cams_at rd n f : rd 0%nat (INR n) = INR n -> length (ss_cams (f_s f)) = n -> ent (est_of rd f) 18 = Ok (INR n).
Proof. intros E L. transitivity (Ok (rd 0%nat (INR (length (ss_cams (f_s f)))))); [reflexivity|]. rewrite L, E. reflexivity. Qed.

Section Cams.
Variables (rd : nat -> R -> R) (n : nat) (f0 : frame) (fr : list frame) (rs : list (list cell)) (tmax : R).
Hypothesis N : (1 <= n)%nat.
Hypothesis E : rd 0%nat (INR n) = INR n.
Hypothesis M : forall f, In f (f0 :: fr) -> same_moment f /\ length (ss_cams (f_s f)) = n.
Hypothesis S : stds (f0 :: fr) rs.
Lemma cams_two f : In f (f0 :: fr) -> length (ss_cams (f_s f)) = n /\ length (st_cams (f_g f)) = n.
Proof. intros I. destruct (M f I) as ((_ & A) & B). split; congruence. Qed.
Lemma cams_first f : In f (f0 :: fr) -> exists c r, ss_cams (f_s f) = c :: r.
Proof. intros I. destruct (cams_two f I) as (A & _). destruct (ss_cams (f_s f)) as [|c r]; [cbn in A; lia|eauto]. Qed.
Lemma plot_intr_thm : exists o, plot_intr (map (est_of rd) (f0 :: fr)) (map (vals rd) rs) (map (gt_of rd) (f0 :: fr)) tmax = Ok o /\
    plotted rd (f0 :: fr) (rd 5%nat (f_t f0)) tmax (dev_intr rd) (shows_intr rd) o.
Proof.
  rewrite (stds_map _ _ _ S). unfold plot_intr, first_row.
  change (vat (map (est_of rd) (f0 :: fr)) 0) with (Ok (est_of rd f0)). cbn [obind]. rewrite (ent_ok _ _ _ (est_t rd f0)). cbn [obind].
  rewrite (cams_at rd n f0 E (proj2 (M f0 (or_introl eq_refl)))). cbn [obind]. rewrite cams_INR. destruct (Nat.ltb_spec n 1); [lia|].
  apply (loop_ok rd (Some 18%nat) (intr_one n) _ tmax (est_of rd) (fun f => vals rd (std_pure (f_t f) (f_s f))) (gt_of rd) (dev_intr rd) (shows_intr rd) (f0 :: fr) []).
  intros f I. split; [apply est_t|]. split; [apply gt_t, M, I|]. destruct (cams_two f I) as (A & B). split.
  - destruct (cams_first f I) as (c & r & C). assert (C0 : nth_error (ss_cams (f_s f)) 0 = Some c) by (rewrite C; reflexivity).
    pose proof (std_cam rd (f_t f) (f_s f) 0 c 0 C0 ltac:(lia)) as K. change (18 + (14 * 0 + 0))%nat with 18%nat in K. rewrite K. unfold dev_intr. rewrite C. rewrite app_nth1 by (rewrite sig_length; lia). rewrite sig_at by lia. rewrite Nat.add_0_r. reflexivity.
  - pose proof (head_intr rd (f_t f) (f_s f) (f_g f) n A B) as H'. rewrite frame_eta in H'. unfold gt_of. rewrite A. exact H'.
Qed.
Lemma plot_extr_thm : exists o, plot_extr (map (est_of rd) (f0 :: fr)) (map (vals rd) rs) (map (gt_of rd) (f0 :: fr)) tmax = Ok o /\
    plotted rd (f0 :: fr) (rd 5%nat (f_t f0)) tmax (dev_extr rd) (shows_extr rd) o.
Proof.
  rewrite (stds_map _ _ _ S). unfold plot_extr, first_row.
  change (vat (map (est_of rd) (f0 :: fr)) 0) with (Ok (est_of rd f0)). cbn [obind]. rewrite (ent_ok _ _ _ (est_t rd f0)). cbn [obind].
  rewrite (cams_at rd n f0 E (proj2 (M f0 (or_introl eq_refl)))). cbn [obind]. rewrite cams_INR. destruct (Nat.ltb_spec n 1); [lia|].
  apply (loop_ok rd (Some 26%nat) (extr_one n) _ tmax (est_of rd) (fun f => vals rd (std_pure (f_t f) (f_s f))) (gt_of rd) (dev_extr rd) (shows_extr rd) (f0 :: fr) []).
  intros f I. split; [apply est_t|]. split; [apply gt_t, M, I|]. destruct (cams_two f I) as (A & B). split.
  - destruct (cams_first f I) as (c & r & C). assert (C0 : nth_error (ss_cams (f_s f)) 0 = Some c) by (rewrite C; reflexivity).
    pose proof (std_cam rd (f_t f) (f_s f) 0 c 8 C0 ltac:(lia)) as K. change (18 + (14 * 0 + 8))%nat with 26%nat in K. rewrite K. unfold dev_extr. rewrite C.
    rewrite app_nth2; rewrite sig_length; [|lia]. rewrite Nat.sub_diag, sig_at by lia. rewrite Nat.add_0_r. reflexivity.
  - pose proof (head_extr rd (f_t f) (f_s f) (f_g f) n A B) as H'. rewrite frame_eta in H'. unfold gt_of. rewrite A. exact H'.
Qed.
Lemma plot_imu_thm : exists o, plot_imu (map (est_of rd) (f0 :: fr)) (map (vals rd) rs) (map (gt_of rd) (f0 :: fr)) tmax = Ok o /\
    plotted rd (f0 :: fr) (rd 5%nat (f_t f0)) tmax (dev_imu rd) (shows_imu rd) o.
Proof.
  rewrite (stds_map _ _ _ S). unfold plot_imu, first_row.
  change (vat (map (est_of rd) (f0 :: fr)) 0) with (Ok (est_of rd f0)). cbn [obind]. rewrite (ent_ok _ _ _ (est_t rd f0)). cbn [obind].
  rewrite (cams_at rd n f0 E (proj2 (M f0 (or_introl eq_refl)))). cbn [obind]. rewrite cams_INR. destruct (Nat.ltb_spec n 1); [lia|].
  apply (loop_ok rd (Some (1 + 15 + 1 + 1 + 14 * n + 1)%nat) (imu_one n) _ tmax (est_of rd) (fun f => vals rd (std_pure (f_t f) (f_s f))) (gt_of rd) (dev_imu rd) (shows_imu rd) (f0 :: fr) []).
  intros f I. split; [apply est_t|]. split; [apply gt_t, M, I|]. destruct (cams_two f I) as (A & B). split.
  - pose proof (imu_std rd (f_t f) (f_s f) 0 6 (do_imu (f_s f)) (id_dw (f_s f)) ltac:(tauto) 0%nat ltac:(lia)) as K. rewrite A in K.
    replace (19 + 14 * n + 0 + 0)%nat with (1 + 15 + 1 + 1 + 14 * n + 1)%nat in K by lia. rewrite K, Nat.add_0_r. reflexivity.
  - destruct (head_imu rd (f_t f) (f_s f) (f_g f) n A B) as (l & O & H' & _). rewrite frame_eta in H'. unfold gt_of. rewrite A. exists l. auto.
Qed.
End Cams.

(** ** the texts *)
Lemma words_row put num r : (forall p x, plain (put p x)) -> row_line " " num (flat_map (fun c : cell => put (fst c) (snd c) ++ [" "%char]) r) (Some (vals (fun p x => num (put p x)) r)).
Proof.
  intros P. right. split.
  - intros (l' & E). destruct r as [|c r]; [discriminate|]. cbn [flat_map] in E. destruct (P (fst c) (snd c)) as (N & _ & _ & H). destruct (put (fst c) (snd c)) as [|a w]; [congruence|]. cbn in E. injection E as -> _. apply H. left. reflexivity.
  - exists (map (fun c => put (fst c) (snd c)) r). split; [|unfold vals; rewrite map_map; reflexivity]. induction r as [|c r IH]; [constructor|]. cbn [flat_map map]. rewrite <- app_assoc. cbn [app].
    destruct (P (fst c) (snd c)) as (N & B & _). apply wo_word; auto. { right. eauto. } apply wo_sep. exact IH.
Qed.
Lemma rows_read put num rows : (forall p x, plain (put p x)) -> rows <> [] -> (forall a b, In a rows -> In b rows -> length a = length b) ->
  load_simulation num (Some (file_text put rows)) = Ok (map (vals (fun p x => num (put p x))) rows).
Proof.
  intros P N L. set (ln := fun r : list cell => flat_map (fun c => put (fst c) (snd c) ++ [" "%char]) r).
  assert (LS : lines (file_text put rows) (map ln rows)).
  { unfold lines, file_text, line_text. clear N L. induction rows as [|r rows IH]; [constructor|]. cbn [flat_map map]. rewrite <- app_assoc. apply ce_cons; [|exact IH].
    intros I. apply in_flat_map in I. destruct I as (c & _ & I). apply in_app_iff in I. destruct (P (fst c) (snd c)) as (_ & _ & K & _). destruct I as [I|[I|[]]]; [exact (K I)|discriminate I]. }
  assert (TH : through (row_line " " num) (map ln rows) (map (vals (fun p x => num (put p x))) rows)).
  { clear N L LS. induction rows as [|r rows IH]; [constructor|]. cbn [map]. apply th_take; [apply words_row; exact P|exact IH]. }
  apply (load_sim_thm num _ _ _ LS TH).
  - destruct rows; [congruence|discriminate].
  - intros a b A B. apply in_map_iff in A, B. destruct A as (x & <- & A), B as (y & <- & B). unfold vals. rewrite !map_length. auto.
Qed.
Lemma est_len t s : length (est_row t s) = (49 + 15 * length (ss_cams s))%nat.
Proof. unfold est_row, prec. rewrite !app_length, !map_length, !app_length, (flat_length _ 15) by reflexivity. rewrite !take_length. cbn [length]. lia. Qed.
Lemma gt_len n g : length (gt_row n g) = (49 + 15 * length (st_cams g))%nat.
Proof. unfold gt_row, prec. rewrite !app_length, !map_length, !app_length, (flat_length _ 15) by reflexivity. rewrite !take_length, seq_length. cbn [length]. lia. Qed.
Lemma std_len t s : length (std_pure t s) = (46 + 14 * length (ss_cams s) + if do_imu s then 1 else 0)%nat.
Proof.
  assert (W : forall c, length (sig s (do_k s) (cm_kid c) 8 8 ++ sig s (do_e s) (cm_eid c) 6 6) = 14%nat) by (intros; rewrite app_length, !sig_length; reflexivity).
  unfold std_pure, prec. rewrite !app_length, !map_length, !app_length, (flat_length _ 14 W), !sig_length. cbn [length]. destruct (do_imu s), (kal s); cbn [andb negb sig repeat length]; rewrite ?take_length; lia.
Qed.
Lemma load_thm put num fs rs n b : (forall p x, plain (put p x)) -> fs <> [] -> stds fs rs ->
  (forall f, In f fs -> same_moment f /\ length (ss_cams (f_s f)) = n /\ do_imu (f_s f) = b) ->
  let rd p x := num (put p x) in
  simulation_new num (Some (file_text put (map (fun f => est_row (f_t f) (f_s f)) fs))) (Some (file_text put rs)) (Some (file_text put (map (fun f => gt_row (length (ss_cams (f_s f))) (f_g f)) fs))) =
  Ok (map (est_of rd) fs, map (vals rd) rs, map (gt_of rd) fs).
Proof.
  intros P N S M rd. unfold simulation_new. pose proof (stds_pure _ _ S) as ER.
  rewrite rows_read; [|exact P|destruct fs; [congruence|discriminate]|]. 2:{ intros x y X Y. apply in_map_iff in X, Y. destruct X as (f & <- & X), Y as (g & <- & Y). rewrite !est_len. destruct (M f X) as (_ & -> & _), (M g Y) as (_ & -> & _). reflexivity. }
  cbn [obind]. rewrite rows_read; [|exact P|subst rs; destruct fs; [congruence|discriminate]|].
  2:{ intros x y X Y. rewrite ER in X, Y. apply in_map_iff in X, Y. destruct X as (f & <- & X), Y as (g & <- & Y). rewrite !std_len. destruct (M f X) as (_ & -> & ->), (M g Y) as (_ & -> & ->). reflexivity. }
  cbn [obind]. rewrite rows_read; [|exact P|destruct fs; [congruence|discriminate]|].
  2:{ intros x y X Y. apply in_map_iff in X, Y. destruct X as (f & <- & X), Y as (g & <- & Y). rewrite !gt_len. destruct (M f X) as ((_ & ->) & -> & _), (M g Y) as ((_ & ->) & -> & _). reflexivity. }
  cbn [obind]. rewrite !map_map, !map_length. replace (length rs) with (length fs) by (rewrite ER, map_length; reflexivity). rewrite Nat.eqb_refl. cbn [andb guard].
  destruct fs as [|f fs]; [congruence|]. reflexivity.
Qed.

(** ** rotations *)
Lemma turn_thm qe qg : unit_q qe -> unit_q qg -> (forall u a, turned_body (mkPose v3zero qe) (mkPose v3zero qg) u a -> 1 / 10 ^ 10 <= 2 + 2 * cos a) ->
  exists u a k, turned_body (mkPose v3zero qe) (mkPose v3zero qg) u a /\ Rabs (k - a) <= 1 / 10 ^ 18 /\ turn qe qg = [180 / PI * k * vx u; 180 / PI * k * vy u; 180 / PI * k * vz u].
Proof.
  intros UE UG HI. set (e := mkPose v3zero qe) in *. set (g := mkPose v3zero qg) in *. destruct (pose_turn e g UE UG) as (u & a & T & _). pose proof (HI u a T) as B. pose proof T as (D & A & T').
  exists u, a, (klog a). split; [exact T|]. split; [apply klog_near; exact A|]. unfold turn.
  replace (m3mul (quat_2_Rot qg) (m3tr (quat_2_Rot qe))) with (about (v3neg u) a).
  - rewrite log_about; auto. 2:{ rewrite <- D. unfold v3dot. cbn. ring. } cbn [map]. destruct u as [x y z]. cbn [vx vy vz v3scal v3neg]. f_equal; [ring|]. f_equal; [ring|]. f_equal. ring.
  - rewrite <- about_neg. change (quat_2_Rot qe) with (quat_2_Rot (po_q e)). fold (att e). replace (quat_2_Rot qg) with (m3tr (att g)) by (unfold att; apply m3tr_tr). rewrite T', m3tr_mul, m3mul_assoc.
    destruct (is_rot_att e UE) as (_ & Rt & _). rewrite Rt, m3mul_id_r. reflexivity.
Qed.

(** ** one deviation too many *)
Definition bare (k : imu_kind) (w a n : nat) : sim_state := let z := fun _ : nat => 0 in
  mkSS (fun j => if (j =? 3)%nat then 1 else 0) z z z z 0 [] k z z z z z 0 3 6 9 12 0 15 21 0 w a false false false true false n (fun i j => if (i =? j)%nat then 1 else 0).
(** every block lies inside the covariance, yet the writer reads outside *)
Lemma outside_thm : exists s, ss_kind s = Kalibr /\ do_imu s = true /\ do_g s = false /\ (forall i, In i [id_q s; id_p s; id_v s; id_bg s; id_ba s; id_w s] -> i + 3 <= ss_n s)%nat /\
  (id_dw s + 6 <= ss_n s)%nat /\ (id_da s + 6 <= ss_n s)%nat /\ ss_cams s = [] /\ do_dt s = false /\ forall t, std_row t s = UB.
Proof. exists (bare Kalibr 27 0 30). repeat split; try reflexivity; cbn; lia. Qed.
(** with more variables behind, the file holds the deviation of a foreign variable as that of the accelerometer rotation *)
Lemma foreign_thm t s g n l : length (ss_cams s) = n -> length (st_cams g) = n -> ss_kind s = Kalibr -> do_imu s = true -> forall rd r, std_row t s = Ok r ->
  imu_one n (vals rd (est_row t s)) (vals rd r) (vals rd (gt_row n g)) = Ok l ->
  exists d w b, l = d ++ [w; b] /\ snd b = [deg3 * rd 8%nat (sigma s (id_w s + 3)); deg3 * rd 8%nat 0; deg3 * rd 8%nat 0].
Proof. intros A B K D rd r E O. apply std_row_pure in E. subst r. destruct (head_imu rd t s g n A B) as (l' & O' & _ & F). rewrite O in O'. injection O' as <-. auto. Qed.

(** ** when the writer is defined *)
Lemma devs_fit s id n : (id + n <= ss_n s)%nat -> exists l, devs s id n = Ok l.
Proof.
  intros H. exists (map (fun j => sqrt (ss_cov s (id + j) (id + j))) (seq 0 n)). apply omap_all. intros j J. apply in_seq in J. unfold dev. destruct (Nat.ltb_spec (id + j) (ss_n s)); [reflexivity|lia].
Qed.
Lemma devs_if_fit s b id n z : (b = true -> id + n <= ss_n s)%nat -> exists l, devs_if s b id n z = Ok l.
Proof. intros H. unfold devs_if. destruct b; [apply devs_fit; auto|eauto]. Qed.
Lemma omap_ex {A B} (f : A -> outcome B) l : (forall x, In x l -> exists y, f x = Ok y) -> exists r, omap f l = Ok r.
Proof. induction l as [|a l IH]; intros H; [exists []; reflexivity|]. destruct (H a (or_introl eq_refl)) as (y & E). destruct (IH (fun x I => H x (or_intror I))) as (r & F). exists (y :: r). cbn. rewrite E. cbn. rewrite F. reflexivity. Qed.
Lemma std_defined t s : (forall i, In i [id_q s; id_p s; id_v s; id_bg s; id_ba s] -> i + 3 <= ss_n s)%nat -> (do_dt s = true -> id_dt s + 1 <= ss_n s)%nat ->
  (forall c, In c (ss_cams s) -> (do_k s = true -> cm_kid c + 8 <= ss_n s) /\ (do_e s = true -> cm_eid c + 6 <= ss_n s))%nat ->
  (do_imu s = true -> id_dw s + 6 <= ss_n s /\ id_da s + 6 <= ss_n s /\ (do_g s = true -> id_tg s + 9 <= ss_n s) /\ match ss_kind s with Kalibr => id_w s + 4 <= ss_n s | Rpng => id_a s + 4 <= ss_n s end)%nat ->
  exists r, std_row t s = Ok r.
Proof.
  intros A D C I. unfold std_row.
  destruct (omap_ex (fun id => devs s id 3) [id_q s; id_p s; id_v s; id_bg s; id_ba s] (fun i J => devs_fit s i 3 (A i J))) as (x1 & ->). cbn [obind].
  destruct (devs_if_fit s (do_dt s) (id_dt s) 1 1 D) as (x2 & ->). cbn [obind].
  match goal with |- context [omap ?f (ss_cams s)] => destruct (omap_ex f (ss_cams s)) as (x3 & ->) end.
  { intros c J. destruct (C c J) as (K & L). destruct (devs_if_fit s (do_k s) (cm_kid c) 8 8 K) as (k & ->). cbn [obind]. destruct (devs_if_fit s (do_e s) (cm_eid c) 6 6 L) as (e & ->). cbn [obind]. eauto. }
  cbn [obind]. destruct (devs_if_fit s (do_imu s) (id_dw s) 6 6 (fun b => proj1 (I b))) as (x4 & ->). cbn [obind]. destruct (devs_if_fit s (do_imu s) (id_da s) 6 6 (fun b => proj1 (proj2 (I b)))) as (x5 & ->). cbn [obind].
  match goal with |- context [devs_if s ?b (id_tg s) 9 9] => destruct (devs_if_fit s b (id_tg s) 9 9) as (x6 & ->) end. { intros B. apply andb_true_iff in B. destruct B as (B1 & B2). apply (I B1). exact B2. }
  cbn [obind]. match goal with |- context [devs_if s ?b (id_w s) 4 3] => destruct (devs_if_fit s b (id_w s) 4 3) as (x7 & ->) end.
  { intros B. apply andb_true_iff in B. destruct B as (B1 & B2). destruct (I B1) as (_ & _ & _ & K). destruct (ss_kind s); [exact K|discriminate]. }
  cbn [obind]. match goal with |- context [devs_if s ?b (id_a s) 4 3] => destruct (devs_if_fit s b (id_a s) 4 3) as (x8 & ->) end.
  { intros B. apply andb_true_iff in B. destruct B as (B1 & B2). destruct (I B1) as (_ & _ & _ & K). destruct (ss_kind s); [discriminate|exact K]. }
  cbn [obind]. eauto.
Qed.

(** ** a frame with one camera, everything calibrated *)
Definition ex_put (p : nat) (x : R) : text := if Reqb x 0 then ["0"%char] else ["1"%char].
Definition ex_num (w : text) : R := match w with [c] => if Ascii.eqb c "0" then 0 else 1 | _ => 1 end.
Definition ex_frame : frame := let z := fun _ : nat => 0 in let q := fun j : nat => if (j =? 3)%nat then 1 else 0 in
  mkF 0 (mkSS q z z z z 0 [mkCam z q 35 29] Rpng z z z q q 0 3 6 9 12 28 15 21 0 0 25 true true true true false 44 (fun i j => if (i =? j)%nat then 1 else 0))
        (mkST (fun j => if (j =? 4)%nat then 1 else if (j =? 5)%nat then 1 else 0) 1 [(z, q)] Rpng z z z q q).
Lemma ex_frame_ok : (forall p x, plain (ex_put p x)) /\ same_moment ex_frame /\ length (ss_cams (f_s ex_frame)) = 1%nat /\ ex_num (ex_put 0 (INR 1)) = INR 1 /\ (exists rs, stds [ex_frame] rs) /\
  let rd p x := ex_num (ex_put p x) in dev_time rd ex_frame <> 0 /\ dev_intr rd ex_frame <> 0 /\ dev_extr rd ex_frame <> 0 /\ dev_imu rd ex_frame <> 0 /\
    shows_time rd ex_frame [([-1], [3])] /\ minus rd 6 3 (fun j => st_x (f_g ex_frame) (5 + j)%nat) (ss_p (f_s ex_frame)) = [1; 0; 0].
Proof.
  assert (E1 : forall p, ex_num (ex_put p 1) = 1) by (intros; unfold ex_put; destruct (Reqb_spec 1 0); [lra|reflexivity]).
  assert (E0 : forall p, ex_num (ex_put p 0) = 0) by (intros; unfold ex_put; destruct (Reqb_spec 0 0); [reflexivity|lra]).
  assert (SG : forall i, sigma (f_s ex_frame) i = 1) by (intros; unfold sigma, ex_frame; cbn [f_s ss_cov]; rewrite Nat.eqb_refl; apply sqrt_1).
  split. { intros p x. unfold ex_put, plain. destruct (Reqb x 0); (split; [discriminate|]); repeat split; intros [K|[]]; discriminate K. }
  split; [split; reflexivity|]. split; [reflexivity|]. split; [apply E1|]. split.
  { destruct (std_defined 0 (f_s ex_frame)) as (r & E).
    { intros i J. cbn in J |- *. lia. } { cbn. lia. } { intros c [<-|[]]. cbn. lia. } { cbn. lia. } exists [r]. constructor; [exact E|constructor]. }
  cbv zeta. unfold dev_time, dev_intr, dev_extr, dev_imu, shows_time, spread, minus. rewrite !SG. cbn [f_s ex_frame do_dt ss_cams do_k do_e do_imu]. fold ex_frame.
  cbn [seq map]. change (f_s ex_frame) with (f_s ex_frame). repeat split; try (rewrite ?SG, E1; lra).
  - pose proof (SG (28 + 0)%nat) as K. cbn [f_s ex_frame] in K. cbn [ss_dt st_dt f_g ex_frame id_dt f_s]. rewrite K, E0, !E1. replace (0 - 1) with (-1) by lra. replace (3 * 1) with 3 by lra. reflexivity.
  - cbn. rewrite E1, E0, !Rminus_0_r. reflexivity.
Qed.
