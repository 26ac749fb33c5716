(** Proofs about the files of a simulation. *)
From Coq Require Import Reals List Arith ZArith Bool Ascii Lia Lra.
From Verif Require Import RBool Outcome GeoModel InitModel EvalModel FileModel FileSpec FileProofs SimFileModel SimFileSpec.
Import ListNotations.
Open Scope R_scope.

Lemma vals_app rd a b : vals rd (a ++ b) = vals rd a ++ vals rd b.
Proof. apply map_app. Qed.
Lemma vals_prec rd p l : vals rd (prec p l) = map (rd p) l.
Proof. unfold vals, prec. rewrite map_map. reflexivity. Qed.
Lemma take_length n f : length (take n f) = n.
Proof. unfold take. rewrite map_length, seq_length. reflexivity. Qed.
Lemma nth_take n f j : (j < n)%nat -> nth_error (take n f) j = Some (f j).
Proof. intros H. unfold take. rewrite nth_error_map. rewrite (nth_error_nth' _ 0%nat) by (rewrite seq_length; auto). rewrite seq_nth by auto. reflexivity. Qed.
Lemma nth_flat {A B} (f : A -> list B) w : (forall c, length (f c) = w) -> forall l i c j post, nth_error l i = Some c -> (j < w)%nat ->
  nth_error (flat_map f l ++ post) (w * i + j) = nth_error (f c) j.
Proof.
  intros W. induction l as [|a l IH]; intros [|i] c j post E J; try discriminate; cbn [flat_map] in *.
  - injection E as ->. rewrite Nat.mul_0_r, <- app_assoc, nth_error_app1 by (rewrite W; lia). reflexivity.
  - rewrite <- app_assoc, nth_error_app2 by (rewrite W; lia). rewrite W. replace (w * S i + j - w)%nat with (w * i + j)%nat by lia. apply IH; auto.
Qed.
Lemma flat_length {A B} (f : A -> list B) w : (forall c, length (f c) = w) -> forall l, length (flat_map f l) = (w * length l)%nat.
Proof. intros W. induction l; cbn; [lia|]. rewrite app_length, W, IHl. lia. Qed.

(** ** rows *)
Section Rows.
Variable rd : nat -> R -> R.
Lemma est_cam t s i c j : nth_error (ss_cams s) i = Some c -> (j < 15)%nat ->
  nth_error (vals rd (est_row t s)) (19 + (15 * i + j)) = Some (rd 6%nat (nth j (take 8 (cm_k c) ++ take 7 (cm_e c)) 0)).
Proof.
  intros E J. unfold est_row. repeat rewrite vals_app. rewrite !vals_prec. cbn [vals map take seq app].
  change (19 + (15 * i + j))%nat with (S (S (S (S (S (S (S (S (S (S (S (S (S (S (S (S (S (S (S (15 * i + j)))))))))))))))))))). cbn [nth_error].
  rewrite nth_error_app1.
  - rewrite nth_error_map. rewrite <- (app_nil_r (flat_map _ _)). erewrite (nth_flat _ 15); [|intros; reflexivity|exact E|exact J].
    rewrite (nth_error_nth' _ 0) by exact J. reflexivity.
  - rewrite map_length, (flat_length _ 15) by reflexivity. assert (i < length (ss_cams s))%nat by (apply nth_error_Some; congruence). nia.
Qed.
Lemma gt_cam n g i d j : nth_error (st_cams g) i = Some d -> (j < 15)%nat ->
  nth_error (vals rd (gt_row n g)) (19 + (15 * i + j)) = Some (rd 6%nat (nth j (take 8 (fst d) ++ take 7 (snd d)) 0)).
Proof.
  intros E J. unfold gt_row. repeat rewrite vals_app. rewrite !vals_prec. cbn [vals map take seq app].
  change (19 + (15 * i + j))%nat with (S (S (S (S (S (S (S (S (S (S (S (S (S (S (S (S (S (S (S (15 * i + j)))))))))))))))))))). cbn [nth_error].
  rewrite nth_error_app1.
  - rewrite nth_error_map. rewrite <- (app_nil_r (flat_map _ _)). erewrite (nth_flat _ 15); [|intros; reflexivity|exact E|exact J].
    rewrite (nth_error_nth' _ 0) by exact J. reflexivity.
  - rewrite map_length, (flat_length _ 15) by reflexivity. assert (i < length (st_cams g))%nat by (apply nth_error_Some; congruence). nia.
Qed.
Lemma est_imu t s j : nth_error (vals rd (est_row t s)) (20 + 15 * length (ss_cams s) + j) =
  nth_error (map (rd 8%nat) (take 6 (ss_dw s) ++ take 6 (ss_da s) ++ take 9 (ss_tg s) ++ take 4 (ss_w s) ++ take 4 (ss_a s))) j.
Proof.
  unfold est_row. repeat rewrite vals_app. rewrite !vals_prec. set (z := map (rd 8%nat) _). clearbody z. cbn [vals map take seq app].
  replace (20 + 15 * length (ss_cams s) + j)%nat with (19 + (15 * length (ss_cams s) + S j))%nat by lia. set (k := (15 * length (ss_cams s) + S j)%nat). cbn [plus nth_error]. unfold k.
  rewrite nth_error_app2; rewrite map_length, (flat_length _ 15) by reflexivity; [|lia]. replace (15 * length (ss_cams s) + S j - 15 * length (ss_cams s))%nat with (S j) by lia. reflexivity.
Qed.
Lemma gt_imu n g j : nth_error (vals rd (gt_row n g)) (20 + 15 * length (st_cams g) + j) =
  nth_error (map (rd 8%nat) (take 6 (st_dw g) ++ take 6 (st_da g) ++ take 9 (st_tg g) ++ take 4 (st_w g) ++ take 4 (st_a g))) j.
Proof.
  unfold gt_row. repeat rewrite vals_app. rewrite !vals_prec. set (z := map (rd 8%nat) _). clearbody z. cbn [vals map take seq app].
  replace (20 + 15 * length (st_cams g) + j)%nat with (19 + (15 * length (st_cams g) + S j))%nat by lia. set (k := (15 * length (st_cams g) + S j)%nat). cbn [plus nth_error]. unfold k.
  rewrite nth_error_app2; rewrite map_length, (flat_length _ 15) by reflexivity; [|lia]. replace (15 * length (st_cams g) + S j - 15 * length (st_cams g))%nat with (S j) by lia. reflexivity.
Qed.

(** deviations *)
Definition sig (s : sim_state) (b : bool) (id n z : nat) : list R := if b then take n (fun j => sigma s (id + j)) else repeat 0 z.
Lemma omap_pure {A B} (f : A -> outcome B) g : (forall x y, f x = Ok y -> y = g x) -> forall l r, omap f l = Ok r -> r = map g l.
Proof.
  intros H. induction l as [|a l IH]; intros r E; cbn in E; [injection E as <-; reflexivity|].
  destruct (f a) as [y| |] eqn:F; try discriminate. cbn in E. destruct (omap f l) as [ys| |] eqn:G; try discriminate. cbn in E. injection E as <-.
  cbn. rewrite (H _ _ F), (IH _ eq_refl). reflexivity.
Qed.
Lemma devs_pure s id n l : devs s id n = Ok l -> l = take n (fun j => sigma s (id + j)).
Proof. intros E. apply (omap_pure _ (fun j => sigma s (id + j))) in E; auto. intros x y. unfold dev. destruct (_ <? _)%nat; [|discriminate]. intros K. injection K as <-. reflexivity. Qed.
Lemma devs_if_pure s b id n z l : devs_if s b id n z = Ok l -> l = sig s b id n z.
Proof. unfold devs_if, sig. destruct b; [apply devs_pure|congruence]. Qed.
Definition kal (s : sim_state) := match ss_kind s with Kalibr => true | Rpng => false end.
Definition std_pure (t : R) (s : sim_state) : list cell :=
  [(5%nat, t)] ++ prec 6 ((sig s true (id_q s) 3 3 ++ sig s true (id_p s) 3 3 ++ sig s true (id_v s) 3 3 ++ sig s true (id_bg s) 3 3 ++ sig s true (id_ba s) 3 3) ++ sig s (do_dt s) (id_dt s) 1 1) ++
  [(0%nat, INR (length (ss_cams s)))] ++ prec 6 (flat_map (fun c => sig s (do_k s) (cm_kid c) 8 8 ++ sig s (do_e s) (cm_eid c) 6 6) (ss_cams s)) ++ [(0%nat, kind_num (ss_kind s))] ++
  prec 8 (sig s (do_imu s) (id_dw s) 6 6 ++ sig s (do_imu s) (id_da s) 6 6 ++ sig s (do_imu s && do_g s) (id_tg s) 9 9 ++
          sig s (do_imu s && kal s) (id_w s) 4 3 ++ sig s (do_imu s && negb (kal s)) (id_a s) 4 3).
Lemma std_row_pure t s r : std_row t s = Ok r -> r = std_pure t s.
Proof.
  unfold std_row. intros E.
  destruct (omap _ [_; _; _; _; _]) as [a| |] eqn:Ha; try discriminate. cbn [obind] in E. destruct (devs_if s (do_dt s) _ _ _) as [o| |] eqn:Ho; try discriminate. cbn [obind] in E.
  destruct (omap _ (ss_cams s)) as [c| |] eqn:Hc; try discriminate. cbn [obind] in E.
  destruct (devs_if s (do_imu s) (id_dw s) _ _) as [dw| |] eqn:H1; try discriminate. cbn [obind] in E. destruct (devs_if s (do_imu s) (id_da s) _ _) as [da| |] eqn:H2; try discriminate. cbn [obind] in E.
  destruct (devs_if s _ (id_tg s) _ _) as [tg| |] eqn:H3; try discriminate. cbn [obind] in E. destruct (devs_if s _ (id_w s) _ _) as [w| |] eqn:H4; try discriminate. cbn [obind] in E.
  destruct (devs_if s _ (id_a s) _ _) as [x| |] eqn:H5; try discriminate. cbn [obind] in E.
  apply (omap_pure _ (fun id => sig s true id 3 3)) in Ha; [|intros; apply devs_pure; assumption].
  apply (omap_pure _ (fun c => sig s (do_k s) (cm_kid c) 8 8 ++ sig s (do_e s) (cm_eid c) 6 6)) in Hc.
  2:{ intros y z K. destruct (devs_if s (do_k s) _ _ _) as [k| |] eqn:K1; try discriminate. cbn [obind] in K. destruct (devs_if s (do_e s) _ _ _) as [e| |] eqn:K2; try discriminate. cbn [obind] in K.
      apply devs_if_pure in K1, K2. congruence. }
  apply devs_if_pure in Ho, H1, H2, H3, H4, H5. injection E as <-. subst. unfold std_pure, kal. rewrite flat_map_concat_map.
  cbn [map concat]. rewrite app_nil_r, <- !app_assoc. destruct (ss_kind s); reflexivity.
Qed.
Lemma sig_nth s b id n z j : (j < n)%nat -> (j < z)%nat -> nth_error (sig s b id n z) j = Some (if b then sigma s (id + j) else 0).
Proof. intros N Z. unfold sig. destruct b; [apply (nth_take n (fun j => sigma s (id + j))); auto|]. rewrite (nth_error_nth' _ 0) by (rewrite repeat_length; auto). f_equal. clear N. revert j Z. induction z; intros [|j] Z; cbn; auto; try lia. apply IHz. lia. Qed.
Lemma sig_length s b id n : length (sig s b id n n) = n.
Proof. unfold sig. destruct b; [apply take_length|apply repeat_length]. Qed.
Lemma std_head t s j : (j < 17)%nat -> nth_error (vals rd (std_pure t s)) j =
  nth_error (rd 5%nat t :: map (rd 6%nat) ((sig s true (id_q s) 3 3 ++ sig s true (id_p s) 3 3 ++ sig s true (id_v s) 3 3 ++ sig s true (id_bg s) 3 3 ++ sig s true (id_ba s) 3 3) ++ sig s (do_dt s) (id_dt s) 1 1)) j.
Proof.
  intros J. unfold std_pure. rewrite vals_app, vals_app, vals_prec. cbn [vals map app fst snd]. destruct j as [|j]; [reflexivity|]. cbn [nth_error]. apply nth_error_app1.
  rewrite map_length. repeat rewrite app_length. rewrite !sig_length. lia.
Qed.
Lemma std_cam t s i c j : nth_error (ss_cams s) i = Some c -> (j < 14)%nat ->
  nth_error (vals rd (std_pure t s)) (18 + (14 * i + j)) = Some (rd 6%nat (nth j (sig s (do_k s) (cm_kid c) 8 8 ++ sig s (do_e s) (cm_eid c) 6 6) 0)).
Proof.
  intros E J. unfold std_pure. rewrite vals_app, (vals_app rd (prec 6 _)), vals_prec. set (h := map (rd 6%nat) _). assert (Lh : length h = 16%nat) by (unfold h; rewrite map_length; repeat rewrite app_length; rewrite !sig_length; lia). clearbody h.
  remember (14 * i + j)%nat as k eqn:K. rewrite nth_error_app2 by (cbn; lia). replace (18 + k - length (vals rd [(5%nat, t)]))%nat with (17 + k)%nat by (cbn; lia). rewrite nth_error_app2 by lia. rewrite Lh. replace (17 + k - 16)%nat with (S k) by lia. cbn [vals map app fst snd nth_error]. rewrite K.
  assert (W : forall c, length (sig s (do_k s) (cm_kid c) 8 8 ++ sig s (do_e s) (cm_eid c) 6 6) = 14%nat) by (intros; rewrite app_length, !sig_length; reflexivity).
  change (map (fun c0 : nat * R => rd (fst c0) (snd c0))) with (vals rd). rewrite vals_app, vals_prec. rewrite nth_error_app1.
  - rewrite nth_error_map. rewrite <- (app_nil_r (flat_map _ _)). rewrite (nth_flat _ 14 W _ i c j [] E J). rewrite (nth_error_nth' _ 0) by (rewrite W; exact J). reflexivity.
  - rewrite map_length, (flat_length _ 14 W). assert (i < length (ss_cams s))%nat by (apply nth_error_Some; congruence). nia.
Qed.
Lemma std_imu t s j : nth_error (vals rd (std_pure t s)) (19 + 14 * length (ss_cams s) + j) =
  nth_error (map (rd 8%nat) (sig s (do_imu s) (id_dw s) 6 6 ++ sig s (do_imu s) (id_da s) 6 6 ++ sig s (do_imu s && do_g s) (id_tg s) 9 9 ++
          sig s (do_imu s && kal s) (id_w s) 4 3 ++ sig s (do_imu s && negb (kal s)) (id_a s) 4 3)) j.
Proof.
  unfold std_pure. rewrite vals_app, (vals_app rd (prec 6 _)), vals_prec. set (h := map (rd 6%nat) _). assert (Lh : length h = 16%nat) by (unfold h; rewrite map_length; repeat rewrite app_length; rewrite !sig_length; lia). clearbody h.
  replace (19 + 14 * length (ss_cams s) + j)%nat with (18 + (14 * length (ss_cams s) + S j))%nat by lia. remember (14 * length (ss_cams s) + S j)%nat as k eqn:K. rewrite nth_error_app2 by (cbn; lia). replace (18 + k - length (vals rd [(5%nat, t)]))%nat with (17 + k)%nat by (cbn; lia). rewrite nth_error_app2 by lia. rewrite Lh. replace (17 + k - 16)%nat with (S k) by lia. cbn [vals map app fst snd nth_error]. rewrite K.
  assert (W : forall c, length (sig s (do_k s) (cm_kid c) 8 8 ++ sig s (do_e s) (cm_eid c) 6 6) = 14%nat) by (intros; rewrite app_length, !sig_length; reflexivity).
  change (map (fun c0 : nat * R => rd (fst c0) (snd c0))) with (vals rd). rewrite vals_app, vals_prec. rewrite nth_error_app2; rewrite map_length, (flat_length _ 14 W); [|lia].
  replace (14 * length (ss_cams s) + S j - 14 * length (ss_cams s))%nat with (S j) by lia. cbn [vals map nth_error]. change (map (fun c0 : nat * R => rd (fst c0) (snd c0))) with (vals rd). rewrite vals_prec. reflexivity.
Qed.
End Rows.
