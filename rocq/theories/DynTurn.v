(** The rotation gate of the dynamic initializer (C84). *)
From Coq Require Import Reals List Arith ZArith Bool Lia Lra.
From Verif Require Import RBool Outcome GeoModel GeoSpec Lin TypesModel ImuModel ImuSpec ImuProofs DbModel DbSpec DbProofs DbThms InitModel InitSpec StartModel StartSpec StartThms DynModel DynSpec DynProofs DynThms.
Import ListNotations.
Open Scope R_scope.

(** ** the norm *)
Definition sq3 (a : v3) : R := vx a * vx a + vy a * vy a + vz a * vz a.
Lemma norm_sq a : v3norm a = sqrt (sq3 a). Proof. reflexivity. Qed.
Lemma sq3_pos a : 0 <= sq3 a. Proof. unfold sq3. pose proof (Rle_0_sqr (vx a)). pose proof (Rle_0_sqr (vy a)). pose proof (Rle_0_sqr (vz a)). unfold Rsqr in *. lra. Qed.
Lemma norm_le a W : 0 <= W -> (v3norm a <= W <-> sq3 a <= W * W).
Proof.
  intros H. rewrite norm_sq. split; intros X.
  - rewrite <- (sqrt_sqrt (sq3 a)) by apply sq3_pos. pose proof (sqrt_pos (sq3 a)). nra.
  - rewrite <- (sqrt_square W) by exact H. apply sqrt_le_1_alt, X.
Qed.
Lemma norm_scal k a : 0 <= k -> v3norm (v3scal k a) = k * v3norm a.
Proof. intros H. rewrite !norm_sq. replace (sq3 (v3scal k a)) with (k * k * sq3 a) by (unfold sq3; simpl; ring). rewrite sqrt_mult by (try apply sq3_pos; nra). rewrite sqrt_square by exact H. reflexivity. Qed.
Lemma norm_mix a b c l W : 0 <= l <= 1 -> 0 <= W -> v3norm (v3sub a c) <= W -> v3norm (v3sub b c) <= W ->
  v3norm (v3sub (v3add (v3scal (1 - l) a) (v3scal l b)) c) <= W.
Proof.
  intros L H A B. apply norm_le in A; [|exact H]. apply norm_le in B; [|exact H]. apply norm_le; [exact H|].
  set (p := v3sub a c) in *. set (q := v3sub b c) in *.
  replace (sq3 _) with ((1 - l) * sq3 p + l * sq3 q - (1 - l) * l * sq3 (v3sub p q)) by (unfold sq3, p, q; simpl; ring).
  pose proof (sq3_pos (v3sub p q)). assert (0 <= (1 - l) * l) by nra. pose proof (Rmult_le_pos _ _ H1 H0). nra.
Qed.

(** ** the readings selected *)
Section Good.
Variable G : imu -> Prop.
Hypothesis Gmix : forall a b t, G a -> G b -> i_t a < i_t b -> i_t a <= t <= i_t b -> G (interpolate_data a b t).
Definition sel_ok (t0 t1 : R) (l : list imu) : Prop := chrono l /\ forall m, In m l -> t0 <= i_t m <= t1 /\ G m.
Lemma sel_snoc t0 t1 l x : sel_ok t0 t1 l -> (forall m, In m l -> i_t m < i_t x) -> t0 <= i_t x <= t1 -> G x -> sel_ok t0 t1 (l ++ [x]).
Proof.
  intros [C K] B T X. split.
  - apply chrono_app. split; [exact C|]. split; [split; [intros b []|exact I]|]. intros a b Ha [<-|[]]. apply B, Ha.
  - intros m Hm. apply in_app_or in Hm. destruct Hm as [Hm|[<-|[]]]; [apply K, Hm|split; auto].
Qed.
Lemma loop_good t0 t1 : t0 < t1 -> forall l prev acc r, sel_loop t0 t1 prev l acc = Ok r -> chrono l -> (forall m, In m l -> G m) ->
  sel_ok t0 t1 acc ->
  match l with [] => True | a :: _ =>
    (acc <> [] -> t0 <= i_t a) /\ (forall m, In m acc -> i_t m < i_t a /\ i_t m < t1) /\
    (match prev with None => True | Some p => G p /\ i_t p < i_t a /\ (t1 < i_t a -> i_t p <= t1) end) end ->
  sel_ok t0 t1 r.
Proof.
  intros T. induction l as [|a [|b l] IH]; intros prev acc r E C Gl A Inv; [injection E as <-; exact A|injection E as <-; exact A|].
  rewrite sel_eq in E. destruct Inv as (I1 & I2 & I3). destruct C as [Ca Cb]. pose proof (Ca b (or_introl eq_refl)) as Lab.
  assert (Ga : G a) by (apply Gl; left; auto). assert (Gb : G b) by (apply Gl; right; left; auto).
  assert (Gl' : forall m, In m (b :: l) -> G m) by (intros m Hm; apply Gl; right; exact Hm).
  destruct (Rltb_spec t0 (i_t b)) as [H1|H1]; cbn [andb] in E.
  - destruct (Rltb_spec (i_t a) t0) as [H2|H2].
    + assert (acc = []) as -> by (destruct acc; [reflexivity|exfalso; assert (t0 <= i_t a) by (apply I1; discriminate); lra]).
      eapply IH; [exact E|exact Cb|exact Gl'| |].
      * split; [split; [intros ? []|exact I]|]. intros m [<-|[]]. split; [simpl; lra|]. apply Gmix; auto; lra.
      * split; [intros _; lra|]. split; [intros m [<-|[]]; simpl; lra|]. split; [exact Ga|]. split; [exact Lab|]. intros _. lra.
    + destruct (Rleb_spec t0 (i_t a)) as [_|H3]; [|lra]. cbn [andb] in E. destruct (Rleb_spec (i_t b) t1) as [H4|H4].
      * eapply IH; [exact E|exact Cb|exact Gl'| |].
        -- apply sel_snoc; [exact A|intros m Hm; apply I2, Hm|lra|exact Ga].
        -- split; [intros _; lra|]. split; [intros m Hm; apply in_app_or in Hm; destruct Hm as [Hm|[<-|[]]]; [destruct (I2 m Hm); lra|lra]|].
           split; [exact Ga|]. split; [exact Lab|]. intros; lra.
      * destruct (Rltb_spec t1 (i_t b)) as [_|H5]; [|lra]. destruct (Rltb_spec t1 (i_t a)) as [H6|H6].
        -- destruct prev as [p|]; cbn [option_map] in E; [|injection E as <-; exact A].
           change (i_t (interpolate_data p a t1)) with t1 in E. destruct (Reqb_spec t1 t1) as [_|X]; [|contradiction]. injection E as <-.
           destruct I3 as (P1 & P2 & P3). specialize (P3 H6). apply sel_snoc; [exact A|intros m Hm; simpl; apply I2, Hm|simpl; lra|apply Gmix; auto; lra].
        -- destruct (Reqb_spec (i_t a) t1) as [H7|H7]; injection E as <-.
           ++ apply sel_snoc; [exact A|intros m Hm; apply I2, Hm|lra|exact Ga].
           ++ change (acc ++ [a; interpolate_data a b t1]) with (acc ++ [a] ++ [interpolate_data a b t1]). rewrite app_assoc.
              assert (i_t a < t1) by (destruct H6; [assumption|contradiction]).
              apply sel_snoc; [apply sel_snoc; [exact A|intros m Hm; apply I2, Hm|lra|exact Ga]| |simpl; lra|apply Gmix; auto; lra].
              intros m Hm. simpl. apply in_app_or in Hm. destruct Hm as [Hm|[<-|[]]]; [apply I2, Hm|assumption].
  - destruct (Rleb_spec t0 (i_t a)) as [H3|H3]; [lra|]. cbn [andb] in E. destruct (Rltb_spec t1 (i_t b)) as [H5|H5]; [lra|].
    eapply IH; [exact E|exact Cb|exact Gl'|exact A|].
    assert (acc = []) as -> by (destruct acc; [reflexivity|exfalso; assert (t0 <= i_t a) by (apply I1; discriminate); lra]).
    split; [intros X; contradiction|]. split; [intros m []|]. split; [exact Ga|]. split; [exact Lab|]. intros; lra.
Qed.
Lemma select_good data t0 t1 rd : t0 < t1 -> chrono data -> (forall m, In m data -> G m) -> init_select_imu_readings data t0 t1 = Ok rd -> sel_ok t0 t1 rd.
Proof.
  intros T C Gd. unfold init_select_imu_readings. destruct data as [|a l]; [intros E; injection E as <-; split; [exact I|intros ? []]|].
  intros E. apply obind_ok in E. destruct E as (p & Ep & E). injection E as <-.
  assert (S : sel_ok t0 t1 p).
  { eapply loop_good; [exact T|exact Ep|exact C|exact Gd|split; [exact I|intros ? []]|]. split; [intros X; contradiction|]. split; [intros ? []|exact I]. }
  destruct S as [S1 S2]. split; [apply compact_spaced, S1|]. intros m Hm. apply S2, compact_incl, Hm.
Qed.
End Good.

(** ** the angle summed *)
Fixpoint turn_from (bg : v3) (a : imu) (l : list imu) (s : R) : R :=
  match l with
  | [] => s
  | b :: l' => turn_from bg b l' (s + v3norm (v3scal (i_t b - i_t a) (v3neg (v3sub (v3scal (5 / 10) (v3add (i_w a) (i_w b))) bg))))
  end.
Lemma turned_from bg a l : turned bg (a :: l) = turn_from bg a l 0.
Proof. unfold turned. cbn [hd tl]. generalize 0. revert a. induction l as [|b l IH]; intros a s; [reflexivity|]. cbn [turn_from]. apply IH. Qed.
Lemma norm_neg a : v3norm (v3neg a) = v3norm a.
Proof. rewrite !norm_sq. f_equal. unfold sq3. simpl. ring. Qed.
Lemma half_mix a b c W : 0 <= W -> v3norm (v3sub a c) <= W -> v3norm (v3sub b c) <= W -> v3norm (v3sub (v3scal (5 / 10) (v3add a b)) c) <= W.
Proof.
  intros H A B. pose proof (norm_mix a b c (5 / 10) W ltac:(lra) H A B) as X. replace (v3add (v3scal (1 - 5 / 10) a) (v3scal (5 / 10) b)) with (v3scal (5 / 10) (v3add a b)) in X; [exact X|].
  apply v3_ext; simpl; lra.
Qed.
Lemma turn_bound bg W : 0 <= W -> forall l a s, chrono (a :: l) -> (forall m, In m (a :: l) -> v3norm (v3sub (i_w m) bg) <= W) ->
  turn_from bg a l s <= s + W * durations (a :: l).
Proof.
  intros H. induction l as [|b l IH]; intros a s C B; [cbn; lra|]. cbn [turn_from]. destruct C as [Ca Cb]. pose proof (Ca b (or_introl eq_refl)) as L.
  change (durations (a :: b :: l)) with (i_t b - i_t a + durations (b :: l)). eapply Rle_trans; [apply IH; [exact Cb|intros m Hm; apply B; right; exact Hm]|].
  rewrite norm_scal by lra. rewrite norm_neg. pose proof (half_mix (i_w a) (i_w b) bg W H (B a (or_introl eq_refl)) (B b (or_intror (or_introl eq_refl)))) as X.
  assert ((i_t b - i_t a) * v3norm (v3sub (v3scal (5 / 10) (v3add (i_w a) (i_w b))) bg) <= (i_t b - i_t a) * W) by (apply Rmult_le_compat_l; lra). lra.
Qed.
Lemma turn_const bg w : forall l a s, chrono (a :: l) -> (forall m, In m (a :: l) -> i_w m = w) -> turn_from bg a l s = s + v3norm (v3sub w bg) * durations (a :: l).
Proof.
  induction l as [|b l IH]; intros a s C B; [cbn; lra|]. cbn [turn_from]. destruct C as [Ca Cb]. pose proof (Ca b (or_introl eq_refl)) as L.
  change (durations (a :: b :: l)) with (i_t b - i_t a + durations (b :: l)). rewrite IH; [|exact Cb|intros m Hm; apply B; right; exact Hm].
  rewrite norm_scal by lra. rewrite norm_neg. rewrite (B a (or_introl eq_refl)), (B b (or_intror (or_introl eq_refl))).
  replace (v3sub (v3scal (5 / 10) (v3add w w)) bg) with (v3sub w bg) by (apply v3_ext; simpl; lra). ring.
Qed.
Lemma durations_le t0 t1 l : t0 <= t1 -> chrono l -> (forall m, In m l -> t0 <= i_t m <= t1) -> durations l <= t1 - t0.
Proof.
  intros T C B. destruct l as [|x l]; [cbn; lra|]. destruct (exists_last (l := x :: l) ltac:(discriminate)) as (l' & y & E).
  destruct l' as [|x' l']; [rewrite E; cbn; lra|]. injection E as -> ->. rewrite durations_ends.
  pose proof (B x' (or_introl eq_refl)). assert (Hy : In y (x' :: l' ++ [y])) by (right; apply in_or_app; right; left; reflexivity). pose proof (B y Hy). lra.
Qed.
Lemma interp_const a b t : i_t a < i_t b -> i_w a = i_w b -> i_w (interpolate_data a b t) = i_w b.
Proof. intros L E. unfold interpolate_data. cbn [i_w]. rewrite E. apply v3_ext; simpl; field; lra. Qed.

(** a device that turns at most [W] rad/s around its corrected gyroscope gets no guess when the whole window cannot reach the threshold *)
Lemma core_gate L o d data tn gu W : chrono data -> 0 <= W -> (forall m, In m data -> v3norm (v3sub (i_w m) (yo_bg o)) <= W) ->
  db_ok d -> 0 < yo_window o -> (0 <= yo_npose o)%Z -> (forall t, measured d t -> tn - yo_window o < t <= tn) ->
  dyn_core L o d data tn = Ok (Some gu) -> yo_deg o <= 180 / PI * (W * yo_window o).
Proof.
  intros C HW B Dk Wp N Hm E. pose proof (scan_facts o d tn Dk Wp N Hm) as F. cbv zeta in F. unfold dyn_core in E. cbv zeta in E. set (s := scan o d tn) in *.
  destruct F as (_ & _ & _ & F4 & F5 & _). destruct (Z.of_nat (length (sc_poses s)) <? yo_npose o)%Z; [discriminate|].
  destruct (sc_cnt s <? 8)%nat; [discriminate|]. destruct (sc_old s) as [old|]; [|discriminate]. specialize (F4 old (F5 old eq_refl)).
  apply obind_ok in E. destruct E as (rd & Er & E). apply guard_ok in E; [|discriminate]. destruct E as [Ln E].
  destruct (Rltb_spec (180 / PI * turned (yo_bg o) rd) (yo_deg o)) as [|Gt]; [discriminate|]. destruct (sc_meas s <? _)%nat; [discriminate|].
  apply guard_ok in E; [|discriminate]. destruct E as [Lt _]. destruct (Rltb_spec old tn) as [Lt'|]; [|discriminate].
  assert (Mo : measured d old) by (destruct F4; [lra|assumption]). destruct (Hm old Mo) as [Lo _].
  assert (Sg : sel_ok (fun m => v3norm (v3sub (i_w m) (yo_bg o)) <= W) (old + yo_dt o) (tn + yo_dt o) rd).
  { eapply select_good; [|lra|exact C|exact B|exact Er]. intros a b t Ga Gb Lab Lt2. cbn [interpolate_data i_w]. apply norm_mix; auto.
    split; [apply Rmult_le_pos; [lra|apply Rlt_le, Rinv_0_lt_compat; lra]|]. apply (Rmult_le_reg_r (i_t b - i_t a)); [lra|]. unfold Rdiv. rewrite Rmult_assoc, Rinv_l by lra. lra. }
  destruct Sg as [S1 S2]. destruct rd as [|a l]; [discriminate|]. rewrite turned_from in Gt. apply Rnot_lt_le in Gt || idtac.
  assert (T : turn_from (yo_bg o) a l 0 <= W * yo_window o).
  { eapply Rle_trans; [apply (turn_bound _ W HW); [exact S1|intros m Hm'; apply S2, Hm']|]. rewrite Rplus_0_l. apply Rmult_le_compat_l; [exact HW|].
    eapply Rle_trans; [apply (durations_le (old + yo_dt o) (tn + yo_dt o)); [lra|exact S1|intros m Hm'; apply S2, Hm']|]. lra. }
  eapply Rle_trans; [apply Gt|]. apply Rmult_le_compat_l; [apply Rlt_le, Rdiv_lt_0_compat; [lra|apply PI_RGT_0]|exact T].
Qed.
Lemma chrono_drop t l : chrono l -> chrono (drop_before t l).
Proof. induction l as [|a l IH]; intros C; [exact I|]. cbn [drop_before]. destruct (Rltb (i_t a) t); [apply IH, C|exact C]. Qed.
Lemma drop_incl t l m : In m (drop_before t l) -> In m l.
Proof. induction l as [|a l IH]; [auto|]. cbn [drop_before]. destruct (Rltb (i_t a) t); [intros H; right; apply IH, H|auto]. Qed.
Lemma gate_thm L o d data gu d' data' W : db_ok d -> 0 < yo_window o -> (0 <= yo_npose o)%Z -> chrono data ->
  (forall m, In m data -> v3norm (v3sub (i_w m) (yo_bg o)) <= W) -> dynamic_guess L o d data = Ok (Some gu, d', data') -> yo_deg o <= 180 / PI * (W * yo_window o).
Proof.
  intros Dk Wp N C B. unfold dynamic_guess. cbv zeta. rewrite newest_cam_eq. destruct (fold_max (all_times d) (-1)) as (M1 & M2 & M3). set (tn := fold_left std_max (all_times d) (-1)) in *.
  destruct (Rltb tn 0); cbn [orb]; [discriminate|]. destruct (Rltb (tn - yo_window o) 0); [discriminate|].
  destruct (cleanup_measurements_thm d (tn - yo_window o) Dk) as (d1 & Ec & Dk1 & Cl). rewrite Ec. cbn [obind].
  destruct (Rltb (INR (length d1)) _); [discriminate|]. destruct (_ || _)%bool eqn:Eb; [discriminate|]. intros E. apply obind_ok in E. destruct E as (r & Er & E). injection E as -> -> _.
  assert (HW : 0 <= W). { destruct data as [|m data]; [discriminate|]. eapply Rle_trans; [|apply (B m); left; auto]. rewrite norm_sq. apply sqrt_pos. }
  eapply core_gate; [|exact HW| |exact Dk1|exact Wp|exact N| |exact Er].
  - apply chrono_drop, C.
  - intros m Hm. apply B. apply (drop_incl _ _ _ Hm).
  - intros t Ht. apply (cleaned_measured _ _ _ _ Cl) in Ht. destruct Ht as [A X]. split; [exact X|]. apply M2. apply all_times_spec; auto.
Qed.
(** turning at a constant rate the angle is rate times duration *)
Lemma const_thm o data t0 t1 rd w : t0 < t1 -> chrono data -> (forall m, In m data -> i_w m = w) -> init_select_imu_readings data t0 t1 = Ok rd ->
  turned (yo_bg o) rd = v3norm (v3sub w (yo_bg o)) * durations rd.
Proof.
  intros T C B E. destruct (select_good (fun m => i_w m = w)) with (data := data) (t0 := t0) (t1 := t1) (rd := rd) as [S1 S2]; auto.
  { intros a b t Ha Hb L _. rewrite interp_const; congruence. }
  destruct rd as [|a l]; [unfold turned; cbn; ring|]. rewrite turned_from, (turn_const _ w); [ring|exact S1|]. intros m Hm. apply S2, Hm.
Qed.
