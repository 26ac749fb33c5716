From Coq Require Import Reals List Bool Lia Lra.
From Verif Require Import RBool Outcome GeoModel ImuModel ImuSpec ImuProofs.
Import ListNotations.
Open Scope R_scope.

Definition raw_finish (data : list imu) (t1 : R) (p : list imu) : outcome (list imu) :=
  match p with
  | [] => Ok []
  | _ => if Reqb (i_t (last p (mkImu 0 v3zero v3zero))) t1 then Ok p
         else match last_two data with None => UB | Some (a, b) => Ok (p ++ [interpolate_data a b t1]) end
  end.
Lemma select_raw data t0 t1 p q : data <> [] -> sel_loop t0 t1 None data [] = Ok p -> raw_finish data t1 p = Ok q ->
  select_imu_readings data t0 t1 = Ok (compact q).
Proof.
  intros Hd E F. unfold select_imu_readings. destruct data as [|a data]; [congruence|]. rewrite E. cbn [obind].
  unfold raw_finish in F. destruct p as [|x p]; [injection F as <-; reflexivity|].
  destruct (Reqb _ _); [injection F as <-; reflexivity|]. destruct (last_two _) as [[u v]|]; [|discriminate].
  injection F as <-. reflexivity.
Qed.
Lemma last_app (l : list imu) x d : last (l ++ [x]) d = x.
Proof. induction l as [|a l IH]; auto. simpl. destruct (l ++ [x]) eqn:E; [destruct l; discriminate|]. exact IH. Qed.
Lemma finish_ends data t1 l r1 : i_t r1 = t1 -> raw_finish data t1 (l ++ [r1]) = Ok (l ++ [r1]).
Proof.
  intros H. unfold raw_finish. rewrite last_app, H. rewrite (proj2 (Reqb_true _ _) eq_refl).
  destruct (l ++ [r1]) eqn:E; [destruct l; discriminate|]. reflexivity.
Qed.
Lemma sig_suffix pre l r : on_signal l r -> on_signal (pre ++ l) r.
Proof. induction pre; simpl; auto. intros H. apply sig_cons; auto. Qed.

Lemma upto_all t1 l : chrono l -> (exists z l', l = l' ++ [z] /\ i_t z = t1) -> upto t1 l = removelast l.
Proof.
  intros C (z & l' & -> & Hz). rewrite removelast_last. unfold upto. rewrite filter_app. simpl.
  rewrite (proj2 (Rltb_false _ _)) by lra. rewrite app_nil_r. apply chrono_app in C. destruct C as (_ & _ & C).
  clear -C Hz. induction l' as [|a l' IH]; auto. simpl. rewrite (proj2 (Rltb_true _ _)).
  - rewrite IH; auto. intros x y Hx Hy. apply C; simpl; auto.
  - rewrite <- Hz. apply C; simpl; auto.
Qed.
Lemma last_split (l : list imu) : l <> [] -> exists l' z, l = l' ++ [z].
Proof. intros H. exists (removelast l), (last l (mkImu 0 v3zero v3zero)). apply app_removelast_last; auto. Qed.

(** from the first reading at or after t0 on *)
Lemma tail_covered t0 t1 pre b post prev acc : t0 < t1 -> chrono (pre ++ b :: post) -> t0 <= i_t b <= t1 ->
  (exists z, In z (b :: post) /\ t1 <= i_t z) -> (forall x, In x acc -> i_t x = t0) -> (pre <> [] \/ post <> []) ->
  acc <> [] \/ i_t b = t0 ->
  exists p r1, sel_loop t0 t1 prev (b :: post) acc = Ok p /\
    raw_finish (pre ++ b :: post) t1 p = Ok (acc ++ upto t1 (b :: post) ++ [r1]) /\ i_t r1 = t1 /\ on_signal (pre ++ b :: post) r1.
Proof.
  intros H01 C Hb Hz Hacc Hne Hs. assert (Cb : chrono (b :: post)) by (apply chrono_app in C; tauto).
  destruct (Rlt_le_dec t1 (i_t (last (b :: post) b))) as [L|L].
  - destruct (loop_inside t0 t1 post prev acc b Cb Hb H01) as (r1 & E & T & Sg).
    { exists (last (b :: post) b). split; auto. apply last_in. discriminate. }
    exists (acc ++ upto t1 (b :: post) ++ [r1]), r1. split; auto. split; [|split; auto; apply sig_suffix; auto].
    rewrite !app_assoc. apply finish_ends; auto.
  - assert (Lz : i_t (last (b :: post) b) = t1).
    { destruct Hz as (z & Iz & Hz). pose proof (chrono_last _ b z Cb Iz). lra. }
    rewrite loop_short; auto; [| lra |].
    2:{ intros z Iz. pose proof (chrono_last _ b z Cb Iz). lra. }
    destruct (last_split (b :: post)) as (l' & z & El); [discriminate|].
    assert (Hzt : i_t z = t1) by (rewrite El, last_app in Lz; auto).
    assert (Eu : upto t1 (b :: post) = removelast (b :: post)) by (apply upto_all; eauto).
    exists (acc ++ removelast (b :: post)), z. split; auto. rewrite Eu.
    assert (Er : removelast (b :: post) = l') by (rewrite El; apply removelast_last).
    rewrite Er. split; [|split; auto; left; apply in_or_app; right; rewrite El; apply in_or_app; simpl; auto].
    (* the list so far ends before t1 *)
    assert (Hlt : forall x, In x (acc ++ l') -> i_t x < t1).
    { intros x Hx. apply in_app_or in Hx. destruct Hx as [Hx|Hx]; [rewrite (Hacc x Hx); auto|].
      rewrite El in Cb. apply chrono_app in Cb. destruct Cb as (_ & _ & Cb). rewrite <- Hzt. apply Cb; simpl; auto. }
    assert (Hnn : acc ++ l' <> []).
    { destruct Hs as [Hs|Hs]; [destruct acc; [congruence|discriminate]|]. destruct acc; [|discriminate]. simpl.
      destruct l'; [|discriminate]. simpl in El. injection El as -> _. lra. }
    unfold raw_finish. destruct (acc ++ l') as [|h tl] eqn:Eh; [congruence|]. rewrite <- Eh in *.
    destruct (Reqb_spec (i_t (last (acc ++ l') (mkImu 0 v3zero v3zero))) t1) as [X|X].
    { pose proof (Hlt (last (acc ++ l') (mkImu 0 v3zero v3zero))). rewrite X in H. exfalso.
      assert (t1 < t1); [|lra]. apply H. apply last_in. congruence. }
    assert (Two : exists u v w, pre ++ b :: post = u :: v :: w).
    { destruct pre as [|u pre]; [|destruct pre; simpl; eauto]. destruct post; [tauto|]. simpl. eauto. }
    destruct Two as (u & v & w & Ew). rewrite Ew. destruct (last_two_cons u v w) as (x & y & E2 & Ad & Ly). rewrite E2.
    assert (Hxy : i_t x < i_t y) by (apply (adj_order (u :: v :: w)); [rewrite <- Ew; exact C|exact Ad]).
    assert (Hyz : y = z).
    { rewrite <- Ly, <- Ew, (last_indep _ u (mkImu 0 v3zero v3zero)) by (destruct pre; discriminate).
      rewrite El, app_assoc, last_app. reflexivity. }
    rewrite Hyz in *. clear Hyz. assert (EI : interpolate_data x z t1 = z) by (rewrite <- Hzt; apply interp_right; exact Hxy). rewrite EI. rewrite app_assoc. reflexivity.
Qed.

Lemma inside_pre t0 t1 pre post : (forall a, In a pre -> i_t a < t0) -> inside t0 t1 (pre ++ post) = inside t0 t1 post.
Proof.
  intros H. unfold inside. rewrite filter_app. replace (filter _ pre) with (@nil imu); auto.
  induction pre as [|a pre IH]; auto. simpl. destruct (Rltb_spec t0 (i_t a)) as [L|L].
  - specialize (H a ltac:(simpl; auto)). lra.
  - simpl. apply IH. intros x Hx. apply H. simpl; auto.
Qed.
Lemma inside_upto t0 t1 l : (forall a, In a l -> t0 < i_t a) -> inside t0 t1 l = upto t1 l.
Proof.
  intros H. unfold inside, upto. apply filter_ext_in. intros a Ha. rewrite (proj2 (Rltb_true _ _) (H a Ha)). reflexivity.
Qed.

Lemma raw_covered data t0 t1 : chrono data -> t0 < t1 -> covers data t0 t1 ->
  exists p r0 r1, sel_loop t0 t1 None data [] = Ok p /\ raw_finish data t1 p = Ok (r0 :: inside t0 t1 data ++ [r1]) /\
    i_t r0 = t0 /\ i_t r1 = t1 /\ on_signal data r0 /\ on_signal data r1.
Proof.
  intros C H01 ((a & Ia & Ha) & (z & Iz & Hz)). destruct (split_at t0 data C) as (pre & post & E & Hpre & Hpost).
  assert (Izp : In z post).
  { rewrite E in Iz. apply in_app_or in Iz. destruct Iz as [Iz|Iz]; auto. specialize (Hpre z Iz). lra. }
  destruct post as [|b post]; [destruct Izp|]. assert (Cb : chrono (b :: post)) by (rewrite E in C; apply chrono_app in C; tauto).
  (* a reading exactly at t0 *)
  assert (Exact : i_t b = t0 -> forall prev, exists p r0 r1, sel_loop t0 t1 prev (b :: post) [] = Ok p /\
     raw_finish data t1 p = Ok (r0 :: inside t0 t1 data ++ [r1]) /\ i_t r0 = t0 /\ i_t r1 = t1 /\ on_signal data r0 /\ on_signal data r1).
  { intros Hb prev. rewrite E in C.
    destruct (tail_covered t0 t1 pre b post prev [] H01 C) as (p & r1 & E1 & E2 & T & Sg); auto; [lra|eauto|intros ? []| |].
    { right. intros ->. destruct Izp as [<-|[]]. lra. }
    exists p, b, r1. split; auto. rewrite E, inside_pre by auto. split; [|split; auto; split; auto; split; auto].
    - rewrite E2. rewrite upto_cons_lt by lra. cbn [app]. unfold inside. cbn [filter]. rewrite (proj2 (Rltb_false _ _)) by lra. cbn [andb].
      fold (inside t0 t1 post). rewrite inside_upto; auto. intros x Hx. destruct Cb as [Cb _]. specialize (Cb x Hx). lra.
    - left. apply in_or_app. simpl; auto. }
  destruct (Rle_lt_dec (i_t b) t0) as [Hb|Hb].
  - assert (Hb0 : i_t b = t0) by (specialize (Hpost b ltac:(simpl; auto)); lra).
    destruct pre as [|p0 pre0]; [simpl in E; rewrite E in *; apply Exact; auto|].
    destruct (last_split (p0 :: pre0)) as (pre' & p & Ep); [discriminate|]. rewrite Ep in *.
    destruct (Exact Hb0 (Some p)) as (q & r0 & r1 & Q1 & Q). exists q, r0, r1. split; auto.
    rewrite E, <- app_assoc. cbn [app]. destruct (loop_skip t0 t1 H01 pre' None [] p b post) as (pr & E1 & _); auto.
    + rewrite E, <- app_assoc in C. exact C.
    + apply Hpre. apply in_or_app; simpl; auto.
    + lra.
    + intros x Hx. apply Hpre. apply in_or_app; auto.
    + rewrite E1. destruct (Rltb_spec t0 (i_t b)); [lra|]. exact Q1.
  - destruct pre as [|p0 pre0].
    { simpl in E. rewrite E in Ia. destruct Ia as [<-|Ia]; [lra|]. destruct Cb as [Cb _]. specialize (Cb a Ia). lra. }
    destruct (last_split (p0 :: pre0)) as (pre' & p & Ep); [discriminate|]. rewrite Ep in *. clear Ep p0 pre0.
    assert (Hp : i_t p < t0) by (apply Hpre; apply in_or_app; simpl; auto).
    assert (Hins : inside t0 t1 data = upto t1 (b :: post)).
    { rewrite E, inside_pre by auto. apply inside_upto. intros x Hx. destruct Hx as [<-|Hx]; auto. destruct Cb as [Cb _]. specialize (Cb x Hx). lra. }
    assert (C' : chrono (pre' ++ p :: b :: post)) by (rewrite E, <- app_assoc in C; exact C).
    assert (E' : data = pre' ++ p :: b :: post) by (rewrite E, <- app_assoc; reflexivity).
    assert (Sg0 : on_signal data (interpolate_data p b t0)) by (rewrite E'; apply sig_suffix, sig_head; lra).
    destruct (loop_skip t0 t1 H01 pre' None [] p b post C' Hp) as (pr & E1 & _); [lra| |].
    { intros x Hx. apply Hpre. apply in_or_app; auto. }
    rewrite <- E' in E1. destruct (Rltb_spec t0 (i_t b)); [|lra]. cbn [app] in E1.
    rewrite Hins. rewrite E1. destruct (Rle_lt_dec (i_t b) t1) as [Hb1|Hb1].
    + rewrite E in C. destruct (tail_covered t0 t1 (pre' ++ [p]) b post (Some p) [interpolate_data p b t0] H01 C) as (q & r1 & Q1 & Q2 & T & Sg); auto.
      { lra. } { eauto. } { intros x [<-|[]]. reflexivity. } { left. destruct pre'; discriminate. } { left. discriminate. }
      exists q, (interpolate_data p b t0), r1. rewrite <- E in *. auto 10.
    + assert (U : upto t1 (b :: post) = []).
      { apply upto_ge. intros x Hx. destruct Hx as [<-|Hx]; [lra|]. destruct Cb as [Cb _]. specialize (Cb x Hx). lra. }
      rewrite U. assert (Sg1 : on_signal data (interpolate_data p b t1)) by (rewrite E'; apply sig_suffix, sig_head; lra).
      destruct post as [|c post].
      * exists [interpolate_data p b t0], (interpolate_data p b t0), (interpolate_data p b t1). split; [reflexivity|].
        split; [|auto]. unfold raw_finish. cbn [last i_t interpolate_data]. destruct (Reqb_spec t0 t1); [lra|].
        assert (L2 : last_two data = Some (p, b)).
        { rewrite E'. clear. induction pre' as [|x l IH]; [reflexivity|]. simpl. simpl in IH. rewrite IH. reflexivity. }
        rewrite L2. reflexivity.
      * assert (Hbc : i_t b < i_t c) by (destruct Cb as [Cb _]; apply Cb; simpl; auto).
        exists [interpolate_data p b t0; interpolate_data p b t1], (interpolate_data p b t0), (interpolate_data p b t1).
        split; [|split; [|auto]].
        -- rewrite sel_eq. destruct (Rltb_spec (i_t b) t0); [lra|]. rewrite andb_false_r. destruct (Rleb_spec (i_t c) t1); [lra|].
           rewrite andb_false_r. destruct (Rltb_spec t1 (i_t c)); [|lra]. destruct (Rltb_spec t1 (i_t b)); [|lra]. simpl.
           rewrite (proj2 (Reqb_true _ _) eq_refl). reflexivity.
        -- apply (finish_ends data t1 [interpolate_data p b t0]). reflexivity.
Qed.

Lemma chrono_full data t0 t1 r0 r1 : chrono data -> t0 < t1 -> i_t r0 = t0 -> i_t r1 = t1 -> chrono (r0 :: inside t0 t1 data ++ [r1]).
Proof.
  intros C H01 H0 H1. assert (I : forall x, In x (inside t0 t1 data) -> t0 < i_t x < t1).
  { intros x Hx. unfold inside in Hx. apply filter_In in Hx. destruct Hx as [_ Hx]. apply andb_prop in Hx. rewrite !Rltb_true in Hx. exact Hx. }
  split.
  - intros b Hb. apply in_app_or in Hb. destruct Hb as [Hb|[<-|[]]]; [apply I in Hb; lra|lra].
  - apply chrono_app. split; [|split; [simpl; split; auto; intros ? []|]].
    + clear I. unfold inside. induction data as [|a data IH]; simpl; auto. destruct C as [Ca Cl].
      destruct (Rltb t0 (i_t a) && Rltb (i_t a) t1)%bool; auto. split; auto. intros b Hb. apply filter_In in Hb. apply Ca. tauto.
    + intros a b Ha [<-|[]]. apply I in Ha. lra.
Qed.

Lemma select_covered data t0 t1 : chrono data -> t0 < t1 -> covers data t0 t1 ->
  exists r0 r1 l, select_imu_readings data t0 t1 = Ok l /\ i_t r0 = t0 /\ i_t r1 = t1 /\ on_signal data r0 /\ on_signal data r1 /\
    let full := r0 :: inside t0 t1 data ++ [r1] in
    incl l full /\ last_at l t1 /\ In r1 l /\ chrono l /\ spaced (1 / 10 ^ 12) l /\
    (spaced (1 / 10 ^ 12) full -> l = full /\ durations l = t1 - t0).
Proof.
  intros C H01 Cv. destruct (raw_covered data t0 t1 C H01 Cv) as (p & r0 & r1 & E1 & E2 & T0 & T1 & S0 & S1).
  exists r0, r1, (compact (r0 :: inside t0 t1 data ++ [r1])). split.
  { apply (select_raw _ _ _ p); auto. intros ->. destruct Cv as ((? & [] & _) & _). }
  do 4 (split; auto). cbv zeta. pose proof (chrono_full data t0 t1 r0 r1 C H01 T0 T1) as Cf.
  destruct (compact_last (r0 :: inside t0 t1 data) r1) as (l' & El). cbn [app] in El.
  split; [apply compact_incl|]. split; [exists r1, l'; auto|]. split; [rewrite El; apply in_or_app; simpl; auto|].
  destruct (compact_spaced _ Cf) as [Sp Cp]. split; auto. split; auto.
  intros Sf. rewrite compact_id by exact Sf. split; auto. rewrite durations_ends. lra.
Qed.

(** ** when the data do not cover the interval *)
Lemma select_empty data t0 t1 : chrono data -> t0 < t1 ->
  (select_imu_readings data t0 t1 = Ok [] <->
   (length data <= 1)%nat \/ (forall a, In a data -> t1 < i_t a) \/ (forall a, In a data -> i_t a <= t0)).
Proof.
  intros C H01. split.
  - intros E. destruct data as [|a data]; [left; simpl; lia|]. destruct data as [|b data]; [left; simpl; lia|]. right.
    destruct (Rlt_le_dec t1 (i_t a)) as [L|L].
    { left. intros x [<-|Hx]; auto. destruct C as [C _]. specialize (C x Hx). lra. }
    destruct (Rle_lt_dec (i_t (last (a :: b :: data) a)) t0) as [M|M].
    { right. intros x Hx. pose proof (chrono_last _ a x C Hx). lra. }
    exfalso. unfold select_imu_readings in E. apply obind_ok in E. destruct E as (p & E1 & E2).
    assert (p <> []).
    { clear E2. intros ->. revert E1. assert (G : forall l prev acc x, chrono (x :: l) -> i_t x <= t1 -> l <> [] -> t0 < i_t (last (x :: l) x) ->
        exists h q, sel_loop t0 t1 prev (x :: l) acc = Ok (acc ++ h :: q)).
      { assert (K : forall l prev acc x y, exists q, sel_loop t0 t1 prev l (acc ++ x :: y) = Ok (acc ++ x :: q)).
        { induction l as [|u l IH]; intros prev acc x y; [exists y; reflexivity|]. destruct l as [|v l]; [exists y; reflexivity|].
          rewrite sel_eq. destruct (_ && _)%bool; [rewrite <- app_assoc; apply IH|]. destruct (_ && _)%bool; [rewrite <- app_assoc; apply IH|].
          destruct (Rltb _ _); [|apply IH]. destruct (if Rltb t1 (i_t u) then _ else _) as [w|]; [|exists y; reflexivity].
          destruct (Reqb _ _); rewrite <- app_assoc; eexists; reflexivity. }
        induction l as [|v l IH]; intros prev acc x Cx Hx Hl Hlast; [congruence|]. destruct Cx as [Cx Cv].
        assert (Hxv : i_t x < i_t v) by (apply Cx; simpl; auto). rewrite sel_eq.
        destruct (_ && _)%bool eqn:B1.
        { destruct (K (v :: l) (Some x) acc (interpolate_data x v t0) []) as (q & Eq). exists (interpolate_data x v t0), q. exact Eq. }
        destruct (Rleb t0 (i_t x) && Rleb (i_t v) t1)%bool eqn:B2.
        { destruct (K (v :: l) (Some x) acc x []) as (q & Eq). exists x, q. exact Eq. }
        destruct (Rltb_spec t1 (i_t v)) as [L1|L1].
        { destruct (Rltb_spec t1 (i_t x)); [lra|]. destruct (Reqb _ _); eexists _, _; reflexivity. }
        assert (Hv : i_t v <= t0).
        { apply andb_false_iff in B1. apply andb_false_iff in B2. rewrite Rltb_false, Rltb_false in B1. rewrite !Rleb_false in B2.
          destruct B1, B2; lra. }
        apply IH; auto.
        - destruct l; [|discriminate]. simpl in Hlast. lra.
        - rewrite (last_indep _ v x) by discriminate. exact Hlast. }
      intros E1. destruct (G (b :: data) None [] a C L) as (h & q & Eq); [discriminate|exact M|]. rewrite Eq in E1. discriminate. }
    destruct p as [|x p]; [congruence|]. destruct (Reqb _ _).
    + assert (E3 : compact (x :: p) = []) by congruence. revert E3. apply compact_ne. discriminate.
    + destruct (last_two _) as [[u v]|]; [|discriminate]. assert (E3 : compact ((x :: p) ++ [interpolate_data u v t1]) = []) by congruence. revert E3. apply compact_ne. destruct p; discriminate.
  - intros H. destruct data as [|a data]; [reflexivity|]. unfold select_imu_readings.
    assert (E : sel_loop t0 t1 None (a :: data) [] = Ok []); [|rewrite E; reflexivity].
    destruct H as [H|[H|H]].
    + destruct data; [reflexivity|]. simpl in H. lia.
    + destruct data as [|b data]; [reflexivity|]. assert (t1 < i_t a) by (apply H; simpl; auto). assert (t1 < i_t b) by (apply H; simpl; auto).
      rewrite sel_eq. destruct (Rltb_spec (i_t a) t0); [lra|]. rewrite andb_false_r. destruct (Rleb_spec (i_t b) t1); [lra|]. rewrite andb_false_r.
      destruct (Rltb_spec t1 (i_t b)); [|lra]. destruct (Rltb_spec t1 (i_t a)); [|lra]. reflexivity.
    + apply loop_before; auto.
Qed.

(** data that start only inside the interval: what lies before the first reading is not integrated *)
Lemma select_late a data t0 t1 : chrono (a :: data) -> t0 < i_t a < t1 -> (exists b, In b data /\ t1 <= i_t b) ->
  spaced (1 / 10 ^ 12) (a :: data) -> (forall x, In x (a :: data) -> i_t x < t1 -> 1 / 10 ^ 12 <= t1 - i_t x) ->
  exists l, select_imu_readings (a :: data) t0 t1 = Ok l /\ first_at l (i_t a) /\ durations l = t1 - i_t a.
Proof.
  intros C Ha (b & Ib & Hb) Sp Se.
  assert (H01 : t0 < t1) by lra.
  assert (H01' : i_t a < t1) by lra.
  assert (Q : exists p r1, sel_loop t0 t1 None (a :: data) [] = Ok p /\ raw_finish (a :: data) t1 p = Ok (a :: upto t1 data ++ [r1]) /\ i_t r1 = t1).
  { assert (Hz : exists z, In z (a :: data) /\ t1 <= i_t z) by (exists b; simpl; auto).
    destruct (Rlt_le_dec t1 (i_t (last (a :: data) a))) as [L|L].
    - destruct (loop_inside t0 t1 data None [] a C) as (r1 & E & T & Sg); [lra|auto| |].
      { exists (last (a :: data) a). split; auto. apply last_in. discriminate. }
      exists ((a :: upto t1 data) ++ [r1]), r1. rewrite upto_cons_lt in E by lra. split; auto. split; auto. rewrite finish_ends by auto. reflexivity.
    - assert (Hl : i_t (last (a :: data) a) = t1) by (pose proof (chrono_last _ a b C ltac:(simpl; auto)); lra).
      destruct data as [|c data]; [destruct Ib|]. destruct (last_split (c :: data)) as (l' & z & El); [discriminate|].
      assert (Hzt : i_t z = t1) by (rewrite (last_indep _ a z) in Hl by discriminate; change (last (a :: c :: data) z) with (last (c :: data) z) in Hl; rewrite El, last_app in Hl; auto).
      exists (a :: l'), z. split; [|split; auto].
      + rewrite loop_short; auto; [|lra|intros y Iy; pose proof (chrono_last _ a y C Iy); lra].
        rewrite El. change (a :: l' ++ [z]) with ((a :: l') ++ [z]). rewrite removelast_last. reflexivity.
      + rewrite El. assert (Eu : upto t1 (l' ++ [z]) = l').
        { rewrite upto_all; [apply removelast_last| |eauto]. rewrite <- El. apply C. }
        rewrite Eu. unfold raw_finish. destruct (Reqb_spec (i_t (last (a :: l') (mkImu 0 v3zero v3zero))) t1) as [X|X].
        * exfalso. assert (In (last (a :: l') (mkImu 0 v3zero v3zero)) (a :: l')) by (apply last_in; discriminate).
          rewrite El in C. change (a :: l' ++ [z]) with ((a :: l') ++ [z]) in C. apply chrono_app in C. destruct C as (_ & _ & C).
          specialize (C _ z H ltac:(simpl; auto)). lra.
        * rewrite <- El. destruct (last_two_cons a c data) as (x & y & E2 & Ad & Ly). rewrite E2.
          assert (Hyz : y = z).
          { rewrite <- Ly. change (last (a :: c :: data) a) with (last (c :: data) a). rewrite El, last_app. reflexivity. }
          assert (Hxy : i_t x < i_t y) by (eapply adj_order; eauto). rewrite Hyz in *. clear Hyz. assert (EI : interpolate_data x z t1 = z) by (rewrite <- Hzt; apply interp_right; auto). rewrite EI. cbn [app]. rewrite <- El. reflexivity. }
  destruct Q as (p & r1 & E1 & E2 & T1).
  exists (compact (a :: upto t1 data ++ [r1])). split; [apply (select_raw _ _ _ p); auto; discriminate|].
  assert (Sf : spaced (1 / 10 ^ 12) (a :: upto t1 data ++ [r1])).
  { clear E1 E2 p Ib Hb b Ha H01. revert a H01' C Sp Se. induction data as [|c data IH]; intros a Ha C Sp Se.
    - simpl. split; auto. rewrite T1. apply Se; simpl; auto.
    - destruct Sp as [Sp1 Sp2]. destruct C as [Ca Cc]. destruct (Rlt_le_dec (i_t c) t1) as [L|L].
      + rewrite upto_cons_lt by auto. cbn [app]. split; auto. apply IH; auto. intros x Hx. apply Se. simpl; auto.
      + rewrite upto_ge; [|intros x [<-|Hx]; auto; destruct Cc as [Cc _]; specialize (Cc x Hx); lra].
        simpl. split; auto. rewrite T1. apply Se; simpl; auto. }
  rewrite compact_id by exact Sf. split; [eexists _, _; split; reflexivity|]. rewrite durations_ends. lra.
Qed.

(** data that end before t1: the last reading is not in the list, it is replaced by an extrapolation
    to t1 from the last two *)
Lemma select_early data a b t0 t1 : chrono (data ++ [a; b]) -> (exists x, In x (data ++ [a]) /\ i_t x <= t0) -> t0 < i_t b < t1 ->
  exists r0 p, select_imu_readings (data ++ [a; b]) t0 t1 = Ok (compact (r0 :: p ++ [interpolate_data a b t1])) /\
    i_t r0 = t0 /\ p = inside t0 (i_t b) (data ++ [a; b]).
Proof.
  intros C (x & Ix & Hx) Hb.
  assert (C2 : chrono ((data ++ [a]) ++ [b])) by (rewrite <- app_assoc; exact C).
  assert (Hall : forall y, In y (data ++ [a]) -> i_t y < i_t b) by (intros y Hy; apply chrono_app in C2; apply C2; simpl; auto).
  destruct (raw_covered (data ++ [a; b]) t0 (i_t b) C) as (p & r0 & r1 & E1 & E2 & T0 & T1 & _ & _); [lra| |].
  { split; [exists x; split; auto; apply in_app_or in Ix; apply in_or_app; destruct Ix as [?|[<-|[]]]; simpl; auto|].
    exists b. split; [apply in_or_app; simpl; auto|lra]. }
  (* the loop does not look at t1 when everything is before it *)
  assert (G : forall l prev acc, (forall y, In y l -> i_t y <= i_t b) -> sel_loop t0 t1 prev l acc = sel_loop t0 (i_t b) prev l acc).
  { induction l as [|u l IH]; intros prev acc Hl; auto. destruct l as [|v l]; auto. rewrite !sel_eq.
    assert (Hv : i_t v <= i_t b) by (apply Hl; simpl; auto). assert (Hu : i_t u <= i_t b) by (apply Hl; simpl; auto).
    destruct (Rleb_spec (i_t v) t1); [|lra]. destruct (Rleb_spec (i_t v) (i_t b)); [|lra].
    destruct (Rltb_spec t1 (i_t v)); [lra|]. destruct (Rltb_spec (i_t b) (i_t v)); [lra|].
    rewrite !IH; auto; intros y Hy; apply Hl; simpl; auto. }
  assert (Hle : forall y, In y (data ++ [a; b]) -> i_t y <= i_t b).
  { intros y Hy. apply in_app_or in Hy. destruct Hy as [Hy|[<-|[<-|[]]]]; [|left; apply Hall; apply in_or_app; simpl; auto|lra].
    left. apply Hall. apply in_or_app; auto. }
  exists r0, (inside t0 (i_t b) (data ++ [a; b])). split; [|auto].
  (* p is r0 followed by the readings inside *)
  assert (L2 : last_two (data ++ [a; b]) = Some (a, b)).
  { clear. induction data as [|y l IH]; [reflexivity|]. simpl. simpl in IH. rewrite IH. reflexivity. }
  assert (Ep : p = r0 :: inside t0 (i_t b) (data ++ [a; b]) /\ i_t (last p (mkImu 0 v3zero v3zero)) < i_t b).
  { unfold raw_finish in E2. destruct p as [|h tl] eqn:Ehp; [destruct (inside t0 (i_t b) (data ++ [a; b])); discriminate|]. rewrite <- Ehp in *.
    destruct (Reqb_spec (i_t (last p (mkImu 0 v3zero v3zero))) (i_t b)) as [X|X].
    - exfalso.
      (* the loop never reaches b itself *)
      assert (K : forall l prev acc q, chrono (l ++ [b]) -> (forall y, In y l -> i_t y < i_t b) -> (forall y, In y acc -> i_t y < i_t b) ->
         sel_loop t0 (i_t b) prev (l ++ [b]) acc = Ok q -> forall y, In y q -> i_t y < i_t b).
      { induction l as [|u l IH]; intros prev acc q Cq Hl Hacc Eq y Hy; [simpl in Eq; injection Eq as <-; auto|].
        simpl in Eq, Cq. destruct Cq as [Cu Cl]. destruct (l ++ [b]) as [|v m] eqn:Em; [destruct l; discriminate|].
        assert (Hv : i_t v <= i_t b).
        { destruct l as [|v' l]; simpl in Em; injection Em as <- _; [lra|]. left. apply Hl. simpl; auto. }
        change (sel_loop t0 (i_t b) prev (u :: v :: m) acc = Ok q) in Eq. rewrite sel_eq in Eq. rewrite <- Em in Eq.
        assert (Hu : i_t u < i_t b) by (apply Hl; simpl; auto).
        assert (Hl' : forall y, In y l -> i_t y < i_t b) by (intros; apply Hl; simpl; auto).
        rewrite <- Em in Cl, IH.
        destruct (_ && _)%bool; [eapply IH; [exact Cl|exact Hl'| |exact Eq|exact Hy]; intros w Hw; apply in_app_or in Hw; destruct Hw as [Hw|[<-|[]]]; [auto|simpl; lra]|].
        destruct (_ && _)%bool; [eapply IH; [exact Cl|exact Hl'| |exact Eq|exact Hy]; intros w Hw; apply in_app_or in Hw; destruct Hw as [Hw|[<-|[]]]; auto|].
        destruct (Rltb_spec (i_t b) (i_t v)); [lra|]. eapply IH; [exact Cl|exact Hl'|exact Hacc|exact Eq|exact Hy]. }
      assert (In (last p (mkImu 0 v3zero v3zero)) p) by (apply last_in; rewrite Ehp; discriminate).
      assert (E3 : sel_loop t0 (i_t b) None ((data ++ [a]) ++ [b]) [] = Ok p) by (rewrite <- app_assoc; exact E1).
      assert (i_t (last p (mkImu 0 v3zero v3zero)) < i_t b); [|lra].
      apply (K _ _ _ _ C2 Hall (fun y (F : In y []) => match F with end) E3). auto.
    - rewrite L2 in E2. rewrite interp_right in E2 by (apply Hall; apply in_or_app; simpl; auto).
      injection E2 as E2. rewrite app_comm_cons in E2. apply app_inj_tail in E2. destruct E2 as [E2 _]. split; auto.
      assert (In (last p (mkImu 0 v3zero v3zero)) p) by (apply last_in; rewrite Ehp; discriminate). rewrite E2 in H at 2.
      destruct H as [<-|H]; [lra|]. unfold inside in H. apply filter_In in H. destruct H as [_ H]. apply andb_prop in H. rewrite !Rltb_true in H. lra. }
  destruct Ep as [Ep Hl].
  replace (r0 :: inside t0 (i_t b) (data ++ [a; b]) ++ [interpolate_data a b t1]) with (p ++ [interpolate_data a b t1]) by (rewrite Ep; reflexivity).
  apply (select_raw _ _ _ p); [destruct data; discriminate|rewrite G by auto; exact E1|].
  unfold raw_finish. rewrite L2. destruct p as [|h tl] eqn:Ehp; [discriminate|]. rewrite <- Ehp in *.
  destruct (Reqb_spec (i_t (last p (mkImu 0 v3zero v3zero))) t1); [lra|]. reflexivity.
Qed.

(** ** buffering *)
Lemma feed_buffered msgs : fold_left (fun b x => feed_imu (fst x) (snd x) b) msgs [] = buffered msgs.
Proof.
  assert (G : forall msgs acc, fold_left (fun b x => feed_imu (fst x) (snd x) b) msgs acc =
     filter (fun m => forallb (fun x => Rltb (snd x - 10 / 100) 0 || Rleb (snd x - 10 / 100) (i_t m))%bool msgs) acc ++ buffered msgs).
  { clear msgs. induction msgs as [|[m o] msgs IH]; intros acc.
    - simpl. rewrite app_nil_r. induction acc; simpl; congruence.
    - simpl fold_left. rewrite IH. clear IH. unfold feed_imu, clean_old_imu. cbn [buffered forallb snd].
      destruct (Rltb_spec (o - 10 / 100) 0) as [L|L].
      + cbn [orb andb]. rewrite filter_app. simpl. rewrite <- app_assoc. f_equal. destruct (forallb _ msgs); reflexivity.
      + cbn [orb andb]. rewrite filter_app, filter_app. rewrite <- app_assoc. f_equal.
        * induction acc as [|a acc IH]; simpl; auto. destruct (Rltb_spec (i_t a) (o - 10 / 100)), (Rleb_spec (o - 10 / 100) (i_t a)); try lra; simpl; rewrite IH; auto.
        * simpl. destruct (Rltb_spec (i_t m) (o - 10 / 100)), (Rleb_spec (o - 10 / 100) (i_t m)); try lra; simpl; auto. destruct (forallb _ msgs); reflexivity. }
  rewrite G. reflexivity.
Qed.
Lemma buffered_keeps msgs m o t : In (m, o) msgs -> t <= i_t m -> (forall x, In x msgs -> snd x - 10 / 100 <= t) -> In m (buffered msgs).
Proof.
  induction msgs as [|[m' o'] msgs IH]; [intros []|]. intros I Ht Ho. cbn [buffered].
  destruct I as [E|I].
  - injection E as -> ->. assert (F : forallb (fun x => Rltb (snd x - 10 / 100) 0 || Rleb (snd x - 10 / 100) (i_t m))%bool ((m, o) :: msgs) = true).
    { apply forallb_forall. intros x Hx. apply orb_true_iff. right. apply Rleb_true. specialize (Ho x Hx). lra. }
    rewrite F. simpl; auto.
  - destruct (forallb _ _); [right|]; apply IH; auto; intros x Hx; apply Ho; simpl; auto.
Qed.
Lemma buffered_only msgs m : In m (buffered msgs) -> exists o, In (m, o) msgs.
Proof.
  induction msgs as [|[m' o'] msgs IH]; [intros []|]. cbn [buffered]. destruct (forallb _ _).
  - intros [<-|H]; [exists o'; simpl; auto|]. destruct (IH H) as (o & Ho). exists o. simpl; auto.
  - intros H. destruct (IH H) as (o & Ho). exists o. simpl; auto.
Qed.

(** the discard times of an initialised filter are bounded by the filter time *)
Lemma vio_oldest_le marg stime mt win dt : 0 <= stime -> vio_oldest true marg stime mt win dt <= stime.
Proof. intros H. unfold vio_oldest. destruct (Rltb_spec stime marg); lra. Qed.

Lemma vio_buffer_keeps (msgs : list (imu * (R * R))) win dt T m ms :
  (forall x, In x msgs -> 0 <= snd (snd x) <= T) -> - (10 / 100) <= dt -> In (m, ms) msgs -> T + dt <= i_t m ->
  In m (fold_left (fun b x => feed_imu (fst x) (vio_oldest true (fst (snd x)) (snd (snd x)) (i_t (fst x)) win dt) b) msgs []).
Proof.
  intros Hs Hd I Hm.
  set (f := fun x : imu * (R * R) => (fst x, vio_oldest true (fst (snd x)) (snd (snd x)) (i_t (fst x)) win dt)).
  assert (E : forall b, fold_left (fun b x => feed_imu (fst x) (vio_oldest true (fst (snd x)) (snd (snd x)) (i_t (fst x)) win dt) b) msgs b =
     fold_left (fun b x => feed_imu (fst x) (snd x) b) (map f msgs) b).
  { clear. induction msgs as [|x msgs IH]; intros b; auto. simpl. apply IH. }
  rewrite E, feed_buffered. apply (buffered_keeps _ m (snd (f (m, ms))) (T + dt)); auto.
  - apply (in_map f) in I. exact I.
  - intros x Hx. apply in_map_iff in Hx. destruct Hx as (y & <- & Hy). specialize (Hs y Hy). unfold f. cbn [snd].
    pose proof (vio_oldest_le (fst (snd y)) (snd (snd y)) (i_t (fst y)) win dt). lra.
Qed.
(** with an offset of -0.2 s a reading still needed by the next propagation is discarded *)
Lemma vio_buffer_loses : exists marg stime dt m1 m2, 0 <= marg <= stime /\ stime + dt <= i_t m1 < i_t m2 /\
  feed_imu m2 (vio_oldest true marg stime (i_t m2) 2 dt) (feed_imu m1 (vio_oldest true marg stime (i_t m1) 2 dt) []) = [m2].
Proof.
  exists 10, 10, (- (2 / 10)), (mkImu (985 / 100) v3zero v3zero), (mkImu (995 / 100) v3zero v3zero). split; [lra|]. split; [simpl; lra|].
  unfold vio_oldest, feed_imu, clean_old_imu. destruct (Rltb_spec 10 10); [lra|]. destruct (Rltb_spec (10 - 10 / 100) 0); [lra|].
  cbn [app filter i_t]. destruct (Rltb_spec (985 / 100) (10 - 10 / 100)); [|lra]. cbn [negb app filter i_t].
  destruct (Rltb_spec (995 / 100) (10 - 10 / 100)); [lra|]. reflexivity.
Qed.

(** the initializer's copy has no final stretch: data whose last reading is exactly at [t1] give a list
    that stops earlier *)
Lemma init_select_refuted : exists data t0 t1 l, chrono data /\ t0 < t1 /\ covers data t0 t1 /\ spaced (1 / 10 ^ 12) data /\
  init_select_imu_readings data t0 t1 = Ok l /\ ~ last_at l t1 /\ durations l = (t1 - t0) / 2.
Proof.
  set (i := fun t => mkImu t v3zero v3zero). exists [i 0; i 1; i 2], 0, 2, [i 0; i 1]. repeat split.
  - intros b [<-|[<-|[]]]; simpl; lra.
  - intros b [<-|[]]; simpl; lra.
  - intros b [].
  - lra.
  - exists (i 0). simpl; split; auto; lra.
  - exists (i 2). simpl; split; auto; lra.
  - simpl; lra.
  - simpl; lra.
  - unfold init_select_imu_readings. rewrite !sel_eq. cbn [i_t i].
    destruct (Rltb_spec 0 0); [lra|]. rewrite andb_false_r. destruct (Rleb_spec 0 0); [|lra]. destruct (Rleb_spec 1 2); [|lra]. cbn [andb].
    cbn [i_t i]. destruct (Rltb_spec 1 0); [lra|]. rewrite andb_false_r. destruct (Rleb_spec 0 1); [|lra]. destruct (Rleb_spec 2 2); [|lra].
    cbn [andb app sel_loop obind]. rewrite compact_eq. cbn [i_t i]. destruct (Rltb_spec (Rabs (1 - 0)) (1 / 10 ^ 12)) as [L|L]; [|reflexivity].
    rewrite Rabs_right in L by lra. lra.
  - intros (a & l' & E & Ha). destruct l' as [|x [|y l']]; [discriminate| |destruct l'; discriminate]. injection E as <- <-. simpl in Ha. lra.
  - simpl. lra.
Qed.
