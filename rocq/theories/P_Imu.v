(** Properties C23-C25: inertial data selection, buffering and interpolation. *)
From Coq Require Import Reals List Bool Lra.
From Verif Require Import RBool Outcome GeoModel ImuModel ImuSpec ImuProofs ImuThms.
Import ListNotations.
Open Scope R_scope.

(** C23: the readings handed to the integration cover exactly [t0,t1] when the data do *)
Theorem C23_selection_covers_interval : forall data t0 t1, chrono data -> t0 < t1 -> covers data t0 t1 ->
  exists r0 r1 l, select_imu_readings data t0 t1 = Ok l /\ i_t r0 = t0 /\ i_t r1 = t1 /\ on_signal data r0 /\ on_signal data r1 /\
    let full := r0 :: inside t0 t1 data ++ [r1] in
    incl l full /\ last_at l t1 /\ In r1 l /\ chrono l /\ spaced (1 / 10 ^ 12) l /\
    (spaced (1 / 10 ^ 12) full -> l = full /\ durations l = t1 - t0).
Proof. exact select_covered. Qed.
Print Assumptions C23_selection_covers_interval.

Theorem C23_empty_result : forall data t0 t1, chrono data -> t0 < t1 ->
  (select_imu_readings data t0 t1 = Ok [] <->
   (length data <= 1)%nat \/ (forall a, In a data -> t1 < i_t a) \/ (forall a, In a data -> i_t a <= t0)).
Proof. exact select_empty. Qed.
Print Assumptions C23_empty_result.

(** data that begin after t0: the list begins at the first reading, the time before it is not integrated *)
Theorem C23_late_data : forall a data t0 t1, chrono (a :: data) -> t0 < i_t a < t1 -> (exists b, In b data /\ t1 <= i_t b) ->
  spaced (1 / 10 ^ 12) (a :: data) -> (forall x, In x (a :: data) -> i_t x < t1 -> 1 / 10 ^ 12 <= t1 - i_t x) ->
  exists l, select_imu_readings (a :: data) t0 t1 = Ok l /\ first_at l (i_t a) /\ durations l = t1 - i_t a.
Proof. exact select_late. Qed.
Print Assumptions C23_late_data.

(** data that end before t1: the last reading itself is left out, the line through the last two is prolonged *)
Theorem C23_early_data : forall data a b t0 t1, chrono (data ++ [a; b]) -> (exists x, In x (data ++ [a]) /\ i_t x <= t0) -> t0 < i_t b < t1 ->
  exists r0 p, select_imu_readings (data ++ [a; b]) t0 t1 = Ok (compact (r0 :: p ++ [interpolate_data a b t1])) /\
    i_t r0 = t0 /\ p = inside t0 (i_t b) (data ++ [a; b]).
Proof. exact select_early. Qed.
Print Assumptions C23_early_data.

(** the initializer's copy of the function does not have the claim of C23 *)
Theorem C23_initializer_selection_refuted : exists data t0 t1 l, chrono data /\ t0 < t1 /\ covers data t0 t1 /\ spaced (1 / 10 ^ 12) data /\
  init_select_imu_readings data t0 t1 = Ok l /\ ~ last_at l t1 /\ durations l = (t1 - t0) / 2.
Proof. exact init_select_refuted. Qed.
Print Assumptions C23_initializer_selection_refuted.

Definition C23_data : list imu := map (fun t => mkImu t (V3 t 0 1) (V3 0 t (t * t))) [0; 1; 2; 3].
Example C23_ex : chrono C23_data /\ 1 / 2 < 3 /\ covers C23_data (1 / 2) 3 /\
  inside (1 / 2) 3 C23_data = [mkImu 1 (V3 1 0 1) (V3 0 1 (1 * 1)); mkImu 2 (V3 2 0 1) (V3 0 2 (2 * 2))] /\
  (forall r0 r1, i_t r0 = 1 / 2 -> i_t r1 = 3 -> spaced (1 / 10 ^ 12) (r0 :: inside (1 / 2) 3 C23_data ++ [r1])).
Proof.
  assert (I : inside (1 / 2) 3 C23_data = [mkImu 1 (V3 1 0 1) (V3 0 1 (1 * 1)); mkImu 2 (V3 2 0 1) (V3 0 2 (2 * 2))]).
  { unfold inside, C23_data. cbn [map filter i_t].
    destruct (Rltb_spec (1 / 2) 0); [lra|]. destruct (Rltb_spec (1 / 2) 1); [|lra]. destruct (Rltb_spec 1 3); [|lra].
    destruct (Rltb_spec (1 / 2) 2); [|lra]. destruct (Rltb_spec 2 3); [|lra]. destruct (Rltb_spec 3 3); [lra|]. rewrite andb_false_r. reflexivity. }
  split; [|split; [lra|split; [|split; [exact I|]]]].
  - cbn [C23_data map chrono]. repeat split; simpl; intros b H; repeat (destruct H as [<-|H]; [simpl; lra|]); destruct H.
  - split; [exists (mkImu 0 (V3 0 0 1) (V3 0 0 (0 * 0)))|exists (mkImu 3 (V3 3 0 1) (V3 0 3 (3 * 3)))]; (split; [simpl; auto|simpl; lra]).
  - intros r0 r1 H0 H1. rewrite I. simpl. rewrite H0, H1. repeat split; lra.
Qed.

(** C24: the buffer is exactly the messages not overtaken by a discard time *)
Theorem C24_buffer_contents : forall msgs, fold_left (fun b x => feed_imu (fst x) (snd x) b) msgs [] = buffered msgs.
Proof. exact feed_buffered. Qed.
Print Assumptions C24_buffer_contents.

(** every message at or after the filter's IMU-clock time is kept, for an offset of at least -0.10 s *)
Theorem C24_needed_readings_kept : forall (msgs : list (imu * (R * R))) win dt T m ms,
  (forall x, In x msgs -> 0 <= snd (snd x) <= T) -> - (10 / 100) <= dt -> In (m, ms) msgs -> T + dt <= i_t m ->
  In m (fold_left (fun b x => feed_imu (fst x) (vio_oldest true (fst (snd x)) (snd (snd x)) (i_t (fst x)) win dt) b) msgs []).
Proof. exact vio_buffer_keeps. Qed.
Print Assumptions C24_needed_readings_kept.

(** below -0.10 s it fails: the discard time is a camera time compared with IMU times *)
Theorem C24_needed_readings_kept_refuted : exists marg stime dt m1 m2, 0 <= marg <= stime /\ stime + dt <= i_t m1 < i_t m2 /\
  feed_imu m2 (vio_oldest true marg stime (i_t m2) 2 dt) (feed_imu m1 (vio_oldest true marg stime (i_t m1) 2 dt) []) = [m2].
Proof. exact vio_buffer_loses. Qed.
Print Assumptions C24_needed_readings_kept_refuted.

Example C24_ex : let i t := mkImu t v3zero v3zero in
  let msgs := [(i 1, (0, 1)); (i 2, (0, 1)); (i 3, (1, 2)); (i 4, (2, 2))] in
  (forall x, In x msgs -> 0 <= snd (snd x) <= 2) /\ - (10 / 100) <= 0 /\ In (i 3, (1, 2)) msgs /\ 2 + 0 <= i_t (i 3) /\
  buffered [(i 1, 0); (i 2, 3 / 2)] = [i 2].
Proof.
  cbv zeta. split; [|split; [lra|split; [simpl; auto|split; [simpl; lra|]]]].
  - intros x H. simpl in H. repeat (destruct H as [<-|H]; [simpl; lra|]). destruct H.
  - simpl. destruct (Rltb_spec (0 - 10 / 100) 0); [|lra]. destruct (Rltb_spec (3 / 2 - 10 / 100) 0); [lra|].
    destruct (Rleb_spec (3 / 2 - 10 / 100) 1); [lra|]. destruct (Rleb_spec (3 / 2 - 10 / 100) 2); [|lra]. reflexivity.
Qed.

(** C25: interpolation *)
Theorem C25_interpolation : forall a b t, i_t a < i_t b ->
  i_t (interpolate_data a b t) = t /\ on_line a b (interpolate_data a b t) /\
  (forall r, i_t r = t -> on_line a b r -> r = interpolate_data a b t) /\
  interpolate_data a b (i_t a) = a /\ interpolate_data a b (i_t b) = b.
Proof.
  intros a b t H. split; [reflexivity|]. split; [apply interp_line; auto|]. split; [intros r Hr Hl; apply (line_unique a b); auto; apply interp_line; auto|].
  split; [apply interp_left; auto|apply interp_right; auto].
Qed.
Print Assumptions C25_interpolation.

(** between the two readings every component stays between their values *)
Theorem C25_interpolation_bounds : forall a b t, i_t a < i_t b -> i_t a <= t <= i_t b ->
  let r := interpolate_data a b t in
  forall f, In f [vx; vy; vz] ->
    Rmin (f (i_w a)) (f (i_w b)) <= f (i_w r) <= Rmax (f (i_w a)) (f (i_w b)) /\
    Rmin (f (i_a a)) (f (i_a b)) <= f (i_a r) <= Rmax (f (i_a a)) (f (i_a b)).
Proof. exact interp_between. Qed.
Print Assumptions C25_interpolation_bounds.

Example C25_ex : interpolate_data (mkImu 0 (V3 0 2 4) (V3 1 1 1)) (mkImu 4 (V3 4 2 0) (V3 5 9 1)) 1 = mkImu 1 (V3 1 2 3) (V3 2 3 1).
Proof. unfold interpolate_data, v3add, v3scal. simpl. f_equal; f_equal; field. Qed.
