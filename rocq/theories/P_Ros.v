(** C57: the ROS image queue. *)
From Coq Require Import Reals Lra List Arith Bool Sorting.Sorted Sorting.Permutation.
From Verif Require Import RBool RosModel RosSpec RosProofs.
Import ListNotations.
Open Scope R_scope.

(** every image past the rate limiter is handed over at most once and otherwise still queued; per camera
    the order is that of acceptance, and images are at least one period apart *)
Theorem C57_conserved freq ncam ms : 0 < freq -> let '(s, d) := rrun freq ncam ros0 ms in
  let acc := accepted freq (fun _ => None) ms in
  Permutation (d ++ rq s) acc /\ (forall c, of_cam c (d ++ rq s) = of_cam c acc) /\
  (forall c, spaced freq (of_cam c acc)) /\ (forall c, spaced freq (of_cam c d)).
Proof. exact (rrun_main freq ncam ms). Qed.
Print Assumptions C57_conserved.

(** an image is handed over only by an IMU message that is later than the image in IMU time; the images
    handed over by one message are in time order; when every camera has an image queued, every image old
    enough is handed over, and otherwise none *)
Theorem C57_waits freq ncam ms t dt : 0 < freq ->
  let '(s, d) := rrun freq ncam ros0 ms in let '(s', d') := rrun freq ncam ros0 (ms ++ [MImu t dt]) in
  exists new, d' = d ++ new /\ rq s = new ++ rq s' /\ Forall (fun f => cf_t f < t - dt) new /\ StronglySorted fle new /\
    (length (nodup Nat.eq_dec (map cf_id0 (rq s))) = (if Nat.eqb ncam 2 then 1 else ncam)%nat -> Forall (fun f => t - dt <= cf_t f) (rq s')) /\
    (length (nodup Nat.eq_dec (map cf_id0 (rq s))) <> (if Nat.eqb ncam 2 then 1 else ncam)%nat -> new = []).
Proof. exact (imu_hand_over freq ncam ms t dt). Qed.
Print Assumptions C57_waits.

(** one image stream (one camera, or two cameras as a stereo pair): the estimator sees increasing times
    whatever the order and the stamps of the messages *)
Theorem C57_single_order freq ncam c ms : 0 < freq -> Forall (single c) ms ->
  let '(s, d) := rrun freq ncam ros0 ms in d ++ rq s = accepted freq (fun _ => None) ms /\ spaced freq d /\ in_order d.
Proof. exact (single_in_order freq ncam c ms). Qed.
Print Assumptions C57_single_order.

(** three cameras: each camera's images arrive in order and IMU times increase, yet the estimator gets an
    image older than one it already got, because the number of cameras in the queue is tested once per
    IMU message and not before each hand-over *)
Definition late_msgs : list rmsg :=
  [MCam 0 None 0 true 0; MCam 1 None 0 true 0; MCam 2 None 0 true 0; MCam 0 None 5 true 1; MImu 10 0;
   MCam 1 None 1 true 1; MCam 2 None 1 true 1; MCam 0 None 20 true 2; MImu 11 0].
Ltac evb := repeat (match goal with
  | |- context [Rltb ?a ?b] => first [replace (Rltb a b) with true by (symmetry; apply Rltb_true; lra)|replace (Rltb a b) with false by (symmetry; apply Rltb_false; lra)]
  | |- context [Reqb ?a ?b] => first [replace (Reqb a b) with true by (symmetry; apply Reqb_true; lra)|replace (Reqb a b) with false by (symmetry; apply Reqb_false; lra)]
  end; cbv beta iota).
Ltac evs := cbv -[Rltb Reqb Rplus Rminus Rdiv IZR]; evb.
Lemma late_run : exists s, rrun 1 3 ros0 late_msgs =
  (s, [mkF 0 0 None 0; mkF 0 1 None 0; mkF 0 2 None 0; mkF 5 0 None 1; mkF 1 1 None 1; mkF 1 2 None 1]).
Proof. eexists. unfold late_msgs. evs. reflexivity. Qed.
Theorem C57_multi_order_refuted : exists freq ms s d, 0 < freq /\ rrun freq 3 ros0 ms = (s, d) /\
  (forall c, StronglySorted Rlt (cam_times c ms)) /\ StronglySorted Rlt (imu_times ms) /\
  ~ StronglySorted (fun a b => cf_t a <= cf_t b) d.
Proof.
  destruct late_run as [s E]. exists 1, late_msgs, s. eexists. split; [lra|]. split; [exact E|]. split; [|split].
  - intros [|[|[|c]]]; cbn; repeat (constructor; try lra).
  - cbn. repeat (constructor; try lra).
  - intros H. do 3 (apply StronglySorted_inv in H; destruct H as [H _]). apply StronglySorted_inv in H. destruct H as [_ H].
    inversion H; subst. cbn in *. lra.
Qed.
Print Assumptions C57_multi_order_refuted.

(** non-trivial run of one stream: the late image stamped 1 is not handed over after the one stamped 2,
    the image stamped 2.5 is too close to the previous one, the one stamped 4 waits *)
Example C57_example : exists s, rrun 1 1 ros0
    [MCam 0 None 0 true 0; MCam 0 None 2 true 1; MCam 0 None 1 true 2; MImu 1 0; MCam 0 None (5 / 2) true 3; MCam 0 None 4 true 4; MImu 4 (1 / 2)]
  = (s, [mkF 0 0 None 0; mkF 2 0 None 1]) /\ rq s = [mkF 4 0 None 4].
Proof. eexists. split; [evs; reflexivity|reflexivity]. Qed.
