(** Property C111: the files of a simulation and what is plotted from them. *)
From Coq Require Import Reals List Arith ZArith Bool Ascii Lia Lra.
From Verif Require Import RBool Outcome GeoModel GeoSpec InitModel EvalModel EvalSpec FileModel FileSpec ErrSpec SimFileModel SimFileSpec SimFileProofs SimFileThms SimFileTop.
Import ListNotations.
Open Scope R_scope.

(** C111: the three files are read back number by number *)
Theorem C111_files : forall put num fs rs n b, (forall p x, plain (put p x)) -> fs <> [] -> stds fs rs ->
  (forall f, In f fs -> same_moment f /\ length (ss_cams (f_s f)) = n /\ do_imu (f_s f) = b) ->
  let rd p x := num (put p x) in
  simulation_new num (Some (file_text put (map (fun f => est_row (f_t f) (f_s f)) fs))) (Some (file_text put rs)) (Some (file_text put (map (fun f => gt_row (length (ss_cams (f_s f))) (f_g f)) fs))) =
  Ok (map (est_of rd) fs, map (vals rd) rs, map (gt_of rd) fs).
Proof. exact load_thm. Qed.
Print Assumptions C111_files.
(** the columns taken are those of the written quantities: truth minus estimate for the state *)
Theorem C111_state : forall rd f0 fr rs tmax, (forall f, In f (f0 :: fr) -> same_moment f) -> stds (f0 :: fr) rs ->
  exists o, plot_state (map (est_of rd) (f0 :: fr)) (map (vals rd) rs) (map (gt_of rd) (f0 :: fr)) tmax = Ok o /\
    plotted rd (f0 :: fr) (rd 5%nat (f_t f0)) tmax (fun _ => 1) (shows_state rd) o.
Proof. exact plot_state_thm. Qed.
Print Assumptions C111_state.
(** estimate minus truth for the calibration *)
Theorem C111_time : forall rd f0 fr rs tmax, (forall f, In f (f0 :: fr) -> same_moment f) -> stds (f0 :: fr) rs ->
  exists o, plot_timeoff (map (est_of rd) (f0 :: fr)) (map (vals rd) rs) (map (gt_of rd) (f0 :: fr)) tmax = Ok o /\
    plotted rd (f0 :: fr) (rd 5%nat (f_t f0)) tmax (dev_time rd) (shows_time rd) o.
Proof. exact plot_time_thm. Qed.
Print Assumptions C111_time.
Theorem C111_intrinsics : forall rd n f0 fr rs tmax, (1 <= n)%nat -> rd 0%nat (INR n) = INR n -> (forall f, In f (f0 :: fr) -> same_moment f /\ length (ss_cams (f_s f)) = n) -> stds (f0 :: fr) rs ->
  exists o, plot_intr (map (est_of rd) (f0 :: fr)) (map (vals rd) rs) (map (gt_of rd) (f0 :: fr)) tmax = Ok o /\
    plotted rd (f0 :: fr) (rd 5%nat (f_t f0)) tmax (dev_intr rd) (shows_intr rd) o.
Proof. exact plot_intr_thm. Qed.
Print Assumptions C111_intrinsics.
Theorem C111_extrinsics : forall rd n f0 fr rs tmax, (1 <= n)%nat -> rd 0%nat (INR n) = INR n -> (forall f, In f (f0 :: fr) -> same_moment f /\ length (ss_cams (f_s f)) = n) -> stds (f0 :: fr) rs ->
  exists o, plot_extr (map (est_of rd) (f0 :: fr)) (map (vals rd) rs) (map (gt_of rd) (f0 :: fr)) tmax = Ok o /\
    plotted rd (f0 :: fr) (rd 5%nat (f_t f0)) tmax (dev_extr rd) (shows_extr rd) o.
Proof. exact plot_extr_thm. Qed.
Print Assumptions C111_extrinsics.
(** of the two rotations, the one drawn is right *)
Theorem C111_imu : forall rd n f0 fr rs tmax, (1 <= n)%nat -> rd 0%nat (INR n) = INR n -> (forall f, In f (f0 :: fr) -> same_moment f /\ length (ss_cams (f_s f)) = n) -> stds (f0 :: fr) rs ->
  exists o, plot_imu (map (est_of rd) (f0 :: fr)) (map (vals rd) rs) (map (gt_of rd) (f0 :: fr)) tmax = Ok o /\
    plotted rd (f0 :: fr) (rd 5%nat (f_t f0)) tmax (dev_imu rd) (shows_imu rd) o.
Proof. exact plot_imu_thm. Qed.
Print Assumptions C111_imu.
(** a plotted rotation is the axis times the angle between estimate and truth *)
Theorem C111_turn : forall qe qg, unit_q qe -> unit_q qg -> (forall u a, turned_body (mkPose v3zero qe) (mkPose v3zero qg) u a -> 1 / 10 ^ 10 <= 2 + 2 * cos a) ->
  exists u a k, turned_body (mkPose v3zero qe) (mkPose v3zero qg) u a /\ Rabs (k - a) <= 1 / 10 ^ 18 /\ turn qe qg = [180 / PI * k * vx u; 180 / PI * k * vy u; 180 / PI * k * vz u].
Proof. exact turn_thm. Qed.
Print Assumptions C111_turn.
(** the writer is defined if a fourth entry follows the rotation of the IMU model *)
Theorem C111_written : forall t s, (forall i, In i [id_q s; id_p s; id_v s; id_bg s; id_ba s] -> i + 3 <= ss_n s)%nat -> (do_dt s = true -> id_dt s + 1 <= ss_n s)%nat ->
  (forall c, In c (ss_cams s) -> (do_k s = true -> cm_kid c + 8 <= ss_n s) /\ (do_e s = true -> cm_eid c + 6 <= ss_n s))%nat ->
  (do_imu s = true -> id_dw s + 6 <= ss_n s /\ id_da s + 6 <= ss_n s /\ (do_g s = true -> id_tg s + 9 <= ss_n s) /\ match ss_kind s with Kalibr => id_w s + 4 <= ss_n s | Rpng => id_a s + 4 <= ss_n s end)%nat ->
  exists r, std_row t s = Ok r.
Proof. exact std_defined. Qed.
Print Assumptions C111_written.
(** a rotation has three error states, the writer takes four: outside of the covariance if it is the last variable *)
Theorem C111_outside_refuted : exists s, ss_kind s = Kalibr /\ do_imu s = true /\ do_g s = false /\ (forall i, In i [id_q s; id_p s; id_v s; id_bg s; id_ba s; id_w s] -> i + 3 <= ss_n s)%nat /\
  (id_dw s + 6 <= ss_n s)%nat /\ (id_da s + 6 <= ss_n s)%nat /\ ss_cams s = [] /\ do_dt s = false /\ forall t, std_row t s = UB.
Proof. exact outside_thm. Qed.
Print Assumptions C111_outside_refuted.
(** otherwise the deviation of the next variable is stored as that of the other rotation *)
Theorem C111_foreign : forall t s g n l, length (ss_cams s) = n -> length (st_cams g) = n -> ss_kind s = Kalibr -> do_imu s = true -> forall rd r, std_row t s = Ok r ->
  imu_one n (vals rd (est_row t s)) (vals rd r) (vals rd (gt_row n g)) = Ok l ->
  exists d w b, l = d ++ [w; b] /\ snd b = [deg3 * rd 8%nat (sigma s (id_w s + 3)); deg3 * rd 8%nat 0; deg3 * rd 8%nat 0].
Proof. exact foreign_thm. Qed.
Print Assumptions C111_foreign.
Example C111_ex : (forall p x, plain (ex_put p x)) /\ same_moment ex_frame /\ length (ss_cams (f_s ex_frame)) = 1%nat /\ ex_num (ex_put 0 (INR 1)) = INR 1 /\ (exists rs, stds [ex_frame] rs) /\
  let rd p x := ex_num (ex_put p x) in dev_time rd ex_frame <> 0 /\ dev_intr rd ex_frame <> 0 /\ dev_extr rd ex_frame <> 0 /\ dev_imu rd ex_frame <> 0 /\
    shows_time rd ex_frame [([-1], [3])] /\ minus rd 6 3 (fun j => st_x (f_g ex_frame) (5 + j)%nat) (ss_p (f_s ex_frame)) = [1; 0; 0].
Proof. exact ex_frame_ok. Qed.
