(** What the files of a simulation hold and what is plotted from them, without column numbers. *)
From Coq Require Import Reals List Arith Ascii.
From Verif Require Import Outcome GeoModel SimFileModel.
Import ListNotations.
Open Scope R_scope.

(** one instant of a simulation *)
Record frame := mkF { f_t : R; f_s : sim_state; f_g : sim_truth }.
(** both sides know the same cameras; the truth is the one of the same time *)
Definition same_moment (f : frame) : Prop := st_x (f_g f) 0%nat = f_t f /\ length (st_cams (f_g f)) = length (ss_cams (f_s f)).
(** a written number is a word: some characters, no blank, no end of line, no comment sign *)
Definition plain (w : list ascii) : Prop := w <> [] /\ ~ In " "%char w /\ ~ In "010"%char w /\ ~ In "#"%char w.

(** a row as it is read back: [rd p x] is the number read for [x] written with [p] digits *)
Definition vals (rd : nat -> R -> R) (r : list cell) : list R := map (fun c => rd (fst c) (snd c)) r.
Definition est_of (rd : nat -> R -> R) (f : frame) : list R := vals rd (est_row (f_t f) (f_s f)).
Definition gt_of (rd : nat -> R -> R) (f : frame) : list R := vals rd (gt_row (length (ss_cams (f_s f))) (f_g f)).
(** [rs] are the rows of deviations written for [fs] *)
Definition stds (fs : list frame) (rs : list (list cell)) : Prop := Forall2 (fun f r => std_row (f_t f) (f_s f) = Ok r) fs rs.

(** standard deviation of entry [i] of the error state *)
Definition sigma (s : sim_state) (i : nat) : R := sqrt (ss_cov s i i).
(** [c] times the deviations, zero if not estimated ([b]) *)
Definition spread (rd : nat -> R -> R) (p : nat) (c : R) (s : sim_state) (b : bool) (id n : nat) : list R :=
  map (fun j => c * rd p (if b then sigma s (id + j) else 0)) (seq 0 n).
Definition minus (rd : nat -> R -> R) (p n : nat) (f g : nat -> R) : list R := map (fun j => rd p (f j) - rd p (g j)) (seq 0 n).
Definition quat_of (rd : nat -> R -> R) (p : nat) (f : nat -> R) : q4 := Q4 (rd p (f 0%nat)) (rd p (f 1%nat)) (rd p (f 2%nat)) (rd p (f 3%nat)).
(** rotation from the estimate [qe] to the truth [qg] as a vector, in degrees *)
Definition turn (qe qg : q4) : list R :=
  let w := log_so3 (m3mul (quat_2_Rot qg) (m3tr (quat_2_Rot qe))) in map (fun x => - (180 / PI) * x) [vx w; vy w; vz w].
Definition deg3 : R := 3 * 180 / PI.

Definition shows_state (rd : nat -> R -> R) (f : frame) (l : list plots) : Prop :=
  let s := f_s f in let x := st_x (f_g f) in
  l = [(turn (quat_of rd 6 (ss_q s)) (quat_of rd 6 (fun j => x (1 + j)%nat)), spread rd 6 deg3 s true (id_q s) 3);
       (minus rd 6 3 (fun j => x (5 + j)%nat) (ss_p s), spread rd 6 3 s true (id_p s) 3);
       (minus rd 6 3 (fun j => x (8 + j)%nat) (ss_v s), spread rd 6 3 s true (id_v s) 3);
       (minus rd 6 3 (fun j => x (11 + j)%nat) (ss_bg s), spread rd 6 3 s true (id_bg s) 3);
       (minus rd 6 3 (fun j => x (14 + j)%nat) (ss_ba s), spread rd 6 3 s true (id_ba s) 3)].
Definition shows_time (rd : nat -> R -> R) (f : frame) (l : list plots) : Prop :=
  let s := f_s f in l = [([rd 7%nat (ss_dt s) - rd 7%nat (st_dt (f_g f))], spread rd 6 3 s (do_dt s) (id_dt s) 1)].
Definition shows_intr (rd : nat -> R -> R) (f : frame) (l : list plots) : Prop :=
  let s := f_s f in
  l = flat_map (fun x : camera * ((nat -> R) * (nat -> R)) => let (c, d) := x in
        [(minus rd 6 4 (cm_k c) (fst d), spread rd 6 3 s (do_k s) (cm_kid c) 4);
         (minus rd 6 4 (fun j => cm_k c (4 + j)%nat) (fun j => fst d (4 + j)%nat), spread rd 6 3 s (do_k s) (cm_kid c + 4) 4)])
      (combine (ss_cams s) (st_cams (f_g f))).
Definition shows_extr (rd : nat -> R -> R) (f : frame) (l : list plots) : Prop :=
  let s := f_s f in
  l = flat_map (fun x : camera * ((nat -> R) * (nat -> R)) => let (c, d) := x in
        [(turn (quat_of rd 6 (cm_e c)) (quat_of rd 6 (snd d)), spread rd 6 deg3 s (do_e s) (cm_eid c) 3);
         (minus rd 6 3 (fun j => cm_e c (4 + j)%nat) (fun j => snd d (4 + j)%nat), spread rd 6 3 s (do_e s) (cm_eid c + 3) 3)])
      (combine (ss_cams s) (st_cams (f_g f))).
(** of the two rotations only the one of the model in use is drawn *)
Definition shows_imu (rd : nat -> R -> R) (f : frame) (l : list plots) : Prop :=
  let s := f_s f in let g := f_g f in exists w a,
  l = [(minus rd 8 6 (ss_dw s) (st_dw g), spread rd 8 3 s (do_imu s) (id_dw s) 6); (minus rd 8 6 (ss_da s) (st_da g), spread rd 8 3 s (do_imu s) (id_da s) 6);
       (minus rd 8 9 (ss_tg s) (st_tg g), spread rd 8 3 s (do_imu s && do_g s) (id_tg s) 9); w; a] /\
  match ss_kind s with
  | Kalibr => w = (turn (quat_of rd 8 (ss_w s)) (quat_of rd 8 (st_w g)), spread rd 8 deg3 s (do_imu s) (id_w s) 3)
  | Rpng => a = (turn (quat_of rd 8 (ss_a s)) (quat_of rd 8 (st_a g)), spread rd 8 deg3 s (do_imu s) (id_a s) 3)
  end.

(** the frames up to the first one more than [tmax] after [t0] are shown, each by [P]; nothing at all if one of them has a zero deviation [z] *)
Definition plotted (rd : nat -> R -> R) (fs : list frame) (t0 tmax : R) (z : frame -> R) (P : frame -> list plots -> Prop) (o : option (list (R * list plots))) : Prop :=
  exists f1 f2, fs = f1 ++ f2 /\ (forall f, In f f1 -> rd 5%nat (f_t f) - t0 <= tmax) /\ (forall f r, f2 = f :: r -> tmax < rd 5%nat (f_t f) - t0) /\
    ((exists f, In f f1 /\ z f = 0) /\ o = None \/
     (forall f, In f f1 -> z f <> 0) /\ exists l, o = Some l /\ Forall2 (fun f x => fst x = rd 5%nat (f_t f) /\ P f (snd x)) f1 l).
(** the deviation that tells whether something is calibrated: time offset, first camera, IMU *)
Definition dev_time (rd : nat -> R -> R) (f : frame) : R := let s := f_s f in rd 6%nat (if do_dt s then sigma s (id_dt s) else 0).
Definition dev_intr (rd : nat -> R -> R) (f : frame) : R := let s := f_s f in match ss_cams s with [] => 0 | c :: _ => rd 6%nat (if do_k s then sigma s (cm_kid c) else 0) end.
Definition dev_extr (rd : nat -> R -> R) (f : frame) : R := let s := f_s f in match ss_cams s with [] => 0 | c :: _ => rd 6%nat (if do_e s then sigma s (cm_eid c) else 0) end.
Definition dev_imu (rd : nat -> R -> R) (f : frame) : R := let s := f_s f in rd 8%nat (if do_imu s then sigma s (id_dw s) else 0).
