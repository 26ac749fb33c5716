(** Models of the files of a simulation: ov_msckf/src/ros/ROSVisualizerHelper.cpp writes them and
    ov_eval/src/calc/ResultSimulation.cpp takes the errors to plot out of them.
    Doubles are exact reals; a written number carries the precision of its stream, [put p x] is its text. *)
From Coq Require Import Reals List Arith ZArith Bool Ascii.
From Verif Require Import RBool Outcome GeoModel InitModel EvalModel FileModel.
Import ListNotations.
Open Scope R_scope.

(** StateOptions.h ImuModel *)
Inductive imu_kind := Kalibr | Rpng.
(** one camera: eight intrinsics, seven extrinsics, their places in the covariance [State.h] *)
Record camera := mkCam { cm_k : nat -> R; cm_e : nat -> R; cm_kid : nat; cm_eid : nat }.
(** the parts of a State that are written [ROSVisualizerHelper.cpp 239-401].
    One entry of [ss_cams] for each of the num_cameras; vectors of fixed size are functions. *)
Record sim_state := mkSS {
  ss_q : nat -> R; ss_p : nat -> R; ss_v : nat -> R; ss_bg : nat -> R; ss_ba : nat -> R; ss_dt : R; ss_cams : list camera; ss_kind : imu_kind;
  ss_dw : nat -> R; ss_da : nat -> R; ss_tg : nat -> R; ss_w : nat -> R; ss_a : nat -> R;
  id_q : nat; id_p : nat; id_v : nat; id_bg : nat; id_ba : nat; id_dt : nat; id_dw : nat; id_da : nat; id_tg : nat; id_w : nat; id_a : nat;
  do_dt : bool; do_k : bool; do_e : bool; do_imu : bool; do_g : bool; ss_n : nat; ss_cov : nat -> nat -> R }.
(** what the simulator knows [ROSVisualizerHelper.cpp 165-232] *)
Record sim_truth := mkST { st_x : nat -> R; st_dt : R; st_cams : list ((nat -> R) * (nat -> R)); st_kind : imu_kind;
  st_dw : nat -> R; st_da : nat -> R; st_tg : nat -> R; st_w : nat -> R; st_a : nat -> R }.
(** a written number with its precision *)
Definition cell : Type := nat * R.
(** entries 0 to n-1 [ROSVisualizerHelper.cpp 176-180] *)
Definition take (n : nat) (f : nat -> R) : list R := map f (seq 0 n).
(** numbers written with precision [p] [ROSVisualizerHelper.cpp 172-175] *)
Definition prec (p : nat) (l : list R) : list cell := map (pair p) l.
(** StateOptions.h: the value of the enumerator *)
Definition kind_num (k : imu_kind) : R := match k with Kalibr => 0 | Rpng => 1 end.
(** ROSVisualizerHelper.cpp 172-231 *)
Definition gt_row (ncam : nat) (g : sim_truth) : list cell :=
  [(5%nat, st_x g 0)] ++ prec 6 (map (st_x g) (seq 1 16)) ++ [(7%nat, st_dt g); (0%nat, INR ncam)] ++
  prec 6 (flat_map (fun c => take 8 (fst c) ++ take 7 (snd c)) (st_cams g)) ++ [(0%nat, kind_num (st_kind g))] ++
  prec 8 (take 6 (st_dw g) ++ take 6 (st_da g) ++ take 9 (st_tg g) ++ take 4 (st_w g) ++ take 4 (st_a g)).
(** the lines of of_state_est in ROSVisualizerHelper.cpp 243-399 *)
Definition est_row (t : R) (s : sim_state) : list cell :=
  [(5%nat, t)] ++ prec 6 (take 4 (ss_q s) ++ take 3 (ss_p s) ++ take 3 (ss_v s) ++ take 3 (ss_bg s) ++ take 3 (ss_ba s)) ++
  [(7%nat, ss_dt s); (0%nat, INR (length (ss_cams s)))] ++
  prec 6 (flat_map (fun c => take 8 (cm_k c) ++ take 7 (cm_e c)) (ss_cams s)) ++ [(0%nat, kind_num (ss_kind s))] ++
  prec 8 (take 6 (ss_dw s) ++ take 6 (ss_da s) ++ take 9 (ss_tg s) ++ take 4 (ss_w s) ++ take 4 (ss_a s)).
(** std::sqrt(cov(i, i)); out of range is [UB]; the diagonal is taken to be nonnegative [ROSVisualizerHelper.cpp 260] *)
Definition dev (s : sim_state) (i : nat) : outcome R := if (i <? ss_n s)%nat then Ok (sqrt (ss_cov s i i)) else UB.
(** [n] of them from [id] on [ROSVisualizerHelper.cpp 259-268] *)
Definition devs (s : sim_state) (id n : nat) : outcome (list R) := omap (fun j => dev s (id + j)) (seq 0 n).
(** deviations, or zeros if not calibrated [ROSVisualizerHelper.cpp 278-282, 300-320] *)
Definition devs_if (s : sim_state) (b : bool) (id n z : nat) : outcome (list R) := if b then devs s id n else Ok (repeat 0 z).
(** the lines of of_state_std in ROSVisualizerHelper.cpp 255-400; 381 and 392 write four deviations of a rotation *)
Definition std_row (t : R) (s : sim_state) : outcome (list cell) :=
  do a <- omap (fun id => devs s id 3) [id_q s; id_p s; id_v s; id_bg s; id_ba s];
  do o <- devs_if s (do_dt s) (id_dt s) 1 1;
  do c <- omap (fun c => do k <- devs_if s (do_k s) (cm_kid c) 8 8; do e <- devs_if s (do_e s) (cm_eid c) 6 6; Ok (k ++ e)) (ss_cams s);
  do dw <- devs_if s (do_imu s) (id_dw s) 6 6; do da <- devs_if s (do_imu s) (id_da s) 6 6;
  do tg <- devs_if s (do_imu s && do_g s) (id_tg s) 9 9;
  do w <- devs_if s (do_imu s && match ss_kind s with Kalibr => true | Rpng => false end) (id_w s) 4 3;
  do x <- devs_if s (do_imu s && match ss_kind s with Kalibr => false | Rpng => true end) (id_a s) 4 3;
  Ok ([(5%nat, t)] ++ prec 6 (concat a ++ o) ++ [(0%nat, INR (length (ss_cams s)))] ++ prec 6 (concat c) ++ [(0%nat, kind_num (ss_kind s))] ++
      prec 8 (dw ++ da ++ tg ++ w ++ x)).
(** one line of a file: every number is followed by a blank [ROSVisualizerHelper.cpp 172-231] *)
Definition line_text (put : nat -> R -> text) (r : list cell) : text := flat_map (fun c => put (fst c) (snd c) ++ [" "%char]) r ++ [newline].
(** ROSVisualizerHelper.cpp 231, 399, 400: one line at every call *)
Definition file_text (put : nat -> R -> text) (rows : list (list cell)) : text := flat_map (line_text put) rows.

(** ** ResultSimulation.cpp *)
(** ResultSimulation.cpp 26-40: failed assertions are [UB] *)
Definition simulation_new (num : text -> R) (fe fs fg : option text) : outcome (list (list R) * list (list R) * list (list R)) :=
  do e <- load_simulation num fe; do s <- load_simulation num fs; do g <- load_simulation num fg;
  guard ((length e =? length s) && (length e =? length g))%nat%bool UB (do r <- vat e 0; do _ <- ent r 18; Ok (e, s, g)).
(** values and bounds of some plots *)
Definition plots : Type := list R * list R.
(** block(i, 0, 4, 1) as a quaternion [ResultSimulation.cpp 61] *)
Definition quat_at (v : list R) (i : nat) : outcome q4 :=
  do a <- ent v i; do b <- ent v (i + 1); do c <- ent v (i + 2); do d <- ent v (i + 3); Ok (Q4 a b c d).
(** ResultSimulation.cpp 67, 76 *)
Definition scaled (c : R) (v : list R) (i n : nat) : outcome (list R) := omap (fun j => do x <- ent v (i + j); Ok (c * x)) (seq 0 n).
(** ResultSimulation.cpp 72, 228: entries of [a] minus entries of [b] *)
Definition diffs (a b : list R) (i n : nat) : outcome (list R) := omap (fun j => do x <- ent a (i + j); do y <- ent b (i + j); Ok (x - y)) (seq 0 n).
(** ResultSimulation.cpp 58-69, 430-438, 571-583 *)
Definition ori_plots (e s g : list R) (i si : nat) : outcome plots :=
  do qe <- quat_at e i; do qg <- quat_at g i;
  let w := v3scal (- 180 / PI) (log_so3 (m3mul (quat_2_Rot qg) (m3tr (quat_2_Rot qe)))) in
  do b <- scaled (3 * 180 / PI) s si 3; Ok ([vx w; vy w; vz w], b).
(** ResultSimulation.cpp 72-78, 227-230 *)
Definition dif_plots (a b s : list R) (i si n : nat) : outcome plots := do d <- diffs a b i n; do c <- scaled 3 s si n; Ok (d, c).
(** helper: all of some plots *)
Definition all_plots (l : list (outcome plots)) : outcome (list plots) := omap (fun o => o) l.
(** ResultSimulation.cpp 58-105 *)
Definition state_one (e s g : list R) : outcome (list plots) :=
  all_plots [ori_plots e s g 1 1; dif_plots g e s 5 4 3; dif_plots g e s 8 7 3; dif_plots g e s 11 10 3; dif_plots g e s 14 13 3].
(** ResultSimulation.cpp 227-230 *)
Definition time_one (e s g : list R) : outcome (list plots) := all_plots [dif_plots e g s 17 16 1].
(** ResultSimulation.cpp 317-327 *)
Definition intr_one (n : nat) (e s g : list R) : outcome (list plots) :=
  all_plots (flat_map (fun i => [dif_plots e g s (19 + 15 * i) (18 + 14 * i) 4; dif_plots e g s (19 + 4 + 15 * i) (18 + 4 + 14 * i) 4]) (seq 0 n)).
(** ResultSimulation.cpp 428-444 *)
Definition extr_one (n : nat) (e s g : list R) : outcome (list plots) :=
  all_plots (flat_map (fun i => [ori_plots e s g (27 + 15 * i) (26 + 14 * i); dif_plots e g s (27 + 4 + 15 * i) (26 + 3 + 14 * i) 3]) (seq 0 n)).
(** ResultSimulation.cpp 511-522, 556-585: dw, da, tg and the two rotations *)
Definition imu_one (n : nat) (e s g : list R) : outcome (list plots) :=
  let i := (1 + 16 + 1 + 1 + 15 * n + 1)%nat in let c := (1 + 15 + 1 + 1 + 14 * n + 1)%nat in
  all_plots [dif_plots e g s i c 6; dif_plots e g s (i + 6) (c + 6) 6; dif_plots e g s (i + 12) (c + 12) 9;
             ori_plots e s g (i + 21) (c + 21); ori_plots e s g (i + 25) (c + 24)].
(** the loops over the rows: stop after [tmax], nothing at all if column [flag] of the deviations is zero
    [ResultSimulation.cpp 49-106, 209-231, 302-328, 412-445, 540-586]; the calls of calculate() leave the plotted values alone *)
Fixpoint sim_loop (flag : option nat) (one : list R -> list R -> list R -> outcome (list plots)) (t0 tmax : R) (est std gt : list (list R)) (i : nat)
  : outcome (option (list (R * list plots))) :=
  match est with
  | [] => Ok (Some [])
  | e :: est' =>
      do t <- ent e 0;
      if Rltb tmax (t - t0) then Ok (Some [])
      else do g <- vat gt i; do tg <- ent g 0; guard (Reqb t tg) UB
        (do s <- vat std i; do z <- match flag with None => Ok 1 | Some k => ent s k end;
         if Reqb z 0 then Ok None
         else do a <- one e s g; do r <- sim_loop flag one t0 tmax est' std gt (S i); Ok (option_map (cons (t, a)) r))
  end.
(** the number of cameras [ResultSimulation.cpp 283, 290]; numbers beyond the range of int are not considered *)
Definition cams_of (x : R) : nat := Z.to_nat (Int_part x).
(** helper: first row *)
Definition first_row (est : list (list R)) (f : list R -> R -> outcome (option (list (R * list plots)))) : outcome (option (list (R * list plots))) :=
  do r <- vat est 0; do t <- ent r 0; f r t.
(** ResultSimulation.cpp 42-106 plot_state, without the drawing *)
Definition plot_state (est std gt : list (list R)) (tmax : R) := first_row est (fun _ t => sim_loop None state_one t tmax est std gt 0).
(** ResultSimulation.cpp 204-231 plot_timeoff, without the drawing *)
Definition plot_timeoff (est std gt : list (list R)) (tmax : R) := first_row est (fun _ t => sim_loop (Some 16%nat) time_one t tmax est std gt 0).
(** ResultSimulation.cpp 280-328 plot_cam_instrinsics, without the drawing *)
Definition plot_intr (est std gt : list (list R)) (tmax : R) := first_row est (fun r t =>
  do c <- ent r 18; if (cams_of c <? 1)%nat then Ok None else sim_loop (Some 18%nat) (intr_one (cams_of c)) t tmax est std gt 0).
(** ResultSimulation.cpp 390-445 plot_cam_extrinsics, without the drawing *)
Definition plot_extr (est std gt : list (list R)) (tmax : R) := first_row est (fun r t =>
  do c <- ent r 18; if (cams_of c <? 1)%nat then Ok None else sim_loop (Some 26%nat) (extr_one (cams_of c)) t tmax est std gt 0).
(** ResultSimulation.cpp 502-586 plot_imu_intrinsics, without the drawing *)
Definition plot_imu (est std gt : list (list R)) (tmax : R) := first_row est (fun r t =>
  do c <- ent r 18; if (cams_of c <? 1)%nat then Ok None
  else sim_loop (Some (1 + 15 + 1 + 1 + 14 * cams_of c + 1)%nat) (imu_one (cams_of c)) t tmax est std gt 0).
