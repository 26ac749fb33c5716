(** Models of the readers of text files: ov_eval/src/utils/Loader.cpp and ov_core/src/utils/dataset_reader.h.

    A file is its characters, or [None] if it cannot be opened.  The vectors to fill start empty, as at every call.
    std::atof is the argument [num]: any function from a field to a number. *)
From Coq Require Import Reals List Arith Bool Ascii.
From Verif Require Import RBool Outcome GeoModel InitModel EvalModel.
Import ListNotations.
Open Scope R_scope.

Notation text := (list ascii).

(** the calls of std::getline(s, field, dl) until it fails: a field ends at [dl] or at the end, the call fails with
    nothing left to extract [Loader.cpp 39, 52; dataset_reader.h 83, 90] *)
Fixpoint getline_from (dl : ascii) (cur s : text) : list text :=
  match s with
  | [] => match cur with [] => [] | _ => [cur] end
  | c :: s' => if Ascii.eqb c dl then cur :: getline_from dl [] s' else getline_from dl (cur ++ [c]) s'
  end.
(** Loader.cpp 39, 52; dataset_reader.h 83, 90 (as above) *)
Definition getlines (dl : ascii) (s : text) : list text := getline_from dl [] s.
(** Loader.cpp 39 *)
Definition newline : ascii := "010"%char.
(** Loader.cpp 42: [!current_line.find("#")], the first occurrence is at 0 *)
Definition comment (l : text) : bool := match l with c :: _ => Ascii.eqb c "#" | [] => false end.
(** [field.empty()] [Loader.cpp 54] *)
Definition blank (f : text) : bool := match f with [] => true | _ => false end.

(** Loader.cpp 52-59, 135-142 and dataset_reader.h 207-214: the first [n] fields that are not empty *)
Fixpoint fill (num : text -> R) (n : nat) (acc : list R) (fs : list text) : list R :=
  match fs with
  | [] => acc
  | f :: fs' => if (blank f || (n <=? length acc)%nat)%bool then fill num n acc fs' else fill num n (acc ++ [num f]) fs'
  end.
(** Loader.cpp 203-209, 282-288, 346-352: all fields that are not empty *)
Fixpoint fill_all (num : text -> R) (acc : list R) (fs : list text) : list R :=
  match fs with
  | [] => acc
  | f :: fs' => if blank f then fill_all num acc fs' else fill_all num (acc ++ [num f]) fs'
  end.
(** data(i), set before it is read; reading an entry not set is [UB] [Loader.cpp 62-77] *)
Definition ent (v : list R) (i : nat) : outcome R := match nth_error v i with Some x => Ok x | None => UB end.

(** Loader.cpp 65, 76: block(1,0,7,1) as a pose *)
Definition row_pose (v : list R) : outcome pose :=
  do x <- ent v 1; do y <- ent v 2; do z <- ent v 3; do a <- ent v 4; do b <- ent v 5; do c <- ent v 6; do d <- ent v 7;
  Ok (mkPose (V3 x y z) (Q4 a b c d)).
(** Loader.cpp 67-71: a symmetric matrix from six values, then averaged with its transpose *)
Definition row_cov (v : list R) (k : nat) : outcome m3 :=
  do a <- ent v k; do b <- ent v (k + 1); do c <- ent v (k + 2); do d <- ent v (k + 3); do e <- ent v (k + 4); do f <- ent v (k + 5);
  let M := M3 a b c b d e c e f in Ok (m3scal 0.5 (m3add M (m3tr M))).

(** times, poses, cov_ori, cov_pos [Loader.cpp 26-27] *)
Record loaded := mkLd { ld_t : list R; ld_p : list pose; ld_co : list m3; ld_cp : list m3 }.
(** Loader.cpp 39-78 *)
Fixpoint data_loop (num : text -> R) (ls : list text) (a : loaded) : outcome loaded :=
  match ls with
  | [] => Ok a
  | l :: ls' =>
      if comment l then data_loop num ls' a
      else
        let v := fill num 20 [] (getlines " " l) in
        if (20 <=? length v)%nat then
          do t <- ent v 0; do p <- row_pose v; do co <- row_cov v 8; do cp <- row_cov v 14;
          data_loop num ls' (mkLd (ld_t a ++ [t]) (ld_p a ++ [p]) (ld_co a ++ [co]) (ld_cp a ++ [cp]))
        else if (8 <=? length v)%nat then
          do t <- ent v 0; do p <- row_pose v;
          data_loop num ls' (mkLd (ld_t a ++ [t]) (ld_p a ++ [p]) (ld_co a) (ld_cp a))
        else data_loop num ls' a
  end.
(** [times.empty()], [cov_ori.empty()] [Loader.cpp 84, 98] *)
Definition none {A} (l : list A) : bool := match l with [] => true | _ => false end.
(** Loader.cpp 26-107 load_data *)
Definition load_data (num : text -> R) (file : option text) : outcome loaded :=
  match file with
  | None => Exit
  | Some s =>
      do a <- data_loop num (getlines newline s) (mkLd [] [] [] []);
      guard (negb (none (ld_t a))) Exit
        (guard (length (ld_t a) =? length (ld_p a))%nat Exit
          (guard (none (ld_co a) || ((length (ld_t a) =? length (ld_co a)) && (length (ld_t a) =? length (ld_cp a)))%nat)%bool Exit (Ok a)))
  end.

(** Loader.cpp 122-159 *)
Fixpoint csv_loop (num : text -> R) (ls : list text) (a : loaded) : outcome loaded :=
  match ls with
  | [] => Ok a
  | l :: ls' =>
      if comment l then csv_loop num ls' a
      else
        let v := fill num 20 [] (getlines "," l) in
        if (8 <=? length v)%nat then
          do t <- ent v 0; do x <- ent v 1; do y <- ent v 2; do z <- ent v 3;
          do qx <- ent v 5; do qy <- ent v 6; do qz <- ent v 7; do qw <- ent v 4;
          csv_loop num ls' (mkLd (ld_t a ++ [/ 10 ^ 9 * t]) (ld_p a ++ [mkPose (V3 x y z) (Q4 qx qy qz qw)]) (ld_co a) (ld_cp a))
        else csv_loop num ls' a
  end.
(** Loader.cpp 109-177 load_data_csv *)
Definition load_data_csv (num : text -> R) (file : option text) : outcome loaded :=
  match file with
  | None => Exit
  | Some s =>
      do a <- csv_loop num (getlines newline s) (mkLd [] [] [] []);
      guard (negb (none (ld_t a))) Exit (guard (length (ld_t a) =? length (ld_p a))%nat Exit (Ok a))
  end.

(** Loader.cpp 191-217: one row for every line that is no comment *)
Definition sim_rows (num : text -> R) (ls : list text) : list (list R) :=
  map (fun l => fill_all num [] (getlines " " l)) (filter (fun l => negb (comment l)) ls).
(** Loader.cpp 179-238 load_simulation *)
Definition load_simulation (num : text -> R) (file : option text) : outcome (list (list R)) :=
  match file with
  | None => Exit
  | Some s =>
      let rows := sim_rows num (getlines newline s) in
      match rows with
      | [] => Exit
      | r :: _ => guard (forallb (fun x => length x =? length r)%nat rows) Exit (Ok rows)
      end
  end.

(** Loader.cpp 334-368: rows shorter than four are read out of range *)
Fixpoint percent_loop (num : text -> R) (ls : list text) (a : list (R * v3 * list R)) : outcome (list (R * v3 * list R)) :=
  match ls with
  | [] => Ok a
  | l :: ls' =>
      if comment l then percent_loop num ls' a
      else
        let v := fill_all num [] (getlines " " l) in
        do w <- ent v 3;
        if Reqb w 0 then percent_loop num ls' a
        else do t <- ent v 0; do x <- ent v 1; do y <- ent v 2; percent_loop num ls' (a ++ [(t, V3 x y w, skipn 4 v)])
  end.
(** Loader.cpp 321-386 load_timing_percent; the three vectors have one entry each per row *)
Definition load_timing_percent (num : text -> R) (file : option text) : outcome (list (R * v3 * list R)) :=
  match file with
  | None => Exit
  | Some s => do a <- percent_loop num (getlines newline s) []; guard (negb (none a)) Exit (Ok a)
  end.

(** Loader.cpp 257-275: names of a comment line, without the first *)
Definition name_row (l : text) : list text := tl (filter (fun f => negb (blank f)) (getlines "," l)).
(** Loader.cpp 253-297; VectorXd of size 2^64 - 1 and at(0) for a row without fields: [UB] *)
Fixpoint flame_loop (num : text -> R) (ls : list text) (names : list text) (a : list (R * list R)) : outcome (list text * list (R * list R)) :=
  match ls with
  | [] => Ok (names, a)
  | l :: ls' =>
      if comment l then flame_loop num ls' (name_row l) a
      else match fill_all num [] (getlines "," l) with
           | [] => UB
           | t :: v => flame_loop num ls' names (a ++ [(t, v)])
           end
  end.
(** Loader.cpp 240-319 load_timing_flamegraph *)
Definition load_timing_flamegraph (num : text -> R) (file : option text) : outcome (list text * list (R * list R)) :=
  match file with
  | None => Exit
  | Some s =>
      do r <- flame_loop num (getlines newline s) [] [];
      guard (negb (none (snd r))) Exit (guard (forallb (fun x => length (snd x) =? length (fst r))%nat (snd r)) Exit (Ok r))
  end.

(** dataset_reader.h 194-224 *)
Definition traj_rows (num : text -> R) (ls : list text) : list (list R) :=
  filter (fun v => 7 <? length v)%nat (map (fun l => fill num 8 [] (getlines " " l)) (filter (fun l => negb (comment l)) ls)).
(** dataset_reader.h 177-235 load_simulated_trajectory *)
Definition load_simulated_trajectory (num : text -> R) (file : option text) : outcome (list (list R)) :=
  match file with
  | None => Exit
  | Some s => let rows := traj_rows num (getlines newline s) in guard (negb (none rows)) Exit (Ok rows)
  end.

(** ** groundtruth of the ASL format *)
(** a state: 17 numbers *)
Notation row17 := (nat -> R).
(** temp(i,0) = x [dataset_reader.h 98] *)
Definition put (v : row17) (i : nat) (x : R) : row17 := fun k => if Nat.eqb k i then x else v k.
(** dataset_reader.h 90-100 *)
Fixpoint gt_fields (num : text -> R) (i : nat) (v : row17) (fs : list text) : outcome row17 :=
  match fs with
  | [] => Ok v
  | f :: fs' => if (16 <? i)%nat then Exit else gt_fields num (S i) (put v i (num f)) fs'
  end.
(** std::map::insert: nothing happens if the key is present; ascending keys [dataset_reader.h 102] *)
Fixpoint minsert (k : R) (v : row17) (m : list (R * row17)) : list (R * row17) :=
  match m with
  | [] => [(k, v)]
  | (k0, v0) :: m' => if Rltb k k0 then (k, v) :: m else if Reqb k k0 then m else (k0, v0) :: minsert k v m'
  end.
(** dataset_reader.h 83-103 *)
Fixpoint gt_loop (num : text -> R) (ls : list text) (m : list (R * row17)) : outcome (list (R * row17)) :=
  match ls with
  | [] => Ok m
  | l :: ls' => do v <- gt_fields num 0 (fun _ => 0) (getlines "," l); gt_loop num ls' (minsert (/ 10 ^ 9 * v 0%nat) v m)
  end.
(** dataset_reader.h 62-105 load_gt_file; the first line is the header *)
Definition load_gt_file (num : text -> R) (file : option text) : outcome (list (R * row17)) :=
  match file with None => Exit | Some s => gt_loop num (tl (getlines newline s)) [] end.

(** dataset_reader.h 124-131; [None] is the infinite start value *)
Fixpoint closest (t : R) (best : option R) (m : list (R * row17)) : option R :=
  match m with
  | [] => best
  | (k, _) :: m' =>
      let better := match best with None => true | Some b => Rltb (Rabs (k - t)) (Rabs (b - t)) end in
      closest t (if better then Some k else best) m'
  end.
(** std::map::find [dataset_reader.h 141, 147] *)
Fixpoint mfind (k : R) (m : list (R * row17)) : option row17 :=
  match m with [] => None | (k0, v) :: m' => if Reqb k0 k then Some v else mfind k m' end.
(** dataset_reader.h 150-166 *)
Definition fixed (t : R) (s : row17) : row17 := fun i =>
  match i with
  | 0 => t
  | 1 => s 5 | 2 => s 6 | 3 => s 7 | 4 => s 4
  | 5 => s 1 | 6 => s 2 | 7 => s 3
  | _ => s i
  end%nat.
(** dataset_reader.h 114-170 get_gt_state: [None] is false, with the output untouched *)
Definition get_gt_state (t : R) (m : list (R * row17)) : option row17 :=
  match m with
  | [] => None
  | _ =>
      let t' := match closest t None m with Some c => if Rltb (Rabs (c - t)) 0.10 then c else t | None => t end in
      match mfind t' m with None => None | Some s => Some (fixed t' s) end
  end.
