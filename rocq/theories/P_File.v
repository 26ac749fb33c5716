(** Properties C108, C109: readers of trajectory, simulation, timing and groundtruth files. *)
From Coq Require Import Ascii String Reals List Arith Lia Lra.
From Verif Require Import RBool Outcome GeoModel InitModel EvalModel FileModel FileSpec FileProofs FileGt.
Import ListNotations.
Open Scope R_scope.
Notation "'txt' s" := (list_ascii_of_string s%string) (at level 9, s at level 9, only parsing).

(** C108: every text has lines, and every line one meaning *)
Theorem C108_lines : forall s, exists ls, lines s ls /\ forall ls', lines s ls' -> ls' = ls.
Proof. intros s. exists (getlines newline s). split; [apply getlines_cells|]. intros ls'. exact (lines_eq s ls'). Qed.
Print Assumptions C108_lines.
Theorem C108_words : forall dl l, exists ws, words dl l ws /\ forall ws', words dl l ws' -> ws' = ws.
Proof. intros dl l. eexists. split; [apply words_ex|]. intros ws'. exact (words_eq dl l ws'). Qed.
Print Assumptions C108_words.
Theorem C108_samples : forall num ls, (exists es, through (pose_line num) ls es) /\ (exists es, through (csv_line num) ls es) /\
  (exists es, through (row8_line num) ls es) /\ forall dl, exists es, through (row_line dl num) ls es.
Proof.
  intros num ls. split; [|split; [|split]]; [| | |intros dl]; apply through_ex; [apply pose_line_ex|apply csv_line_ex|apply row8_line_ex|apply row_line_ex].
Qed.
Print Assumptions C108_samples.
(** estimated and groundtruth trajectories (space separated) *)
Theorem C108_data : forall num s ls es, lines s ls -> through (pose_line num) ls es ->
  (es <> [] -> (forall e, In e es -> with_cov e) -> load_data num (Some s) = Ok (mkLd (map sa_t es) (map sa_p es) (map fst (covs_of es)) (map snd (covs_of es)))) /\
  (es <> [] -> (forall e, In e es -> ~ with_cov e) -> load_data num (Some s) = Ok (mkLd (map sa_t es) (map sa_p es) [] [])) /\
  (es = [] \/ (exists e e', In e es /\ In e' es /\ with_cov e /\ ~ with_cov e') -> load_data num (Some s) = Exit).
Proof. exact load_data_thm. Qed.
Print Assumptions C108_data.
(** groundtruth in the ASL format *)
Theorem C108_csv : forall num s ls es, lines s ls -> through (csv_line num) ls es ->
  load_data_csv num (Some s) = match es with [] => Exit | _ => Ok (mkLd (map fst es) (map snd es) [] []) end.
Proof. exact load_csv_thm. Qed.
Print Assumptions C108_csv.
(** states, deviations and groundtruth of a simulation: all rows of one length *)
Theorem C108_simulation : forall num s ls es, lines s ls -> through (row_line " " num) ls es ->
  (es <> [] -> (forall a b, In a es -> In b es -> length a = length b) -> load_simulation num (Some s) = Ok es) /\
  (es = [] \/ (exists a b, In a es /\ In b es /\ length a <> length b) -> load_simulation num (Some s) = Exit).
Proof. exact load_sim_thm. Qed.
Print Assumptions C108_simulation.
(** the trajectory of the simulator *)
Theorem C108_trajectory : forall num s ls es, lines s ls -> through (row8_line num) ls es ->
  load_simulated_trajectory num (Some s) = match es with [] => Exit | _ => Ok es end.
Proof. exact load_traj_thm. Qed.
Print Assumptions C108_trajectory.
Theorem C108_missing : forall num, load_data num None = Exit /\ load_data_csv num None = Exit /\ load_simulation num None = Exit /\
  load_timing_percent num None = Exit /\ load_timing_flamegraph num None = Exit /\ load_simulated_trajectory num None = Exit /\ load_gt_file num None = Exit.
Proof. intros num. repeat split. Qed.
Print Assumptions C108_missing.
(** the timing reader is defined exactly for files without short rows *)
Theorem C108_percent : forall num s ls es, lines s ls -> through (row_line " " num) ls es ->
  ((forall r, In r es -> (4 <= length r)%nat) -> load_timing_percent num (Some s) <> UB) /\
  ((exists r, In r es /\ (length r < 4)%nat) -> load_timing_percent num (Some s) = UB).
Proof.
  intros num s ls es L T. apply lines_eq in L. subst ls. unfold load_timing_percent. split.
  - intros A. rewrite (percent_eq _ _ _ T A). cbn [obind]. unfold guard. destruct (negb _); discriminate.
  - intros (r & I & S). rewrite (percent_short _ _ _ _ T I S). reflexivity.
Qed.
Print Assumptions C108_percent.
(** an empty line is read out of range by both timing readers *)
Theorem C108_blank_refuted : exists s s', forall num, load_timing_percent num (Some s) = UB /\ load_timing_flamegraph num (Some s') = UB.
Proof.
  exists ("010"%char :: txt "1 2 3 1"), (txt "# t,a" ++ ["010"%char; "010"%char]). intros num. split; reflexivity.
Qed.
Print Assumptions C108_blank_refuted.
(** a comment, two blanks between words, an empty and a short line *)
Example C108_ex : forall num, load_data num (Some (txt "# t" ++ "010"%char :: txt "1 22  3 4 5 6 7 8 9" ++ ["010"%char; "010"%char] ++ txt "9 9")) =
  Ok (mkLd [num (txt "1")] [mkPose (V3 (num (txt "22")) (num (txt "3")) (num (txt "4"))) (Q4 (num (txt "5")) (num (txt "6")) (num (txt "7")) (num (txt "8")))] [] []).
Proof. intros num. reflexivity. Qed.
Example C108_ex_line : forall num, pose_line num (txt "1 22  3 4 5 6 7 8 9")
  (Some (mkSa (num (txt "1")) (mkPose (V3 (num (txt "22")) (num (txt "3")) (num (txt "4"))) (Q4 (num (txt "5")) (num (txt "6")) (num (txt "7")) (num (txt "8")))) None)).
Proof.
  intros num. right. split; [intros (l & E); discriminate|]. exists [txt "1"; txt "22"; txt "3"; txt "4"; txt "5"; txt "6"; txt "7"; txt "8"; txt "9"].
  split; [exact (words_ex " " (txt "1 22  3 4 5 6 7 8 9"))|reflexivity].
Qed.
(** covariances on one line only *)
Example C108_ex_mixed : forall num,
  load_data num (Some (txt "1 2 3 4 5 6 7 8 9 10 11 12 13 14 15 16 17 18 19 20" ++ "010"%char :: txt "1 2 3 4 5 6 7 8")) = Exit.
Proof. intros num. reflexivity. Qed.

(** C109: groundtruth of the ASL format, by time *)
Theorem C109_load : forall num s ls, lines s ls ->
  ((exists l, In l (tl ls) /\ too_long l) -> load_gt_file num (Some s) = Exit) /\
  ((forall l, In l (tl ls) -> ~ too_long l) -> exists vs m, load_gt_file num (Some s) = Ok m /\ Forall2 (gt_line num) (tl ls) vs /\ first_wins vs m).
Proof. exact load_gt_thm. Qed.
Print Assumptions C109_load.
Theorem C109_lookup : forall t m, ascending m ->
  (forall r, get_gt_state t m = Some r -> exists k v, In (k, v) m /\ Rabs (k - t) < 0.1 /\ nearest m t k /\ handed k v r) /\
  (get_gt_state t m = None <-> forall k v, In (k, v) m -> 0.1 <= Rabs (k - t)).
Proof. exact get_gt_thm. Qed.
Print Assumptions C109_lookup.
(** "in the wrong format we will error and exit": an empty line is a state at time zero with a zero quaternion *)
Theorem C109_format_refuted : exists s, forall num, exists m r, load_gt_file num (Some s) = Ok m /\ get_gt_state 0.05 m = Some r /\
  r 0%nat = 0 /\ r 1%nat = 0 /\ r 2%nat = 0 /\ r 3%nat = 0 /\ r 4%nat = 0.
Proof.
  exists (txt "#t" ++ ["010"%char; "010"%char]). intros num. eexists. set (m := [(/ 10 ^ 9 * 0, fun _ : nat => 0)]).
  assert (S : ascending m) by (apply asc_cons; split; [intros x []|apply asc_nil]).
  destruct (get_gt_thm 0.05 m S) as (A & B). destruct (get_gt_state 0.05 m) as [r|] eqn:E.
  - exists r. split; [reflexivity|]. split; [exact E|]. destruct (A r eq_refl) as (k & v & [I|[]] & _ & _ & (H0 & (H1 & H2 & H3 & H4) & _)). injection I as <- <-.
    rewrite H0, H1, H2, H3, H4. repeat split; try reflexivity. ring.
  - exfalso. pose proof (proj1 B eq_refl (/ 10 ^ 9 * 0) (fun _ => 0) (or_introl eq_refl)) as G. rewrite Rmult_0_r in G.
    rewrite Rabs_left in G by lra. lra.
Qed.
Print Assumptions C109_format_refuted.
(** two entries, asked nearer to the second; the quaternion is reordered *)
Example C109_ex : let m := [(1, fun i => INR i); (2, fun i => INR (10 * i))] in ascending m /\
  exists r, get_gt_state 1.96 m = Some r /\ r 0%nat = 2 /\ r 1%nat = INR 50 /\ r 4%nat = INR 40 /\ r 5%nat = INR 10 /\ r 9%nat = INR 90.
Proof.
  cbv zeta. assert (S : ascending [(1, fun i => INR i); (2, fun i => INR (10 * i))]).
  { apply asc_cons. split; [intros x [<-|[]]; cbn [fst]; lra|]. apply asc_cons. split; [intros x []|apply asc_nil]. }
  split; auto. destruct (get_gt_thm 1.96 _ S) as (A & B). destruct (get_gt_state 1.96 _) as [r|] eqn:E.
  - exists r. split; auto. destruct (A r eq_refl) as (k & v & I & D & _ & (H0 & (H1 & _ & _ & H4) & (H5 & _) & H8)).
    destruct I as [I|[I|[]]]; injection I as <- <-.
    + exfalso. rewrite Rabs_left in D by lra. lra.
    + rewrite H0, H1, H4, H5, (H8 9%nat) by lia. repeat split.
  - exfalso. pose proof (proj1 B eq_refl 2 _ (or_intror (or_introl eq_refl))) as G. rewrite Rabs_pos_eq in G by lra. lra.
Qed.
