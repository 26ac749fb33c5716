(** Properties C41-C44: initialization helpers. *)
From Coq Require Import Reals List Arith Bool Lia Lra.
From Verif Require Import RBool Outcome GeoModel GeoSpec GeoProofs Lin ImuModel ImuSpec DbModel DbSpec InitModel InitSpec InitProofs InitThms InitDisp DispSpec InitDisp2 InitDongsi InitDongsi2.
Import ListNotations.
Open Scope R_scope.

(** C41 *)
Theorem C41_gram_schmidt_is_rotation : forall g, g <> v3zero ->
  exists Rm, gram_schmidt g = Ok Rm /\ is_rot Rm /\ m3v Rm (V3 0 0 1) = v3div g (v3norm g) /\ m3v (m3tr Rm) g = V3 0 0 (v3norm g).
Proof.
  intros g H. destruct (gram_schmidt_rot g H) as (Rm & E & Rt & Z). exists Rm. split; [exact E|]. split; [exact Rt|]. split; [exact Z|].
  apply gram_schmidt_up; auto. apply norm_nz; auto.
Qed.
Print Assumptions C41_gram_schmidt_is_rotation.
(** the zero vector is the only input for which a division by zero happens *)
Theorem C41_gram_schmidt_defined : forall g, gram_schmidt g = UB <-> g = v3zero.
Proof.
  intros g. split; [|intros ->; exact gram_schmidt_zero]. intros E. destruct (Req_dec (v3norm g) 0) as [Z|N].
  - apply norm_zero; auto.
  - apply norm_nz in N. destruct (gram_schmidt_rot g N) as (Rm & E' & _). rewrite E in E'. discriminate.
Qed.
Print Assumptions C41_gram_schmidt_defined.
Example C41_ex : V3 1 2 (-3) <> v3zero.
Proof. intros H. injection H. intros. lra. Qed.

(** C42 *)
Theorem C42_static_initialization : forall o data wait s, static_initialize o data wait = Ok (Some s) ->
  exists first last_r l w10 w21 a, data = l ++ [last_r] /\ hd_error data = Some first /\ (2 <= length data)%nat /\
    io_window o <= i_t last_r - i_t first /\ static_ok o wait (i_t last_r) data w10 w21 a /\ a <> v3zero /\
    (unit_q (is_q s) /\
     v3add (m3v (quat_2_Rot (is_q s)) (V3 0 0 (io_gravity o))) (is_ba s) = a /\
     m3v (quat_2_Rot (is_q s)) (V3 0 0 (v3norm a)) = a /\
     is_vmean (map i_w w21) (is_bg s) /\ is_p s = v3zero /\ is_v s = v3zero /\
     (exists l m, w21 = l ++ [m] /\ is_time s = i_t m) /\ prior_cov (is_cov s) /\ sym 15 (is_cov s) /\ pd 15 (is_cov s)).
Proof. exact static_accepts. Qed.
Print Assumptions C42_static_initialization.
Theorem C42_static_acceptance : forall o data wait first last_r l, data = l ++ [last_r] -> hd_error data = Some first ->
  ((exists w10 w21 a, (2 <= length data)%nat /\ io_window o <= i_t last_r - i_t first /\ static_ok o wait (i_t last_r) data w10 w21 a /\ a <> v3zero) <->
   exists s, static_initialize o data wait = Ok (Some s)) /\
  (static_initialize o data wait = Ok None <->
   ~ exists w10 w21 a, (2 <= length data)%nat /\ io_window o <= i_t last_r - i_t first /\ static_ok o wait (i_t last_r) data w10 w21 a).
Proof. intros o data wait. exact (static_accepts_iff o data wait). Qed.
Print Assumptions C42_static_acceptance.

Definition C42_data : list imu := map (fun t => mkImu t (V3 (1 / 100) 0 0) (V3 0 3 4)) [0; 1; 2; 3; 4].
Example C42_ex : exists s, static_initialize (mkIO 4 1 (981 / 100)) C42_data false = Ok (Some s).
Proof.
  apply (proj1 (C42_static_acceptance (mkIO 4 1 (981 / 100)) C42_data false (mkImu 0 (V3 (1 / 100) 0 0) (V3 0 3 4))
    (mkImu 4 (V3 (1 / 100) 0 0) (V3 0 3 4)) (map (fun t => mkImu t (V3 (1 / 100) 0 0) (V3 0 3 4)) [0; 1; 2; 3]) eq_refl eq_refl)).
  set (r := fun t => mkImu t (V3 (1 / 100) 0 0) (V3 0 3 4)).
  exists [r 3; r 4], [r 1; r 2], (V3 0 3 4). split; [simpl; lia|]. split; [simpl; lra|]. split; [|intros H; injection H; intros; lra].
  unfold static_ok. cbn [i_t io_window io_thresh].
  assert (Q : forall lo hi m, in_half lo hi m = true <-> lo < i_t m <= hi) by (intros; unfold in_half; rewrite andb_true_iff, Rltb_true, Rleb_true; tauto).
  assert (B : forall lo hi t b, b = true /\ lo < t <= hi \/ b = false /\ (t <= lo \/ hi < t) -> in_half lo hi (r t) = b).
  { intros lo hi t b H. destruct (in_half lo hi (r t)) eqn:E; [apply Q in E; simpl in E; destruct H as [[-> _]|[_ H]]; auto; lra|].
    destruct b; auto. destruct H as [[_ H]|[H _]]; [|discriminate]. assert (X : in_half lo hi (r t) = true) by (apply Q; exact H). congruence. }
  split. { exists (in_half (4 - 4 / 2) 4). split; [intros; apply Q|]. unfold C42_data. cbn [map]. fold (r 0) (r 1) (r 2) (r 3) (r 4). cbn [filter].
    rewrite (B _ _ 0 false), (B _ _ 1 false), (B _ _ 2 false), (B _ _ 3 true), (B _ _ 4 true) by lra. reflexivity. }
  split. { exists (in_half (4 - 4) (4 - 4 / 2)). split; [intros; apply Q|]. unfold C42_data. cbn [map]. fold (r 0) (r 1) (r 2) (r 3) (r 4). cbn [filter].
    rewrite (B _ _ 0 false), (B _ _ 1 true), (B _ _ 2 true), (B _ _ 3 false), (B _ _ 4 false) by lra. reflexivity. }
  split; [simpl; lia|]. split; [simpl; lia|].
  split; [unfold is_vmean, is_mean; simpl; lra|].
  exists (V3 0 3 4), 0, 0. unfold is_vmean, is_mean, is_vstd. simpl. lra.
Qed.

(** C43 *)
Theorem C43_polynomial : forall D d g l, g <> 0 ->
  horner (compute_dongsi_coeff D d g) l =
  m3det (shifted D l) * m3det (shifted D l) - v3dot d (m3v (adj3 (shifted D l)) (m3v (adj3 (shifted D l)) d)) / (g * g).
Proof. exact dongsi_poly. Qed.
Print Assumptions C43_polynomial.
(** D is symmetric in the code (A2^T (I - A1 (A1^T A1)^-1 A1^T) A2) *)
Theorem C43_roots_give_gravity : forall D d g l v, 0 < g -> m3tr D = D -> m3det (shifted D l) <> 0 -> m3v (shifted D l) v = d ->
  (horner (compute_dongsi_coeff D d g) l = 0 <-> v3norm v = g).
Proof. exact dongsi_root. Qed.
Print Assumptions C43_roots_give_gravity.
Theorem C43_companion_eigenvalues : forall c1 c2 c3 c4 c5 c6 l,
  let c := [1; c1; c2; c3; c4; c5; c6] in
  ((exists u, ~ (forall i, (i < 6)%nat -> u i = 0) /\
     forall j, (j < 6)%nat -> sumn 6 (fun i => u i * companion c i j) = l * u j) <-> horner c l = 0).
Proof. intros c1 c2 c3 c4 c5 c6 l. exact (companion_root 1 c1 c2 c3 c4 c5 c6 l eq_refl). Qed.
Print Assumptions C43_companion_eigenvalues.
Example C43_ex : let D := M3 1 2 0  2 3 0  0 0 5 in let d := V3 4 9 10 in
  m3tr D = D /\ m3det (shifted D (-1)) <> 0 /\ m3v (shifted D (-1)) (V3 (-1 / 2) (5 / 2) (5 / 3)) = d.
Proof.
  cbv zeta. unfold m3tr, shifted, m3det, m3sub, m3scal, m3id, m3v. cbn [m00 m01 m02 m10 m11 m12 m20 m21 m22 vx vy vz]. split; [reflexivity|]. split; [lra|].
  f_equal; lra.
Qed.

(** C44: every database.  With at least two matches mean and sample deviation; otherwise 0/0 somewhere.
    Repeated times count with their first entry. *)
Theorem C44_disparity : forall d t0 t1, db_ok d ->
  exists pairs ds r, compute_disparity d t0 t1 = Ok r /\
    NoDup (map (fun p : nat * nat * uv * uv => fst (fst p)) pairs) /\
    (forall id cam u0 u1, In (id, cam, u0, u1) pairs <->
       exists f, alook d id = Some f /\ f_del f = false /\ first_at (ftrack f cam) t0 u0 /\ first_at (ftrack f cam) t1 u1) /\
    Forall2 (fun p x => displacement (snd (fst p)) (snd p) x) pairs ds /\
    match ds with
    | [] => r = (None, Some 0, O)
    | [x] => r = (Some x, None, 1%nat)
    | _ => exists m s, r = (Some m, Some s, length ds) /\ is_mean ds m /\ is_std ds m s
    end.
Proof. exact disparity_pairs_any. Qed.
Print Assumptions C44_disparity.
Theorem C44_disparity_range : forall d hi lo, db_ok d ->
  exists pairs ds r, compute_disparity_range d hi lo = Ok r /\
    NoDup (map (fun p : nat * nat * uv * uv => fst (fst p)) pairs) /\
    (forall id cam u0 u1, In (id, cam, u0, u1) pairs <-> exists f, alook d id = Some f /\ outer_ends lo hi (ftrack f cam) u0 u1) /\
    Forall2 (fun p x => displacement (snd (fst p)) (snd p) x) pairs ds /\
    match ds with
    | [] => r = (None, Some 0, O)
    | [x] => r = (Some x, None, 1%nat)
    | _ => exists m s, r = (Some m, Some s, length ds) /\ is_mean ds m /\ is_std ds m s
    end.
Proof. exact disparity_range_pairs_any. Qed.
Print Assumptions C44_disparity_range.
(** a track out of order with a repeated time *)
Example C44_ex : let tr := [(2, (7, 8), (0, 0)); (0, (1, 1), (0, 0)); (2, (3, 4), (0, 0)); (9, (5, 5), (0, 0))] : list obs in
  first_at tr 2 (7, 8) /\ first_at tr 0 (1, 1) /\ outer_ends 1 5 tr (7, 8) (3, 4).
Proof.
  cbv zeta. split; [|split].
  - exists [], (0, 0), [(0, (1, 1), (0, 0)); (2, (3, 4), (0, 0)); (9, (5, 5), (0, 0))]. split; [reflexivity|intros o []].
  - exists [(2, (7, 8), (0, 0))], (0, 0), [(2, (3, 4), (0, 0)); (9, (5, 5), (0, 0))]. split; [reflexivity|].
    intros o [<-|[]]. unfold otime. simpl. lra.
  - exists [], (2, (7, 8), (0, 0)), [(0, (1, 1), (0, 0))], (2, (3, 4), (0, 0)), [(9, (5, 5), (0, 0))]. unfold otime, raw. simpl.
    split; [reflexivity|]. split; [lra|]. split; [intros o []|]. split; [lra|]. split; [|auto]. intros o [<-|[]]. simpl. lra.
Qed.
(** at most one entry per camera and time: exactly the entries at the two times *)
Theorem C44_disparity_once : forall d t0 t1, db_ok d -> single_obs d ->
  exists pairs ds r, compute_disparity d t0 t1 = Ok r /\
    NoDup (map (fun p : nat * nat * uv * uv => fst (fst p)) pairs) /\
    (forall id cam u0 u1, In (id, cam, u0, u1) pairs <->
       (exists f, alook d id = Some f /\ f_del f = false) /\ observed d id cam t0 u0 /\ observed d id cam t1 u1) /\
    Forall2 (fun p x => displacement (snd (fst p)) (snd p) x) pairs ds /\
    match ds with
    | [] => r = (None, Some 0, O)
    | [x] => r = (Some x, None, 1%nat)
    | _ => exists m s, r = (Some m, Some s, length ds) /\ is_mean ds m /\ is_std ds m s
    end.
Proof. exact disparity_pairs. Qed.
Print Assumptions C44_disparity_once.
(** chronological tracks: first and last entry inside the range *)
Theorem C44_disparity_range_chronological : forall d hi lo, db_ok d -> strictly_chron d ->
  exists pairs ds r, compute_disparity_range d hi lo = Ok r /\
    NoDup (map (fun p : nat * nat * uv * uv => fst (fst p)) pairs) /\
    (forall id cam u0 u1, In (id, cam, u0, u1) pairs <-> exists f, alook d id = Some f /\ range_ends lo hi (ftrack f cam) u0 u1) /\
    Forall2 (fun p x => displacement (snd (fst p)) (snd p) x) pairs ds /\
    match ds with
    | [] => r = (None, Some 0, O)
    | [x] => r = (Some x, None, 1%nat)
    | _ => exists m s, r = (Some m, Some s, length ds) /\ is_mean ds m /\ is_std ds m s
    end.
Proof. exact disparity_range_pairs. Qed.
Print Assumptions C44_disparity_range_chronological.
(** the announced -1 is never reported: no match gives mean 0/0, one match deviation 0/0 *)
Theorem C44_failure_report_refuted : exists d, db_ok d /\ single_obs d /\ strictly_chron d /\
  compute_disparity d 0 1 = Ok (None, Some 0, O) /\ compute_disparity_range d (-1) (-1) = Ok (Some 5, None, 1%nat).
Proof.
  set (f := mkF 3 false [(0%nat, [(0, 0); (3, 4)])] [(0%nat, [(0, 0); (3, 4)])] [(0%nat, [0; 2])] (0%Z, 0, v3zero, v3zero)).
  assert (A : forall id g, alook [(3%nat, f)] id = Some g -> g = f) by (intros id g; cbn [alook]; destruct (Nat.eqb id 3); congruence).
  assert (T : forall c, ftrack f c = if Nat.eqb c 0 then [(0, (0, 0), (0, 0)); (2, (3, 4), (3, 4))] else []).
  { intros c. unfold ftrack, aget, f. cbn [f_ts f_uvs f_uvn alook]. destruct (Nat.eqb c 0); reflexivity. }
  exists [(3%nat, f)]. split; [|split; [|split; [|split]]].
  - split; [repeat constructor; intros []|]. intros id g [E|[]]. injection E as <- <-. split; [reflexivity|]. split; [repeat constructor; intros []|].
    intros c. unfold f. cbn [f_ts f_uvs f_uvn alook]. destruct (Nat.eqb c 0); simpl; auto.
  - intros id g c E. apply A in E. subst g. rewrite T. destruct (Nat.eqb c 0); [|constructor]. unfold otime. cbn [map fst]. constructor; [|repeat constructor; intros []].
    intros [H|[]]. lra.
  - intros id g c E l1 a l2 b l3. apply A in E. subst g. rewrite T. destruct (Nat.eqb c 0); [|destruct l1; discriminate].
    destruct l1 as [|x l1].
    + intros E. injection E as <- E. destruct l2 as [|y l2]; injection E as <- E; [unfold otime; simpl; lra|destruct l2; discriminate].
    + intros E. injection E as <- E. destruct l1 as [|y l1]; injection E as <- E; [destruct l2; discriminate|destruct l1; discriminate].
  - unfold compute_disparity, features_containing, query_loop, has_time, tfind, f. simpl.
    destruct (Reqb_spec 0 0); [|lra]. simpl. destruct (Reqb_spec 0 0); [|lra]. destruct (Reqb_spec 0 1); [lra|]. destruct (Reqb_spec 2 1); [lra|]. simpl.
    f_equal. exact (disp_stats_of []).
  - unfold compute_disparity_range. cbn [map snd collect]. unfold f. cbn [f_ts disp_range_cams length Nat.ltb Nat.leb f_uvs alook Nat.eqb disp_scan].
    destruct (Reqb_spec (-1) (-1)); [|lra]. cbn [orb at_uv nth_error obind disp_scan app]. f_equal.
    assert (E5 : uvdist (0, 0) (3, 4) = 5).
    { unfold uvdist. simpl. replace ((3 - 0) * ((3 - 0) * 1) + (4 - 0) * ((4 - 0) * 1)) with (5 * 5) by ring. apply sqrt_square. lra. }
    rewrite E5. exact (disp_stats_of [5]).
Qed.
Print Assumptions C44_failure_report_refuted.
