(** Specification of C92 and C93: the least-squares problem of the dynamic initializer and what it hands over. *)
From Coq Require Import Reals List Arith ZArith Bool Sorted.
From Verif Require Import RBool Outcome GeoModel GeoSpec Lin TypesModel ImuModel DbModel DbSpec InitModel StateModel PropModel CamModel HelpModel HelpSpec CpiModel CpiSpec CeresModel CeresSpec DynModel DynSpec MleModel.
Import ListNotations.
Open Scope R_scope.

(** ** C92: the problem *)
Definition ptime (e : R * q4 * v3 * v3) : R := fst (fst (fst e)).
(** one observation: feature, camera, time, raw pixel *)
Definition sight := (nat * nat * R * uv)%type.
(** the observations of the features in [kept], at the times [P] *)
Definition wanted (d : db) (P : list R) (kept : list nat) : list sight :=
  flat_map (fun e : nat * feature => if existsb (Nat.eqb (fst e)) kept then
    flat_map (fun cam => map (fun ob : obs => (fst e, cam, otime ob, snd (fst ob))) (filter (fun ob => tfind P (otime ob)) (ftrack (snd e) cam))) (map fst (f_ts (snd e)))
  else []) d.
(** what an image term is about, found through the indices of its blocks *)
Definition about (times : list R) (ids cams : list nat) (t : term) : option sight :=
  match t with
  | TImg f i k c => match nth_error ids k, nth_error cams c, nth_error times i with
                    | Some id, Some cam, Some tm => Some (id, cam, tm, (im_uv f 0%nat, im_uv f 1%nat))
                    | _, _, _ => None
                    end
  | _ => None
  end.
(** every camera that saw something has intrinsics *)
Definition ints_known (o : mopts) (d : db) : Prop := forall id f cam ts, In (id, f) d -> In (cam, ts) (f_ts f) -> exists k, alook (mo_int o) cam = Some k.
(** what an accelerometer at rest measures, in the global frame *)
Definition upward (o : yopts) : v3 := V3 0 0 (yo_g o).
(** the readings between two times, and what they are preintegrated to *)
Definition span (o : yopts) (data : list imu) (a b : R) (l : list reading) : Prop :=
  exists rd, init_select_imu_readings data (a + yo_dt o) (b + yo_dt o) = Ok rd /\ l = pairs_of rd.
Definition mean_of (o : yopts) (l : list reading) : cpi := cpi_run (cpi_new true (yo_Qc o) (yo_bg o) (yo_ba o)) l.
(** consecutive times *)
Definition next_to (P : list R) (i : nat) (a b : R) : Prop := nth_error P i = Some a /\ nth_error P (S i) = Some b.
(** what is assumed of Eigen: the three priors can be factored; so can the preintegrations *)
Definition factors (F : facs) (n : nat) (I : mat) : Prop := exists L K, fa_llt F n I = Some L /\ cholesky n I L /\ fa_tri F n (mtr L) = Some K.
Definition priors_ok (F : facs) : Prop := factors F 10 first_info /\ factors F 6 ext_info /\ factors F 8 int_info.
Definition spans_ok (F : facs) (o : yopts) (data : list imu) (P : list R) : Prop :=
  forall i a b l, next_to P i a b -> span o data a b l -> exists I, fa_solve F (cp_P (mean_of o l)) = Some I /\ injective 15 (mtr (fa_chol F I)).
(** the values the optimization starts from *)
Definition start_of (o : yopts) (e : R * q4 * v3 * v3) : clone := let '(_, q, p, v) := e in mkCl q (yo_bg o) v (yo_ba o) p.
(** terms: the prior of the first state; between consecutive states the readings between them; the two priors of each camera; the observations *)
Definition imu_terms (F : facs) (o : yopts) (data : list imu) (P : list R) (l : list term) : Prop :=
  S (length l) = length P /\
  forall i t, nth_error l i = Some t -> exists f a b r, t = TImu f i (S i) /\ next_to P i a b /\ span o data a b r /\ imu_factor (fa_solve F) (fa_chol F) (upward o) (mean_of o r) = Ok f.
Definition cal_terms (F : facs) (o : mopts) (cams : list nat) (l : list term) : Prop :=
  length l = (2 * length cams)%nat /\
  forall c cam, nth_error cams c = Some cam -> exists e m k fe fk, alook (yo_ext (mo_y o)) cam = Some e /\ alook (mo_int o) cam = Some (m, k) /\
    nth_error l (2 * c) = Some (TExt fe c) /\ prior_new (fa_llt F) (fa_tri F) 7 6 6 (ext_lin e) [PQuat; PVec 3] ext_info (fun _ => 0) = Ok fe /\
    nth_error l (S (2 * c)) = Some (TInt fk c) /\ prior_new (fa_llt F) (fa_tri F) 8 8 8 k [PVec 8] int_info (fun _ => 0) = Ok fk.
Definition img_term (o : mopts) (cams : list nat) (t : term) : Prop :=
  exists f i k c cam m kv, t = TImg f i k c /\ nth_error cams c = Some cam /\ alook (mo_int o) cam = Some (m, kv) /\ im_sigma f = mo_sigma o /\ im_cam f = m /\ im_gate f = 1.
Definition built (F : facs) (o : mopts) (d : db) (data : list imu) (gu : guess) (pr : problem) : Prop :=
  let P := map ptime (gu_poses gu) in let kept := map fst (gu_feats gu) in let A := pr_vars pr in
  (pr_times pr = P /\ StronglySorted Rlt P) /\
  (StronglySorted lt (pr_cams pr) /\ forall cam, In cam (pr_cams pr) -> exists id f ob, In (id, f) d /\ In ob (ftrack f cam) /\ In (otime ob) P) /\
  (NoDup (pr_fids pr) /\ forall id, In id (pr_fids pr) <-> exists s, In s (wanted d P kept) /\ fst (fst (fst s)) = id) /\
  (as_x A = map (start_of (mo_y o)) (gu_poses gu) /\ Forall2 (fun cam e => alook (yo_ext (mo_y o)) cam = Some e) (pr_cams pr) (as_c A) /\
   Forall2 (fun cam k => exists m, alook (mo_int o) cam = Some (m, k)) (pr_cams pr) (as_k A) /\ Forall2 (fun id p => In (id, p) (gu_feats gu)) (pr_fids pr) (as_f A)) /\
  pr_const pr = negb (mo_opt_calib o) /\
  exists f0 imus cals imgs, pr_terms pr = TFirst f0 :: imus ++ cals ++ imgs /\
    (exists e l, gu_poses gu = e :: l /\ first_prior F (start_of (mo_y o) e) = Ok f0) /\
    imu_terms F (mo_y o) data P imus /\ cal_terms F o (pr_cams pr) cals /\
    map (about P (pr_fids pr) (pr_cams pr)) imgs = map Some (wanted d P kept) /\ Forall (img_term o (pr_cams pr)) imgs.

(** ** C92: when the cost vanishes *)
(** values for all blocks; orientations with a logarithm where a prior compares them *)
Definition near_q (q q0 : q4) : Prop := unit_q q0 /\ log_inside (m3mul (m3tr (quat_2_Rot q)) (quat_2_Rot q0)).
Definition values (o : mopts) (gu : guess) (pr : problem) (A : assign) : Prop :=
  length (as_x A) = length (pr_times pr) /\ length (as_c A) = length (pr_cams pr) /\ length (as_k A) = length (pr_cams pr) /\ length (as_f A) = length (pr_fids pr) /\
  (forall x, In x (as_x A) -> unit_q (cl_q x)) /\ (forall e, In e (as_c A) -> unit_q (fst e)) /\
  (forall x l e l', as_x A = x :: l -> gu_poses gu = e :: l' -> near_q (cl_q x) (cl_q (start_of (mo_y o) e))) /\
  (forall c cam e e0, nth_error (pr_cams pr) c = Some cam -> nth_error (as_c A) c = Some e -> alook (yo_ext (mo_y o)) cam = Some e0 -> near_q (fst e) (fst e0)).
(** the readings between consecutive poses turn at rates preintegrated exactly *)
Definition steady (o : yopts) (data : list imu) (P : list R) : Prop := forall i a b l, next_to P i a b -> span o data a b l -> rates rate_ok true (yo_bg o) l.
(** the preintegrated readings, as a measurement *)
Definition measure (o : yopts) (l : list reading) (q : q4) : cfac :=
  let c := mean_of o l in mkCF (cp_DT c) (upward o) (cp_al c) (cp_be c) q (cp_ba c) (cp_bw c) (cp_Jq c) (cp_Jb c) (cp_Ja c) (cp_Hb c) (cp_Ha c) mid.
(** same position and biases, and the turn from [x0] to [x] has no component about the vertical *)
Definition anchored (x0 x : clone) : Prop :=
  (exists u, turn_of u (cl_q x0) (cl_q x) /\ vz u = 0) /\ cl_p x = cl_p x0 /\ cl_bg x = cl_bg x0 /\ cl_ba x = cl_ba x0.
(** the pixel where camera [c] of [x] sees [p] *)
Definition predicted (m : camera) (k : vec) (e : q4 * v3) (x : clone) (p : v3) : vec :=
  cam_distort m k (projected (v3add (m3v (quat_2_Rot (fst e)) (m3v (quat_2_Rot (cl_q x)) (v3sub p (cl_p x)))) (snd e))).
Definition fits (o : mopts) (d : db) (data : list imu) (gu : guess) (pr : problem) (A : assign) : Prop :=
  let P := map ptime (gu_poses gu) in
  (forall x l e l', as_x A = x :: l -> gu_poses gu = e :: l' -> anchored (start_of (mo_y o) e) x) /\
  (forall i a b l x y q, next_to P i a b -> span (mo_y o) data a b l -> nth_error (as_x A) i = Some x -> nth_error (as_x A) (S i) = Some y ->
     cp_q (mean_of (mo_y o) l) = Some q -> follows (measure (mo_y o) l q) x y) /\
  (forall c cam e e0, nth_error (pr_cams pr) c = Some cam -> nth_error (as_c A) c = Some e -> alook (yo_ext (mo_y o)) cam = Some e0 -> quat_2_Rot (fst e) = quat_2_Rot (fst e0) /\ snd e = snd e0) /\
  (forall c cam k m k0, nth_error (pr_cams pr) c = Some cam -> nth_error (as_k A) c = Some k -> alook (mo_int o) cam = Some (m, k0) -> veq 8 k k0) /\
  (forall i k c id cam t u x p e kv m k0, In (id, cam, t, u) (wanted d P (map fst (gu_feats gu))) ->
     nth_error P i = Some t -> nth_error (pr_fids pr) k = Some id -> nth_error (pr_cams pr) c = Some cam ->
     nth_error (as_x A) i = Some x -> nth_error (as_f A) k = Some p -> nth_error (as_c A) c = Some e -> nth_error (as_k A) c = Some kv -> alook (mo_int o) cam = Some (m, k0) ->
     predicted m kv e x p 0%nat = fst u /\ predicted m kv e x p 1%nat = snd u).

(** the true values: the biases are those preintegrated with, the body moves as the readings say, the calibration is exact and every
    pixel is where the camera sees the feature; the frame is the one the first state of the guess fixes *)
Definition truth (o : mopts) (d : db) (data : list imu) (gu : guess) (pr : problem) (A : assign) : Prop :=
  let P := map ptime (gu_poses gu) in let y := mo_y o in
  (forall x, In x (as_x A) -> cl_bg x = yo_bg y /\ cl_ba x = yo_ba y) /\
  (forall i a b l x x', next_to P i a b -> span y data a b l -> nth_error (as_x A) i = Some x -> nth_error (as_x A) (S i) = Some x' ->
     moves (upward y) (map (piece true (yo_bg y) (yo_ba y)) l) (body_of x) (body_of x')) /\
  (forall x l e l', as_x A = x :: l -> gu_poses gu = e :: l' -> cl_p x = cl_p (start_of y e) /\ exists u, turn_of u (cl_q (start_of y e)) (cl_q x) /\ vz u = 0) /\
  (forall c cam, nth_error (pr_cams pr) c = Some cam -> nth_error (as_c A) c = alook (yo_ext y) cam) /\
  (forall c cam, nth_error (pr_cams pr) c = Some cam -> nth_error (as_k A) c = option_map snd (alook (mo_int o) cam)) /\
  (forall i k c id cam t u x p e m kv, In (id, cam, t, u) (wanted d P (map fst (gu_feats gu))) ->
     nth_error P i = Some t -> nth_error (pr_fids pr) k = Some id -> nth_error (pr_cams pr) c = Some cam ->
     nth_error (as_x A) i = Some x -> nth_error (as_f A) k = Some p -> alook (yo_ext y) cam = Some e -> alook (mo_int o) cam = Some (m, kv) ->
     predicted m kv e x p 0%nat = fst u /\ predicted m kv e x p 1%nat = snd u).

(** ** C93 *)
(** the blocks Ceres returns are those of a 15 x 15 matrix *)
Definition blocks_of (C : mat) (B : nat -> nat -> m3) : Prop := forall a b i j, (a < 5)%nat -> (b < 5)%nat -> (i < 3)%nat -> (j < 3)%nat -> m3mat (B a b) i j = C (3 * a + i)%nat (3 * b + j)%nat.
(** inflation of variable [a] *)
Definition inflation (o : mopts) (a : nat) : R := match a with 0 => mo_inf_ori o | 2 => mo_inf_vel o | 3 => mo_inf_bg o | 4 => mo_inf_ba o | _ => 1%R end%nat.
Definition inflated (o : mopts) (C : mat) : mat := fun i j => (if Nat.eqb (i / 3) (j / 3) then inflation o (i / 3) else 1) * C i j.
