(** Specifications for the updaters (C16, C17): what the stacked system must be, and what happens
    to the features.  Nothing here mentions the mapping, the counters or the loops of the code. *)
From Coq Require Import Reals List Arith ZArith Bool.
From Verif Require Import RBool Outcome Lin GeoModel TypesModel GivensModel GivensSpec StateModel StateSpec ReachModel ReachSpec
  DbModel DbSpec UpdModel.
Import ListNotations.
Open Scope R_scope.

(** one feature's linear system  res = H e + noise,  noise variance sig, on an ordered list of
    variables *)
Record sys := mkSys { y_H : dmat; y_res : dvec; y_order : list pref; y_sig : R }.

Definition rows_of (l : list sys) : nat := fold_right (fun y a => (dn (y_res y) + a)%nat) 0%nat l.

(** The system (order, H, res, N) consists of the systems of [l], one below the other from row
    [r0]: each row, seen as a row over the whole state, is the feature's own row; the noise of the
    row is that feature's. *)
Fixpoint stacked (r0 : nat) (l : list sys) (order : list vref) (H : mat) (res : vec) (N : mat) : Prop :=
  match l with
  | [] => True
  | y :: l' =>
      (forall i, (i < dn (y_res y))%nat ->
         (forall j, widen (indices order) H (r0 + i)%nat j =
                    widen (indices (map snd (y_order y))) (dm (y_H y)) i j) /\
         res (r0 + i)%nat = dv (y_res y) i /\ N (r0 + i)%nat (r0 + i)%nat = y_sig y) /\
      stacked (r0 + dn (y_res y)) l' order H res N
  end.
Definition diagonal (N : mat) : Prop := forall a b, a <> b -> N a b = 0.

(** pointers of the SLAM landmarks *)
Definition slam_ptrs (st : state) : list nat := map (fun e => fst (snd e)) (s_slam st).

(** an order entry describes a variable of the state *)
Definition live_ref (st : state) (e : pref) : Prop :=
  exists t, In t (s_vars st) /\ ty_ptr t = fst e /\ ref_of t = snd e.

(** What get_feature_jacobian_full must deliver for feature [f]: two rows per measurement, a
    feature block with [k] columns, a state block on distinct variables of the state that are
    not landmarks. *)
Record lin_ok (st : state) (k : nat) (f : feature) (l : linsys) : Prop := mkLinOk
  { lo_rows : dr (ls_Hf l) = (2 * count_meas f)%nat; lo_cols : dc (ls_Hf l) = k;
    lo_hx : dr (ls_Hx l) = dr (ls_Hf l); lo_res : dn (ls_res l) = dr (ls_Hf l);
    lo_size : dc (ls_Hx l) = length (indices (map snd (ls_order l)));
    lo_nodup : NoDup (map fst (ls_order l)); lo_some : ls_order l <> [];
    lo_live : Forall (live_ref st) (ls_order l);
    lo_nolm : forall e, In e (ls_order l) -> ~ In (fst e) (slam_ptrs st) }.

(** measurements of a feature are at the given times *)
Definition only_times (times : list R) (f : feature) : Prop :=
  forall c o, In o (ftrack f c) -> In (otime o) times.
(** the linearization oracle delivers for every feature seen only from clones of the state *)
Definition jac_ok (st : state) (jac : state -> feature -> outcome linsys) : Prop :=
  forall f, feat_ok f -> only_times (map fst (s_clones st)) f -> (1 <= count_meas f)%nat ->
    exists l, jac st f = Ok l /\ lin_ok st 3 f l.

(** the part of a feature's system that does not depend on the feature position *)
Definition projected (l : linsys) (y : sys) : Prop :=
  exists F, nullspace_project (ls_Hf l) (ls_Hx l) (ls_res l) = Ok (F, y_H y, y_res y) /\ y_order y = ls_order l.
(** the system of a landmark that is in the state: its columns are appended; of a single inverse
    depth only the depth column, the bearing being projected out *)
Definition with_landmark (st : state) (sgl : bool) (p : nat) (l : linsys) (y : sys) : Prop :=
  y_order y = ls_order l ++ [(p, ref_ptr st p)] /\
  if sgl then
    exists F, nullspace_project (but_last (ls_Hf l)) (append_cols (ls_Hx l) (last_col (ls_Hf l))) (ls_res l)
              = Ok (F, y_H y, y_res y)
  else y_H y = append_cols (ls_Hx l) (ls_Hf l) /\ y_res y = ls_res l.

(** Mahalanobis distance of a residual *)
Definition mahalanobis (n : nat) (P H : mat) (m : nat) (res : vec) (sig : R) (d : R) : Prop :=
  let S := madd (congr n H P) (mscal sig mid) in
  exists x, veq m (mvec m S x) res /\ d = dot m res x.

(** same estimate and covariance *)
Definition same_estimate (a b : state) : Prop :=
  s_vars a = s_vars b /\ s_dim a = s_dim b /\ meq (s_dim a) (s_dim a) (s_cov a) (s_cov b).
(** the chi-squared gate of one feature *)
Definition gate_dist (st : state) (y : sys) (d : R) : Prop :=
  mahalanobis (s_dim st) (s_cov st) (widen (indices (map snd (y_order y))) (dm (y_H y)))
    (dn (y_res y)) (dv (y_res y)) (y_sig y) d.
Definition passes (chi2q : nat -> R) (mult : R) (st : state) (y : sys) : Prop :=
  exists d, gate_dist st y d /\ d <= mult * chi2q (dn (y_res y)).
Definition fails (chi2q : nat -> R) (mult : R) (st : state) (y : sys) : Prop :=
  exists d, gate_dist st y d /\ mult * chi2q (dn (y_res y)) < d.

(** the tracks a caller may hand in *)
Definition handed (d : db) (ids : list nat) : Prop := NoDup ids /\ forall id, In id ids -> exists f, alook d id = Some f.

(** [g] is track [f] restricted to the clone times (at least two observations left) with its
    triangulated position *)
Definition prepared (st : state) (tri : state -> feature -> (Z * R * v3 * v3) * bool) (f g : feature) : Prop :=
  exists f1, clean_old_measurements (map fst (s_clones st)) f = Ok f1 /\ (2 <= count_meas f1)%nat /\
    snd (tri st f1) = true /\ g = set_pos f1 (fst (tri st f1)).
(** why a track handed to the MSCKF updater contributed nothing *)
Definition not_usable (chi2q : nat -> R) (sig mult : R) tri jac (st : state) (f : feature) : Prop :=
  (exists f1, clean_old_measurements (map fst (s_clones st)) f = Ok f1 /\
     ((count_meas f1 < 2)%nat \/ snd (tri st f1) = false)) \/
  (exists g l y, prepared st tri f g /\ jac st g = Ok l /\ projected l y /\ y_sig y = sig /\ fails chi2q mult st y).
(** the system a used track contributed *)
Definition contributes (chi2q : nat -> R) (sig mult : R) tri jac (st : state) (d d' : db) (id : nat) (y : sys) : Prop :=
  exists f g l, alook d id = Some f /\ prepared st tri f g /\ alook d' id = Some (set_del g true) /\
    jac st g = Ok l /\ projected l y /\ y_sig y = sig /\ passes chi2q mult st y.

(** ** SLAM updater *)
(** landmark [id] is the state variable [p]; a single inverse depth has one degree of freedom *)
Definition landmark_at (st : state) (single : nat -> bool) (id p : nat) : Prop :=
  (exists b, In (id, (p, b)) (s_slam st)) /\ snd (ref_ptr st p) = if single id then 1%nat else 3%nat.
Definition required (sgl : bool) : nat := if sgl then 2%nat else 1%nat.
(** noise and gate that belong to a feature: those of tags below max_aruco_features, those of
    ordinary landmarks from there on *)
Definition slam_noise (so : slam_opts) (st : state) (id : nat) (sig mult : R) : Prop :=
  ((Z.of_nat id < o_max_aruco (s_opts st))%Z /\ sig = so_sig_aruco so /\ mult = so_mult_aruco so) \/
  ((o_max_aruco (s_opts st) <= Z.of_nat id)%Z /\ sig = so_sig_slam so /\ mult = so_mult_slam so).
Definition slam_contributes (chi2q : nat -> R) (so : slam_opts) (single : nat -> bool) jac (st : state) (d d' : db)
  (id : nat) (y : sys) : Prop :=
  exists f g l p, alook d id = Some f /\ clean_old_measurements (map fst (s_clones st)) f = Ok g /\
    (required (single id) <= count_meas g)%nat /\ alook d' id = Some (set_del g true) /\
    landmark_at st single id p /\ jac st g = Ok l /\ with_landmark st (single id) p l y /\
    exists mult, slam_noise so st id (y_sig y) mult /\ passes chi2q mult st y.
(** what happens to a track that was not used *)
Definition slam_unused (chi2q : nat -> R) (so : slam_opts) (single : nat -> bool) jac (st : state) (d d' : db)
  (fails_l : list nat) (id : nat) : Prop :=
  exists f g, alook d id = Some f /\ clean_old_measurements (map fst (s_clones st)) f = Ok g /\
    ((count_meas g = 0%nat /\ alook d' id = Some (set_del g true) /\ ~ In id fails_l) \/
     ((0 < count_meas g < required (single id))%nat /\ alook d' id = Some g /\ ~ In id fails_l) \/
     (exists l p y, jac st g = Ok l /\ landmark_at st single id p /\ with_landmark st (single id) p l y /\
        (exists mult, slam_noise so st id (y_sig y) mult /\ fails chi2q mult st y) /\ alook d' id = Some (set_del g true) /\
        (In id fails_l <-> (o_max_aruco (s_opts st) <= Z.of_nat id)%Z))).

(** ** Delayed initialization *)
(** The oracle conditions of delayed initialization, for every state met on the way: the
    linearization of a feature seen from at least two clones has the right shape and its feature
    block determines the landmark (full column rank; of a single inverse depth: the depth column
    after the bearing has been projected out). *)
Definition init_jac_ok (single : nat -> bool) (st : state) (jac : state -> feature -> outcome linsys) : Prop :=
  jac_ok st jac /\
  forall id f l Hx Hf res, feat_ok f -> only_times (map fst (s_clones st)) f -> (2 <= count_meas f)%nat ->
    jac st f = Ok l -> init_system (single id) l = Ok (Hx, Hf, res) -> full_col_rank (dr Hf) (dc Hf) (dm Hf).
(** landmark [id] has been added with its own fresh variable *)
Definition new_landmark (st st' : state) (single : nat -> bool) (id : nat) : Prop :=
  exists p v, In (id, (p, false)) (s_slam st') /\ In (TVec v) (s_vars st') /\ vo_ptr v = p /\
    vo_size v = (if single id then 1%nat else 3%nat) /\ ~ In p (map ty_ptr (s_vars st)).
