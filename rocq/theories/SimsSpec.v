(** What the constructor of the simulator is expected to do (C100, C101, C102). *)
From Coq Require Import Reals List Arith Bool.
From Verif Require Import GeoModel GeoSpec DbModel BsplSpec SimModel SimSpec SimsModel.
Import ListNotations.
Open Scope R_scope.

(** [n] control points, [dt] apart, from [tmin] on: what feeding a trajectory yields (C40_feed) *)
Definition uniform (l : list (R * se3)) (tmin dt : R) (n : nat) : Prop :=
  0 < dt /\ by_time l /\ map fst l = grid tmin dt n.
(** end of the interval on which such a spline answers (C40_window) *)
Definition finish (tmin dt : R) (n : nat) : R := tmin + INR (n - 2) * dt.
(** length of the way along the ticks [st], [st + step], ... up to the [k]-th *)
Fixpoint walked (pf : R -> v3) (st step : R) (k : nat) : R :=
  match k with
  | O => 0
  | S j => walked pf st step j + v3norm (v3sub (pf (st + INR (S j) * step)) (pf (st + INR j * step)))
  end.
(** tick [k] is the first one at which the way exceeds [th] *)
Definition first_beyond (pf : R -> v3) (st step th : R) (k : nat) : Prop :=
  th < walked pf st step k /\ forall j, (j < k)%nat -> walked pf st step j <= th.

(** the point [pf] lies in camera [i] of the pose [Q], [x] at the depth [d] on the ray of pixel [uv] *)
Definition on_ray (p : spar) (i : nat) (Q : m3) (x pf : v3) (uv : px) (d : R) : Prop :=
  v3add (m3v (quat_2_Rot (fst (sp_ext p i))) (m3v Q (v3sub pf x))) (snd (sp_ext p i)) =
  v3scal d (V3 (fst (sp_undistort p i uv)) (snd (sp_undistort p i uv)) 1).
(** number of map points camera [i] sees from the pose [Q], [x]: ids of points in depth range whose pixel
    lies in the image *)
Definition sees (p : spar) (i : nat) (Q : m3) (x : v3) (feats : list (nat * v3)) (ids : list nat) : Prop :=
  NoDup ids /\ forall id, In id ids <-> exists pf uv, In (id, pf) feats /\ true_pixel p i Q x pf uv /\ in_image p i uv.

(** the options with another number of cameras *)
Definition with_cams (o : vopt) (n : nat) : vopt :=
  mkVopt n (vo_cams o) (vo_ext o) (vo_dt o) (vo_intr o) (vo_gsens o) (vo_kalibr o) (vo_dw o) (vo_da o) (vo_tg o) (vo_qgyr o) (vo_qacc o).
(** every camera has a calibration *)
Definition calibrated (h : heap) (o : vopt) : Prop :=
  forall i, (i < vo_ncam o)%nat -> exists a c e, alook (vo_cams o) i = Some a /\ nth_error h a = Some c /\ alook (vo_ext o) i = Some e.
(** the pointers of the options point to something *)
Definition pointers_ok (h : heap) (o : vopt) : Prop := forall i a, In (i, a) (vo_cams o) -> (a < length h)%nat.
(** different cameras have different objects *)
Definition no_sharing (o : vopt) : Prop :=
  forall i j a, alook (vo_cams o) i = Some a -> alook (vo_cams o) j = Some a -> i = j.

(** ** which normal value perturbs which parameter *)
Inductive param := PDt | PIntr (i r : nat) | PRot (i r : nat) | PPos (i r : nat) | PDw (j : nat) | PDa (j : nat) | PRotI (r : nat) | PTg (j : nat).
Definition valid (o : vopt) (p : param) : Prop :=
  match p with
  | PDt => True
  | PIntr i r => (i < vo_ncam o)%nat /\ (r < 8)%nat
  | PRot i r | PPos i r => (i < vo_ncam o)%nat /\ (r < 3)%nat
  | PDw j | PDa j => vo_intr o = true /\ (j < 6)%nat
  | PRotI r => vo_intr o = true /\ (r < 3)%nat
  | PTg j => vo_gsens o = true /\ (j < 9)%nat
  end.
Definition src (o : vopt) (p : param) : nat :=
  match p with
  | PDt => 0
  | PIntr i r => 1 + 14 * i + r
  | PRot i r => 1 + 14 * i + 8 + r
  | PPos i r => 1 + 14 * i + 11 + r
  | PDw j => 1 + 14 * vo_ncam o + 2 * j
  | PDa j => 1 + 14 * vo_ncam o + 2 * j + 1
  | PRotI r => 1 + 14 * vo_ncam o + 12 + r
  | PTg j => 1 + 14 * vo_ncam o + (if vo_intr o then 15 else 0) + j
  end%nat.
(** [q'] is the orientation [q] turned by the vector [v] *)
Definition turned_by (v : v3) (q q' : q4) : Prop :=
  q' = rot_2_quat (m3mul (exp_so3 v) (quat_2_Rot q)) /\
  (unit_q q -> v3norm v = 0 \/ 1 / 10 ^ 7 <= v3norm v -> unit_q q' /\ 0 <= qw q' /\ quat_2_Rot q' = m3mul (exp_so3 v) (quat_2_Rot q)).
(** the perturbed options *)
Record perturbed (w : nat -> R) (h : heap) (o : vopt) (h' : heap) (o' : vopt) : Prop := mkPert
  { pt_dt : vo_dt o' = vo_dt o + 1 / 100 * w (src o PDt);
    pt_cam : forall i a c, (i < vo_ncam o)%nat -> alook (vo_cams o) i = Some a -> nth_error h a = Some c ->
      exists c', nth_error h' a = Some c' /\ co_equi c' = co_equi c /\ co_w c' = co_w c /\ co_h c' = co_h c /\
        (forall r, (r < 4)%nat -> co_val c' r = co_val c r + w (src o (PIntr i r))) /\
        (forall r, (4 <= r < 8)%nat -> co_val c' r = co_val c r + 5 / 1000 * w (src o (PIntr i r)));
    pt_ext : forall i q p, (i < vo_ncam o)%nat -> alook (vo_ext o) i = Some (q, p) ->
      exists q' p', alook (vo_ext o') i = Some (q', p') /\
        turned_by (V3 (1 / 1000 * w (src o (PRot i 0))) (1 / 1000 * w (src o (PRot i 1))) (1 / 1000 * w (src o (PRot i 2)))) q q' /\
        p' = v3add p (V3 (1 / 100 * w (src o (PPos i 0))) (1 / 100 * w (src o (PPos i 1))) (1 / 100 * w (src o (PPos i 2))));
    pt_imu : vo_intr o = true ->
      (forall j, (j < 6)%nat -> vo_dw o' j = vo_dw o j + 4 / 1000 * w (src o (PDw j)) /\ vo_da o' j = vo_da o j + 4 / 1000 * w (src o (PDa j))) /\
      let v := V3 (2 / 1000 * w (src o (PRotI 0))) (2 / 1000 * w (src o (PRotI 1))) (2 / 1000 * w (src o (PRotI 2))) in
      if vo_kalibr o then turned_by v (vo_qgyr o) (vo_qgyr o') /\ vo_qacc o' = vo_qacc o
      else turned_by v (vo_qacc o) (vo_qacc o') /\ vo_qgyr o' = vo_qgyr o;
    pt_tg : vo_gsens o = true -> forall j, (j < 9)%nat -> vo_tg o' j = vo_tg o j + 4 / 1000 * w (src o (PTg j));
    pt_imu_off : vo_intr o = false -> vo_dw o' = vo_dw o /\ vo_da o' = vo_da o /\ vo_qgyr o' = vo_qgyr o /\ vo_qacc o' = vo_qacc o;
    pt_tg_off : vo_gsens o = false -> vo_tg o' = vo_tg o;
    pt_rest : vo_ncam o' = vo_ncam o /\ vo_cams o' = vo_cams o /\ vo_intr o' = vo_intr o /\ vo_gsens o' = vo_gsens o /\ vo_kalibr o' = vo_kalibr o /\
      (forall i, (vo_ncam o <= i)%nat -> alook (vo_ext o') i = alook (vo_ext o) i);
    pt_heap : length h' = length h /\
      forall a, (forall i, (i < vo_ncam o)%nat -> alook (vo_cams o) i <> Some a) -> nth_error h' a = nth_error h a }.
