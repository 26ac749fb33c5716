(** Initialization: ov_init/src/utils/helper.h, ov_init/src/static/StaticInitializer.cpp and
    ov_core/src/feat/FeatureHelper.h.

    Simplifications: doubles and floats are exact reals.  A division by zero (NaN or infinity in C++)
    is [UB] in gram_schmidt and static_initialize and [None] in the disparity statistics. *)
From Coq Require Import Reals List Arith ZArith Bool.
From Verif Require Import RBool Outcome GeoModel Lin ImuModel DbModel.
Import ListNotations.
Open Scope R_scope.

(** ** helper.h 138-171 *)
(** [a = a / a.norm()] [helper.h 138-171] *)
Definition unit_of (a : v3) : outcome v3 := guard (negb (Reqb (v3norm a) 0)) UB (Ok (v3div a (v3norm a))).
(** matrix with the given columns: R_GtoI.block(0, i, 3, 1) = ... [helper.h 138-171] *)
Definition m3cols (x y z : v3) : m3 := M3 (vx x) (vx y) (vx z)  (vy x) (vy y) (vy z)  (vz x) (vz y) (vz z).
(** helper.h 138-171 *)
Definition gram_schmidt (g : v3) : outcome m3 :=
  do z <- unit_of g;
  guard (negb (Reqb (v3norm z) 0)) UB
   (let inner1 := v3dot (V3 1 0 0) z / v3norm z in
    let inner2 := v3dot (V3 0 1 0) z / v3norm z in
    if Rltb (Rabs inner1) (Rabs inner2) then
      do x <- unit_of (v3cross z (V3 1 0 0));
      do y <- unit_of (v3cross z x);
      Ok (m3cols x y z)
    else
      do x <- unit_of (v3cross z (V3 0 1 0));
      do y <- unit_of (v3cross z x);
      Ok (m3cols x y z)).

(** ** StaticInitializer.cpp 37-165 *)
Fixpoint v3sum (l : list v3) : v3 := match l with [] => v3zero | a :: l' => v3add a (v3sum l') end.
(** the running sums of StaticInitializer.cpp 76-80, 90-96; [/= size] *)
Definition v3avg (l : list v3) : v3 := v3div (v3sum l) (INR (length l)).
(** StaticInitializer.cpp 82-86, 99-103 *)
Fixpoint sq_dev (m : v3) (l : list v3) : R :=
  match l with [] => 0 | a :: l' => v3dot (v3sub a m) (v3sub a m) + sq_dev m l' end.
(** StaticInitializer.cpp 82-86, 99-103 (as above) *)
Definition a_std (l : list v3) : R := sqrt (sq_dev (v3avg l) l / (INR (length l) - 1)).
(** InertialInitializerOptions.h 64-74: init_window_time, init_imu_thresh, gravity_mag *)
Record init_opts := mkIO { io_window : R; io_thresh : R; io_gravity : R }.
(** what is written at StaticInitializer.cpp 139-164 *)
Record init_state := mkIS { is_time : R; is_q : q4; is_p : v3; is_v : v3; is_bg : v3; is_ba : v3; is_cov : mat }.
(** StaticInitializer.cpp 148-151: 15x15, diag(0.02^2 I, 0.05^2 I, 0.01^2 I, 0.02^2 I, 0.02^2 I) *)
Definition static_cov : mat := fun i j =>
  if Nat.eqb i j then (if Nat.ltb i 3 then (2 / 100) ^ 2 else if Nat.ltb i 6 then (5 / 100) ^ 2 else if Nat.ltb i 9 then (1 / 100) ^ 2 else (2 / 100) ^ 2)
  else 0.
(** StaticInitializer.cpp 57-66 *)
Definition in_half (lo hi : R) (m : imu) : bool := (Rltb lo (i_t m) && Rleb (i_t m) hi)%bool.
(** StaticInitializer.cpp 37-165 *)
Definition static_initialize (o : init_opts) (data : list imu) (wait : bool) : outcome (option init_state) :=
  match data with
  | [] => Ok None
  | first :: rest =>
      if (length data <? 2)%nat then Ok None else
      let newest := i_t (last data first) in
      let oldest := i_t first in
      if Rltb (newest - oldest) (io_window o) then Ok None else
      let w10 := filter (in_half (newest - 5 / 10 * io_window o) (newest - 0 * io_window o)) data in
      let w21 := filter (in_half (newest - 1 * io_window o) (newest - 5 / 10 * io_window o)) data in
      if ((length w10 <? 2) || (length w21 <? 2))%nat%bool then Ok None else
      let var10 := a_std (map i_a w10) in
      let a_avg := v3avg (map i_a w21) in
      let w_avg := v3avg (map i_w w21) in
      let var21 := a_std (map i_a w21) in
      if (Rltb var10 (io_thresh o) && wait)%bool then Ok None else
      if (Rltb (io_thresh o) var21 && wait)%bool then Ok None else
      if ((Rltb (io_thresh o) var10 || Rltb (io_thresh o) var21) && negb wait)%bool then Ok None else
      do z <- unit_of a_avg;
      do Ro <- gram_schmidt z;
      let q := rot_2_quat Ro in
      let ba := v3sub a_avg (m3v (quat_2_Rot q) (V3 0 0 (io_gravity o))) in
      Ok (Some (mkIS (i_t (last w21 first)) q v3zero v3zero w_avg ba static_cov))
  end.

(** ** FeatureHelper.h *)
(** std::find + std::distance [FeatureHelper.h 68-86] *)
Fixpoint tindex (l : list R) (t : R) : option nat :=
  match l with
  | [] => None
  | x :: l' => if Reqb x t then Some 0%nat else option_map S (tindex l' t)
  end.
(** FeatureHelper.h 68-86 *)
Definition uvdist (a b : uv) : R := sqrt ((fst b - fst a) ^ 2 + (snd b - snd a) ^ 2).
(** .at: outside throws [FeatureHelper.h 68-86] *)
Definition at_uv (l : list uv) (i : nat) : outcome uv := match nth_error l i with Some u => Ok u | None => UB end.
(** FeatureHelper.h 68-86, one feature *)
Fixpoint disp_cams (f : feature) (t0 t1 : R) (l : amap (list R)) : outcome (list R) :=
  match l with
  | [] => Ok []
  | (cam, ts) :: l' =>
      match tindex ts t0, tindex ts t1 with
      | Some i0, Some i1 =>
          match alook (f_uvs f) cam with
          | None => UB
          | Some us =>
              do u0 <- at_uv us i0;
              do u1 <- at_uv us i1;
              do r <- disp_cams f t0 t1 l';
              Ok (uvdist u0 u1 :: r)
          end
      | _, _ => disp_cams f t0 t1 l'
      end
  end.
(** FeatureHelper.h 68-86 (as above) *)
Fixpoint collect (g : feature -> outcome (list R)) (l : list feature) : outcome (list R) :=
  match l with
  | [] => Ok []
  | f :: l' => do a <- g f; do b <- collect g l'; Ok (a ++ b)
  end.
(** FeatureHelper.h 90-109 and 157-176: mean and deviation of the collected values.  The block for fewer than two
    values only assigns -1, -1, 0 and falls through, so its assignments are overwritten below.
    [None] is NaN (0/0).  For no value, [size() - 1] is 2^64-1. *)
Fixpoint rsum (l : list R) : R := match l with [] => 0 | a :: l' => a + rsum l' end.
(** FeatureHelper.h 90-109 and 157-176 (as above) *)
Definition disp_stats (ds : list R) : option R * option R * nat :=
  let n := length ds in
  let mean := rsum ds / INR n in
  let dev := rsum (map (fun x => (x - mean) ^ 2) ds) in
  (match n with O => None | _ => Some mean end,
   match n with O => Some (sqrt (dev / (2 ^ 64 - 1))) | 1%nat => None | _ => Some (sqrt (dev / INR (n - 1))) end,
   n).
(** FeatureHelper.h 60-110 *)
Definition compute_disparity (d : db) (t0 t1 : R) : outcome (option R * option R * nat) :=
  do ds <- collect (fun f => disp_cams f t0 t1 (f_ts f)) (fst (features_containing t0 false true d));
  Ok (disp_stats ds).
(** FeatureHelper.h 141-153: the loop over the measurements of one camera; [b0], [b1] the values found so far.
    [lo], [hi]: oldest_time and newest_time, -1 disables. *)
Fixpoint disp_scan (lo hi : R) (ts : list R) (us : list uv) (i : nat) (b0 b1 : option uv) : outcome (option uv * option uv) :=
  match ts with
  | [] => Ok (b0, b1)
  | t :: ts' =>
      match b0 with
      | None => if (Reqb lo (-1) || Rltb lo t)%bool then do u <- at_uv us i; disp_scan lo hi ts' us (S i) (Some u) b1
                else disp_scan lo hi ts' us (S i) b0 b1
      | Some _ => if (Reqb hi (-1) || Rltb t hi)%bool then do u <- at_uv us i; disp_scan lo hi ts' us (S i) b0 (Some u)
                  else disp_scan lo hi ts' us (S i) b0 b1
      end
  end.
(** FeatureHelper.h 141-153 (as above) *)
Fixpoint disp_range_cams (f : feature) (lo hi : R) (l : amap (list R)) : outcome (list R) :=
  match l with
  | [] => Ok []
  | (cam, ts) :: l' =>
      if (length ts <? 2)%nat then disp_range_cams f lo hi l' else
      match alook (f_uvs f) cam with
      | None => UB
      | Some us =>
          do b <- disp_scan lo hi ts us 0 None None;
          do r <- disp_range_cams f lo hi l';
          Ok (match b with (Some u0, Some u1) => uvdist u0 u1 :: r | _ => r end)
      end
  end.
(** FeatureHelper.h 127-177 *)
Definition compute_disparity_range (d : db) (hi lo : R) : outcome (option R * option R * nat) :=
  do ds <- collect (fun f => disp_range_cams f lo hi (f_ts f)) (map snd d);
  Ok (disp_stats ds).

(** ** helper.h 183-319 *)
Definition compute_dongsi_coeff (D : m3) (dd : v3) (g : R) : list R :=
  let D1_1 := m00 D in let D1_2 := m01 D in let D1_3 := m02 D in
  let D2_1 := m10 D in let D2_2 := m11 D in let D2_3 := m12 D in
  let D3_1 := m20 D in let D3_2 := m21 D in let D3_3 := m22 D in
  let d1 := vx dd in let d2 := vy dd in let d3 := vz dd in
  let D1_1_sq := D1_1 * D1_1 in let D1_2_sq := D1_2 * D1_2 in let D1_3_sq := D1_3 * D1_3 in
  let D2_1_sq := D2_1 * D2_1 in let D2_2_sq := D2_2 * D2_2 in let D2_3_sq := D2_3 * D2_3 in
  let D3_1_sq := D3_1 * D3_1 in let D3_2_sq := D3_2 * D3_2 in let D3_3_sq := D3_3 * D3_3 in
  let d1_sq := d1 * d1 in let d2_sq := d2 * d2 in let d3_sq := d3 * d3 in
  let g_sq := g * g in
  let coeff0 :=
    1 in
  let coeff1 :=
    (-(2 * D1_1 * g_sq + 2 * D2_2 * g_sq + 2 * D3_3 * g_sq) / g_sq) in
  let coeff2 :=
    (-(d1_sq + d2_sq + d3_sq - D1_1_sq * g_sq - D2_2_sq * g_sq - D3_3_sq * g_sq - 4 * D1_1 * D2_2 * g_sq + 2 * D1_2 *
      D2_1 * g_sq - 4 * D1_1 * D3_3 * g_sq + 2 * D1_3 * D3_1 * g_sq - 4 * D2_2 * D3_3 * g_sq + 2 * D2_3 * D3_2 * g_sq)
      / g_sq) in
  let coeff3 :=
    ((2 * D1_1 * d2_sq + 2 * D1_1 * d3_sq + 2 * D2_2 * d1_sq + 2 * D2_2 * d3_sq + 2 * D3_3 * d1_sq + 2 * D3_3 * d2_sq
      - 2 * D1_1 * D2_2_sq * g_sq - 2 * D1_1_sq * D2_2 * g_sq - 2 * D1_1 * D3_3_sq * g_sq - 2 * D1_1_sq * D3_3 * g_sq
      - 2 * D2_2 * D3_3_sq * g_sq - 2 * D2_2_sq * D3_3 * g_sq - 2 * D1_2 * d1 * d2 - 2 * D1_3 * d1 * d3 - 2 * D2_1 *
      d1 * d2 - 2 * D2_3 * d2 * d3 - 2 * D3_1 * d1 * d3 - 2 * D3_2 * d2 * d3 + 2 * D1_1 * D1_2 * D2_1 * g_sq + 2 *
      D1_1 * D1_3 * D3_1 * g_sq + 2 * D1_2 * D2_1 * D2_2 * g_sq - 8 * D1_1 * D2_2 * D3_3 * g_sq + 4 * D1_1 * D2_3 *
      D3_2 * g_sq + 4 * D1_2 * D2_1 * D3_3 * g_sq - 2 * D1_2 * D2_3 * D3_1 * g_sq - 2 * D1_3 * D2_1 * D3_2 * g_sq + 4
      * D1_3 * D2_2 * D3_1 * g_sq + 2 * D1_3 * D3_1 * D3_3 * g_sq + 2 * D2_2 * D2_3 * D3_2 * g_sq + 2 * D2_3 * D3_2 *
      D3_3 * g_sq) / g_sq) in
  let coeff4 :=
    ((D1_1_sq * D2_2_sq * g_sq + 4 * D1_1_sq * D2_2 * D3_3 * g_sq - 2 * D1_1_sq * D2_3 * D3_2 * g_sq + D1_1_sq *
      D3_3_sq * g_sq - D1_1_sq * d2_sq - D1_1_sq * d3_sq - 2 * D1_1 * D1_2 * D2_1 * D2_2 * g_sq - 4 * D1_1 * D1_2 *
      D2_1 * D3_3 * g_sq + 2 * D1_1 * D1_2 * D2_3 * D3_1 * g_sq + D1_1 * D1_2 * d1 * d2 + 2 * D1_1 * D1_3 * D2_1 *
      D3_2 * g_sq - 4 * D1_1 * D1_3 * D2_2 * D3_1 * g_sq - 2 * D1_1 * D1_3 * D3_1 * D3_3 * g_sq + D1_1 * D1_3 * d1 *
      d3 + D1_1 * D2_1 * d1 * d2 + 4 * D1_1 * D2_2_sq * D3_3 * g_sq - 4 * D1_1 * D2_2 * D2_3 * D3_2 * g_sq + 4 * D1_1
      * D2_2 * D3_3_sq * g_sq - 4 * D1_1 * D2_2 * d3_sq - 4 * D1_1 * D2_3 * D3_2 * D3_3 * g_sq + 4 * D1_1 * D2_3 * d2
      * d3 + D1_1 * D3_1 * d1 * d3 + 4 * D1_1 * D3_2 * d2 * d3 - 4 * D1_1 * D3_3 * d2_sq + D1_2_sq * D2_1_sq * g_sq +
      2 * D1_2 * D1_3 * D2_1 * D3_1 * g_sq - 4 * D1_2 * D2_1 * D2_2 * D3_3 * g_sq + 2 * D1_2 * D2_1 * D2_3 * D3_2 *
      g_sq - 2 * D1_2 * D2_1 * D3_3_sq * g_sq - D1_2 * D2_1 * d1_sq - D1_2 * D2_1 * d2_sq + 2 * D1_2 * D2_1 * d3_sq +
      2 * D1_2 * D2_2 * D2_3 * D3_1 * g_sq + D1_2 * D2_2 * d1 * d2 + 2 * D1_2 * D2_3 * D3_1 * D3_3 * g_sq - 3 * D1_2 *
      D2_3 * d1 * d3 - 3 * D1_2 * D3_1 * d2 * d3 + 4 * D1_2 * D3_3 * d1 * d2 + D1_3_sq * D3_1_sq * g_sq + 2 * D1_3 *
      D2_1 * D2_2 * D3_2 * g_sq + 2 * D1_3 * D2_1 * D3_2 * D3_3 * g_sq - 3 * D1_3 * D2_1 * d2 * d3 - 2 * D1_3 *
      D2_2_sq * D3_1 * g_sq - 4 * D1_3 * D2_2 * D3_1 * D3_3 * g_sq + 4 * D1_3 * D2_2 * d1 * d3 + 2 * D1_3 * D2_3 *
      D3_1 * D3_2 * g_sq - D1_3 * D3_1 * d1_sq + 2 * D1_3 * D3_1 * d2_sq - D1_3 * D3_1 * d3_sq - 3 * D1_3 * D3_2 * d1
      * d2 + D1_3 * D3_3 * d1 * d3 + D2_1 * D2_2 * d1 * d2 - 3 * D2_1 * D3_2 * d1 * d3 + 4 * D2_1 * D3_3 * d1 * d2 +
      D2_2_sq * D3_3_sq * g_sq - D2_2_sq * d1_sq - D2_2_sq * d3_sq - 2 * D2_2 * D2_3 * D3_2 * D3_3 * g_sq + D2_2 *
      D2_3 * d2 * d3 + 4 * D2_2 * D3_1 * d1 * d3 + D2_2 * D3_2 * d2 * d3 - 4 * D2_2 * D3_3 * d1_sq + D2_3_sq * D3_2_sq
      * g_sq - 3 * D2_3 * D3_1 * d1 * d2 + 2 * D2_3 * D3_2 * d1_sq - D2_3 * D3_2 * d2_sq - D2_3 * D3_2 * d3_sq + D2_3
      * D3_3 * d2 * d3 + D3_1 * D3_3 * d1 * d3 + D3_2 * D3_3 * d2 * d3 - D3_3_sq * d1_sq - D3_3_sq * d2_sq) / g_sq) in
  let coeff5 :=
    (-(2 * D1_1_sq * D2_2_sq * D3_3 * g_sq - 2 * D1_1_sq * D2_2 * D2_3 * D3_2 * g_sq + 2 * D1_1_sq * D2_2 * D3_3_sq *
      g_sq - 2 * D1_1_sq * D2_2 * d3_sq - 2 * D1_1_sq * D2_3 * D3_2 * D3_3 * g_sq + 2 * D1_1_sq * D2_3 * d2 * d3 + 2 *
      D1_1_sq * D3_2 * d2 * d3 - 2 * D1_1_sq * D3_3 * d2_sq - 4 * D1_1 * D1_2 * D2_1 * D2_2 * D3_3 * g_sq + 2 * D1_1 *
      D1_2 * D2_1 * D2_3 * D3_2 * g_sq - 2 * D1_1 * D1_2 * D2_1 * D3_3_sq * g_sq + 2 * D1_1 * D1_2 * D2_1 * d3_sq + 2
      * D1_1 * D1_2 * D2_2 * D2_3 * D3_1 * g_sq + 2 * D1_1 * D1_2 * D2_3 * D3_1 * D3_3 * g_sq - 2 * D1_1 * D1_2 * D2_3
      * d1 * d3 - 2 * D1_1 * D1_2 * D3_1 * d2 * d3 + 2 * D1_1 * D1_2 * D3_3 * d1 * d2 + 2 * D1_1 * D1_3 * D2_1 * D2_2
      * D3_2 * g_sq + 2 * D1_1 * D1_3 * D2_1 * D3_2 * D3_3 * g_sq - 2 * D1_1 * D1_3 * D2_1 * d2 * d3 - 2 * D1_1 * D1_3
      * D2_2_sq * D3_1 * g_sq - 4 * D1_1 * D1_3 * D2_2 * D3_1 * D3_3 * g_sq + 2 * D1_1 * D1_3 * D2_2 * d1 * d3 + 2 *
      D1_1 * D1_3 * D2_3 * D3_1 * D3_2 * g_sq + 2 * D1_1 * D1_3 * D3_1 * d2_sq - 2 * D1_1 * D1_3 * D3_2 * d1 * d2 - 2
      * D1_1 * D2_1 * D3_2 * d1 * d3 + 2 * D1_1 * D2_1 * D3_3 * d1 * d2 + 2 * D1_1 * D2_2_sq * D3_3_sq * g_sq - 2 *
      D1_1 * D2_2_sq * d3_sq - 4 * D1_1 * D2_2 * D2_3 * D3_2 * D3_3 * g_sq + 2 * D1_1 * D2_2 * D2_3 * d2 * d3 + 2 *
      D1_1 * D2_2 * D3_1 * d1 * d3 + 2 * D1_1 * D2_2 * D3_2 * d2 * d3 + 2 * D1_1 * D2_3_sq * D3_2_sq * g_sq - 2 * D1_1
      * D2_3 * D3_1 * d1 * d2 - 2 * D1_1 * D2_3 * D3_2 * d2_sq - 2 * D1_1 * D2_3 * D3_2 * d3_sq + 2 * D1_1 * D2_3 *
      D3_3 * d2 * d3 + 2 * D1_1 * D3_2 * D3_3 * d2 * d3 - 2 * D1_1 * D3_3_sq * d2_sq + 2 * D1_2_sq * D2_1_sq * D3_3 *
      g_sq - 2 * D1_2_sq * D2_1 * D2_3 * D3_1 * g_sq - 2 * D1_2 * D1_3 * D2_1_sq * D3_2 * g_sq + 2 * D1_2 * D1_3 *
      D2_1 * D2_2 * D3_1 * g_sq + 2 * D1_2 * D1_3 * D2_1 * D3_1 * D3_3 * g_sq - 2 * D1_2 * D1_3 * D2_3 * D3_1_sq *
      g_sq - 2 * D1_2 * D2_1 * D2_2 * D3_3_sq * g_sq + 2 * D1_2 * D2_1 * D2_2 * d3_sq + 2 * D1_2 * D2_1 * D2_3 * D3_2
      * D3_3 * g_sq - 2 * D1_2 * D2_1 * D3_3 * d1_sq - 2 * D1_2 * D2_1 * D3_3 * d2_sq + 2 * D1_2 * D2_2 * D2_3 * D3_1
      * D3_3 * g_sq - 2 * D1_2 * D2_2 * D2_3 * d1 * d3 - 2 * D1_2 * D2_2 * D3_1 * d2 * d3 + 2 * D1_2 * D2_2 * D3_3 *
      d1 * d2 - 2 * D1_2 * D2_3_sq * D3_1 * D3_2 * g_sq + 2 * D1_2 * D2_3 * D3_1 * d1_sq + 2 * D1_2 * D2_3 * D3_1 *
      d2_sq + 2 * D1_2 * D2_3 * D3_1 * d3_sq - 2 * D1_2 * D2_3 * D3_3 * d1 * d3 - 2 * D1_2 * D3_1 * D3_3 * d2 * d3 + 2
      * D1_2 * D3_3_sq * d1 * d2 - 2 * D1_3_sq * D2_1 * D3_1 * D3_2 * g_sq + 2 * D1_3_sq * D2_2 * D3_1_sq * g_sq + 2 *
      D1_3 * D2_1 * D2_2 * D3_2 * D3_3 * g_sq - 2 * D1_3 * D2_1 * D2_2 * d2 * d3 - 2 * D1_3 * D2_1 * D2_3 * D3_2_sq *
      g_sq + 2 * D1_3 * D2_1 * D3_2 * d1_sq + 2 * D1_3 * D2_1 * D3_2 * d2_sq + 2 * D1_3 * D2_1 * D3_2 * d3_sq - 2 *
      D1_3 * D2_1 * D3_3 * d2 * d3 - 2 * D1_3 * D2_2_sq * D3_1 * D3_3 * g_sq + 2 * D1_3 * D2_2_sq * d1 * d3 + 2 * D1_3
      * D2_2 * D2_3 * D3_1 * D3_2 * g_sq - 2 * D1_3 * D2_2 * D3_1 * d1_sq - 2 * D1_3 * D2_2 * D3_1 * d3_sq - 2 * D1_3
      * D2_2 * D3_2 * d1 * d2 + 2 * D1_3 * D2_2 * D3_3 * d1 * d3 + 2 * D1_3 * D3_1 * D3_3 * d2_sq - 2 * D1_3 * D3_2 *
      D3_3 * d1 * d2 - 2 * D2_1 * D2_2 * D3_2 * d1 * d3 + 2 * D2_1 * D2_2 * D3_3 * d1 * d2 - 2 * D2_1 * D3_2 * D3_3 *
      d1 * d3 + 2 * D2_1 * D3_3_sq * d1 * d2 + 2 * D2_2_sq * D3_1 * d1 * d3 - 2 * D2_2_sq * D3_3 * d1_sq - 2 * D2_2 *
      D2_3 * D3_1 * d1 * d2 + 2 * D2_2 * D2_3 * D3_2 * d1_sq + 2 * D2_2 * D3_1 * D3_3 * d1 * d3 - 2 * D2_2 * D3_3_sq *
      d1_sq - 2 * D2_3 * D3_1 * D3_3 * d1 * d2 + 2 * D2_3 * D3_2 * D3_3 * d1_sq) / g_sq) in
  let coeff6 :=
    -(-D1_1_sq * D2_2_sq * D3_3_sq * g_sq + D1_1_sq * D2_2_sq * d3_sq + 2 * D1_1_sq * D2_2 * D2_3 * D3_2 * D3_3 * g_sq
      - D1_1_sq * D2_2 * D2_3 * d2 * d3 - D1_1_sq * D2_2 * D3_2 * d2 * d3 - D1_1_sq * D2_3_sq * D3_2_sq * g_sq +
      D1_1_sq * D2_3 * D3_2 * d2_sq + D1_1_sq * D2_3 * D3_2 * d3_sq - D1_1_sq * D2_3 * D3_3 * d2 * d3 - D1_1_sq * D3_2
      * D3_3 * d2 * d3 + D1_1_sq * D3_3_sq * d2_sq + 2 * D1_1 * D1_2 * D2_1 * D2_2 * D3_3_sq * g_sq - 2 * D1_1 * D1_2
      * D2_1 * D2_2 * d3_sq - 2 * D1_1 * D1_2 * D2_1 * D2_3 * D3_2 * D3_3 * g_sq + D1_1 * D1_2 * D2_1 * D2_3 * d2 * d3
      + D1_1 * D1_2 * D2_1 * D3_2 * d2 * d3 - 2 * D1_1 * D1_2 * D2_2 * D2_3 * D3_1 * D3_3 * g_sq + D1_1 * D1_2 * D2_2
      * D2_3 * d1 * d3 + D1_1 * D1_2 * D2_2 * D3_1 * d2 * d3 + 2 * D1_1 * D1_2 * D2_3_sq * D3_1 * D3_2 * g_sq - D1_1 *
      D1_2 * D2_3 * D3_1 * d2_sq - D1_1 * D1_2 * D2_3 * D3_1 * d3_sq - D1_1 * D1_2 * D2_3 * D3_2 * d1 * d2 + D1_1 *
      D1_2 * D2_3 * D3_3 * d1 * d3 + D1_1 * D1_2 * D3_1 * D3_3 * d2 * d3 - D1_1 * D1_2 * D3_3_sq * d1 * d2 - 2 * D1_1
      * D1_3 * D2_1 * D2_2 * D3_2 * D3_3 * g_sq + D1_1 * D1_3 * D2_1 * D2_2 * d2 * d3 + 2 * D1_1 * D1_3 * D2_1 * D2_3
      * D3_2_sq * g_sq - D1_1 * D1_3 * D2_1 * D3_2 * d2_sq - D1_1 * D1_3 * D2_1 * D3_2 * d3_sq + D1_1 * D1_3 * D2_1 *
      D3_3 * d2 * d3 + 2 * D1_1 * D1_3 * D2_2_sq * D3_1 * D3_3 * g_sq - D1_1 * D1_3 * D2_2_sq * d1 * d3 - 2 * D1_1 *
      D1_3 * D2_2 * D2_3 * D3_1 * D3_2 * g_sq + D1_1 * D1_3 * D2_2 * D3_2 * d1 * d2 + D1_1 * D1_3 * D2_3 * D3_1 * d2 *
      d3 - D1_1 * D1_3 * D2_3 * D3_2 * d1 * d3 + D1_1 * D1_3 * D3_1 * D3_2 * d2 * d3 - 2 * D1_1 * D1_3 * D3_1 * D3_3 *
      d2_sq + D1_1 * D1_3 * D3_2 * D3_3 * d1 * d2 + D1_1 * D2_1 * D2_2 * D3_2 * d1 * d3 - D1_1 * D2_1 * D2_3 * D3_2 *
      d1 * d2 + D1_1 * D2_1 * D3_2 * D3_3 * d1 * d3 - D1_1 * D2_1 * D3_3_sq * d1 * d2 - D1_1 * D2_2_sq * D3_1 * d1 *
      d3 + D1_1 * D2_2 * D2_3 * D3_1 * d1 * d2 - D1_1 * D2_3 * D3_1 * D3_2 * d1 * d3 + D1_1 * D2_3 * D3_1 * D3_3 * d1
      * d2 - D1_2_sq * D2_1_sq * D3_3_sq * g_sq + D1_2_sq * D2_1_sq * d3_sq + 2 * D1_2_sq * D2_1 * D2_3 * D3_1 * D3_3
      * g_sq - D1_2_sq * D2_1 * D2_3 * d1 * d3 - D1_2_sq * D2_1 * D3_1 * d2 * d3 - D1_2_sq * D2_3_sq * D3_1_sq * g_sq
      + D1_2_sq * D2_3 * D3_1 * d1 * d2 + 2 * D1_2 * D1_3 * D2_1_sq * D3_2 * D3_3 * g_sq - D1_2 * D1_3 * D2_1_sq * d2
      * d3 - 2 * D1_2 * D1_3 * D2_1 * D2_2 * D3_1 * D3_3 * g_sq + D1_2 * D1_3 * D2_1 * D2_2 * d1 * d3 - 2 * D1_2 *
      D1_3 * D2_1 * D2_3 * D3_1 * D3_2 * g_sq + D1_2 * D1_3 * D2_1 * D3_1 * d2_sq + D1_2 * D1_3 * D2_1 * D3_1 * d3_sq
      - D1_2 * D1_3 * D2_1 * D3_3 * d1 * d3 + 2 * D1_2 * D1_3 * D2_2 * D2_3 * D3_1_sq * g_sq - D1_2 * D1_3 * D2_2 *
      D3_1 * d1 * d2 - D1_2 * D1_3 * D3_1_sq * d2 * d3 + D1_2 * D1_3 * D3_1 * D3_3 * d1 * d2 - D1_2 * D2_1_sq * D3_2 *
      d1 * d3 + D1_2 * D2_1 * D2_2 * D3_1 * d1 * d3 + D1_2 * D2_1 * D2_3 * D3_2 * d1_sq + D1_2 * D2_1 * D2_3 * D3_2 *
      d3_sq - D1_2 * D2_1 * D2_3 * D3_3 * d2 * d3 - D1_2 * D2_1 * D3_1 * D3_3 * d1 * d3 - D1_2 * D2_1 * D3_2 * D3_3 *
      d2 * d3 + D1_2 * D2_1 * D3_3_sq * d1_sq + D1_2 * D2_1 * D3_3_sq * d2_sq - D1_2 * D2_2 * D2_3 * D3_1 * d1_sq -
      D1_2 * D2_2 * D2_3 * D3_1 * d3_sq + D1_2 * D2_2 * D2_3 * D3_3 * d1 * d3 + D1_2 * D2_2 * D3_1 * D3_3 * d2 * d3 -
      D1_2 * D2_2 * D3_3_sq * d1 * d2 + D1_2 * D2_3_sq * D3_1 * d2 * d3 - D1_2 * D2_3_sq * D3_2 * d1 * d3 + D1_2 *
      D2_3 * D3_1_sq * d1 * d3 - D1_2 * D2_3 * D3_1 * D3_3 * d1_sq - D1_2 * D2_3 * D3_1 * D3_3 * d2_sq + D1_2 * D2_3 *
      D3_2 * D3_3 * d1 * d2 - D1_3_sq * D2_1_sq * D3_2_sq * g_sq + 2 * D1_3_sq * D2_1 * D2_2 * D3_1 * D3_2 * g_sq -
      D1_3_sq * D2_1 * D3_1 * d2 * d3 + D1_3_sq * D2_1 * D3_2 * d1 * d3 - D1_3_sq * D2_2_sq * D3_1_sq * g_sq + D1_3_sq
      * D3_1_sq * d2_sq - D1_3_sq * D3_1 * D3_2 * d1 * d2 + D1_3 * D2_1_sq * D3_2 * d1 * d2 - D1_3 * D2_1 * D2_2 *
      D3_1 * d1 * d2 - D1_3 * D2_1 * D2_2 * D3_2 * d1_sq - D1_3 * D2_1 * D2_2 * D3_2 * d3_sq + D1_3 * D2_1 * D2_2 *
      D3_3 * d2 * d3 + D1_3 * D2_1 * D3_1 * D3_3 * d1 * d2 + D1_3 * D2_1 * D3_2_sq * d2 * d3 - D1_3 * D2_1 * D3_2 *
      D3_3 * d1_sq - D1_3 * D2_1 * D3_2 * D3_3 * d2_sq + D1_3 * D2_2_sq * D3_1 * d1_sq + D1_3 * D2_2_sq * D3_1 * d3_sq
      - D1_3 * D2_2_sq * D3_3 * d1 * d3 - D1_3 * D2_2 * D2_3 * D3_1 * d2 * d3 + D1_3 * D2_2 * D2_3 * D3_2 * d1 * d3 -
      D1_3 * D2_2 * D3_1 * D3_2 * d2 * d3 + D1_3 * D2_2 * D3_2 * D3_3 * d1 * d2 - D1_3 * D2_3 * D3_1_sq * d1 * d2 +
      D1_3 * D2_3 * D3_1 * D3_2 * d1_sq + D1_3 * D2_3 * D3_1 * D3_2 * d2_sq - D1_3 * D2_3 * D3_2_sq * d1 * d2 + D2_1 *
      D2_2 * D3_2 * D3_3 * d1 * d3 - D2_1 * D2_2 * D3_3_sq * d1 * d2 - D2_1 * D2_3 * D3_2_sq * d1 * d3 + D2_1 * D2_3 *
      D3_2 * D3_3 * d1 * d2 - D2_2_sq * D3_1 * D3_3 * d1 * d3 + D2_2_sq * D3_3_sq * d1_sq + D2_2 * D2_3 * D3_1 * D3_2
      * d1 * d3 + D2_2 * D2_3 * D3_1 * D3_3 * d1 * d2 - 2 * D2_2 * D2_3 * D3_2 * D3_3 * d1_sq - D2_3_sq * D3_1 * D3_2
      * d1 * d2 + D2_3_sq * D3_2_sq * d1_sq) / g_sq in
  [coeff0; coeff1; coeff2; coeff3; coeff4; coeff5; coeff6].
(** DynamicInitializer.cpp 404-409: ones below the diagonal, last column the negated coefficients from
    the constant upwards *)
Definition companion (c : list R) : mat := fun i j =>
  if Nat.eqb j 5 then - nth (6 - i) c 0 else if Nat.eqb i (S j) then 1 else 0.
