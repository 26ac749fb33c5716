(** Model of the two camera models: ov_core/src/cam/CamRadtan.h and ov_core/src/cam/CamEqui.h.

    Simplifications: doubles and floats are exact reals (the casts to float of CamBase.h 124-129 and the
    conversions of distort_f are identities); camera_values is a vector of 8 entries.  undistort_f calls
    OpenCV and is not modelled.  Vectors and matrices are functions of their indices (Lin.v). *)
From Coq Require Import Reals List.
From Verif Require Import RBool Lin.
Open Scope R_scope.

(** 2 x 1 and 2 x 2 literals [helper for the Jacobians of CamRadtan.h 154-198 and CamEqui.h 166-230] *)
Definition vec2 (a b : R) : vec := fun i => match i with O => a | _ => b end.
(** helper for the Jacobians of CamRadtan.h 154-198 and CamEqui.h 166-230 *)
Definition mat22 (a b c d : R) : mat := fun i j =>
  match i, j with O, O => a | O, _ => b | _, O => c | _, _ => d end.
(** 2 x 8 literal: its two rows [helper for the Jacobians of CamRadtan.h 154-198 and CamEqui.h 166-230] *)
Definition row8 (a0 a1 a2 a3 a4 a5 a6 a7 : R) : vec := fun j =>
  match j with 0 => a0 | 1 => a1 | 2 => a2 | 3 => a3 | 4 => a4 | 5 => a5 | 6 => a6 | _ => a7 end%nat.
(** helper for the Jacobians of CamRadtan.h 154-198 and CamEqui.h 166-230 *)
Definition mat2 (r0 r1 : vec) : mat := fun i j => match i with O => r0 j | _ => r1 j end.

(** *** CamRadtan.h 127-147 distort_f *)
Definition rt_distort (d : vec) (z : vec) : vec :=
  let r := sqrt (z 0%nat * z 0%nat + z 1%nat * z 1%nat) in
  let r2 := r * r in
  let r4 := r2 * r2 in
  let x1 := z 0%nat * (1 + d 4%nat * r2 + d 5%nat * r4) + 2 * d 6%nat * z 0%nat * z 1%nat + d 7%nat * (r2 + 2 * z 0%nat * z 0%nat) in
  let y1 := z 1%nat * (1 + d 4%nat * r2 + d 5%nat * r4) + d 6%nat * (r2 + 2 * z 1%nat * z 1%nat) + 2 * d 7%nat * z 0%nat * z 1%nat in
  vec2 (d 0%nat * x1 + d 2%nat) (d 1%nat * y1 + d 3%nat).

(** CamRadtan.h 155-176: H_dz_dzn *)
Definition rt_dzn (d : vec) (z : vec) : mat :=
  let r := sqrt (z 0%nat * z 0%nat + z 1%nat * z 1%nat) in
  let r2 := r * r in
  let r4 := r2 * r2 in
  let x := z 0%nat in
  let y := z 1%nat in
  let x2 := z 0%nat * z 0%nat in
  let y2 := z 1%nat * z 1%nat in
  let xy := z 0%nat * z 1%nat in
  mat22
    (d 0%nat * ((1 + d 4%nat * r2 + d 5%nat * r4) + (2 * d 4%nat * x2 + 4 * d 5%nat * x2 * r2) + 2 * d 6%nat * y + (2 * d 7%nat * x + 4 * d 7%nat * x)))
    (d 0%nat * (2 * d 4%nat * xy + 4 * d 5%nat * xy * r2 + 2 * d 6%nat * x + 2 * d 7%nat * y))
    (d 1%nat * (2 * d 4%nat * xy + 4 * d 5%nat * xy * r2 + 2 * d 6%nat * x + 2 * d 7%nat * y))
    (d 1%nat * ((1 + d 4%nat * r2 + d 5%nat * r4) + (2 * d 4%nat * y2 + 4 * d 5%nat * y2 * r2) + 2 * d 7%nat * x + (2 * d 6%nat * y + 4 * d 6%nat * y))).

(** CamRadtan.h 178-198: H_dz_dzeta *)
Definition rt_dzeta (d : vec) (z : vec) : mat :=
  let r := sqrt (z 0%nat * z 0%nat + z 1%nat * z 1%nat) in
  let r2 := r * r in
  let r4 := r2 * r2 in
  let x1 := z 0%nat * (1 + d 4%nat * r2 + d 5%nat * r4) + 2 * d 6%nat * z 0%nat * z 1%nat + d 7%nat * (r2 + 2 * z 0%nat * z 0%nat) in
  let y1 := z 1%nat * (1 + d 4%nat * r2 + d 5%nat * r4) + d 6%nat * (r2 + 2 * z 1%nat * z 1%nat) + 2 * d 7%nat * z 0%nat * z 1%nat in
  mat2
    (row8 x1 0 1 0 (d 0%nat * z 0%nat * r2) (d 0%nat * z 0%nat * r4) (2 * d 0%nat * z 0%nat * z 1%nat) (d 0%nat * (r2 + 2 * z 0%nat * z 0%nat)))
    (row8 0 y1 0 1 (d 1%nat * z 1%nat * r2) (d 1%nat * z 1%nat * r4) (d 1%nat * (r2 + 2 * z 1%nat * z 1%nat)) (2 * d 1%nat * z 0%nat * z 1%nat)).

(** *** CamEqui.h 136-160 distort_f *)
Definition eq_thd (d : vec) (th : R) : R := th + d 4%nat * th ^ 3 + d 5%nat * th ^ 5 + d 6%nat * th ^ 7 + d 7%nat * th ^ 9.
(** CamEqui.h 136-160 (as above) *)
Definition eq_invr (r : R) : R := if Rltb (1 / 100000000) r then 1 / r else 1.
(** CamEqui.h 136-160 (as above) *)
Definition eq_cdist (r thd : R) : R := if Rltb (1 / 100000000) r then thd * eq_invr r else 1.
(** CamEqui.h 136-160 (as above) *)
Definition eq_distort (d : vec) (z : vec) : vec :=
  let r := sqrt (z 0%nat * z 0%nat + z 1%nat * z 1%nat) in
  let th := atan r in
  let thd := eq_thd d th in
  let c := eq_cdist r thd in
  let x1 := z 0%nat * c in
  let y1 := z 1%nat * c in
  vec2 (d 0%nat * x1 + d 2%nat) (d 1%nat * y1 + d 3%nat).

(** CamEqui.h 172-213: H_dz_dzn = duv_dxy (dxy_dxyn + (dxy_dr + dxy_dthd dthd_dth dth_dr) dr_dxyn) *)
Definition eq_dzn (d : vec) (z : vec) : mat :=
  let r := sqrt (z 0%nat * z 0%nat + z 1%nat * z 1%nat) in
  let th := atan r in
  let thd := eq_thd d th in
  let ir := eq_invr r in
  let duv_dxy := mat22 (d 0%nat) 0 0 (d 1%nat) in
  let dxy_dxyn := mat22 (thd * ir) 0 0 (thd * ir) in
  let dxy_dr := vec2 (- z 0%nat * thd * ir * ir) (- z 1%nat * thd * ir * ir) in
  let dr_dxyn := vec2 (z 0%nat * ir) (z 1%nat * ir) in
  let dxy_dthd := vec2 (z 0%nat * ir) (z 1%nat * ir) in
  let dthd_dth := 1 + 3 * d 4%nat * th ^ 2 + 5 * d 5%nat * th ^ 4 + 7 * d 6%nat * th ^ 6 + 9 * d 7%nat * th ^ 8 in
  let dth_dr := 1 / (r * r + 1) in
  mmul 2 duv_dxy (madd dxy_dxyn (fun i j => (dxy_dr i + dxy_dthd i * dthd_dth * dth_dr) * dr_dxyn j)).

(** CamEqui.h 215-232: H_dz_dzeta *)
Definition eq_dzeta (d : vec) (z : vec) : mat :=
  let r := sqrt (z 0%nat * z 0%nat + z 1%nat * z 1%nat) in
  let th := atan r in
  let thd := eq_thd d th in
  let ir := eq_invr r in
  let c := eq_cdist r thd in
  let x1 := z 0%nat * c in
  let y1 := z 1%nat * c in
  mat2
    (row8 x1 0 1 0 (d 0%nat * z 0%nat * ir * th ^ 3) (d 0%nat * z 0%nat * ir * th ^ 5) (d 0%nat * z 0%nat * ir * th ^ 7) (d 0%nat * z 0%nat * ir * th ^ 9))
    (row8 0 y1 0 1 (d 1%nat * z 1%nat * ir * th ^ 3) (d 1%nat * z 1%nat * ir * th ^ 5) (d 1%nat * z 1%nat * ir * th ^ 7) (d 1%nat * z 1%nat * ir * th ^ 9)).

(** CamBase virtual dispatch: the two subclasses [CamBase.h 123] *)
Inductive camera := CRadtan | CEqui.
(** CamBase.h 123 *)
Definition cam_distort (c : camera) := match c with CRadtan => rt_distort | CEqui => eq_distort end.
(** CamBase.h 158 *)
Definition cam_dzn (c : camera) := match c with CRadtan => rt_dzn | CEqui => eq_dzn end.
(** CamBase.h 158 *)
Definition cam_dzeta (c : camera) := match c with CRadtan => rt_dzeta | CEqui => eq_dzeta end.
