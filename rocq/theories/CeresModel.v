(** Model of the Ceres local parametrization and cost functions of the dynamic initializer: ov_init/src/ceres.

    Simplifications: doubles are exact reals; a parameter block is a value of its type instead of an array; the
    pointers that ask for Jacobians are all set ([jacobians] and its entries non-null); Eigen's LLT, solve and
    triangular solve are arguments.  3 x 3 inverse() is the cofactor formula, with [/ 0] for a singular matrix. *)
From Coq Require Import Reals List Bool Arith.
From Verif Require Import RBool Outcome GeoModel Lin StateModel PropModel CamModel HelpModel CpiModel.
Import ListNotations.
Open Scope R_scope.

(** ** State_JPLQuatLocal.cpp *)
(** State_JPLQuatLocal.cpp 28-49 Plus *)
Definition jpl_delta (d : v3) : q4 :=
  let theta := v3norm d in
  quatnorm (if Rltb theta (1 / 10 ^ 8) then Q4 (5 / 10 * vx d) (5 / 10 * vy d) (5 / 10 * vz d) 1
            else let u := v3scal (sin (theta / 2)) (v3div d theta) in Q4 (vx u) (vy u) (vz u) (cos (theta / 2))).
(** State_JPLQuatLocal.cpp 28-49 (as above) *)
Definition jpl_plus (q : q4) (d : v3) : q4 := quat_multiply (jpl_delta d) q.
(** State_JPLQuatLocal.cpp 52-57 PlusJacobian, 91-96 ComputeJacobian: 4 x 3 *)
Definition jpl_jac : mat := fun i j => if ((i <? 3)%nat && Nat.eqb i j)%bool then 1 else 0.
(** State_JPLQuatLocal.cpp 59-79 Minus and 81-87 MinusJacobian, 3 x 4 (Ceres 2.2 and later) *)
Definition jpl_minus_jac : mat := fun i j => if ((j <? 3)%nat && Nat.eqb i j)%bool then 1 else 0.
(** State_JPLQuatLocal.cpp 59-79 (as above) *)
Definition jpl_minus (y x : q4) : v3 :=
  let r := quat_multiply y (quat_inv x) in
  let n := v3norm (qvec r) in
  if Rltb n (1 / 10 ^ 8) then v3zero else v3scal (2 * atan2 n (qw r)) (v3div (qvec r) n).

(** ** Factor_ImageReprojCalib.cpp *)
(** the six parameter blocks (Factor_ImageReprojCalib.cpp 38-43, 48-58): q_GtoIi, p_IiinG, p_FinG, q_ItoC, p_IinC, intrinsics *)
Record ipar := mkIP { ip_q : q4; ip_p : v3; ip_f : v3; ip_qc : q4; ip_pc : v3; ip_k : vec }.
(** members uv_meas, pix_sigma, is_fisheye (as the camera model) and gate [Factor_ImageReprojCalib.h 43-55] *)
Record ifac := mkIF { im_uv : vec; im_sigma : R; im_cam : camera; im_gate : R }.
(** Factor_ImageReprojCalib.cpp 32-34 and 69: sqrtQ_gate *)
Definition img_sqrtQ (f : ifac) : mat := fun i j => if Nat.eqb i j then im_gate f * (1 * (1 / im_sigma f)) else 0.
(** Factor_ImageReprojCalib.cpp 60-103: the residual; CamRadtan and CamEqui with the block of intrinsics as their values (75-93) *)
Definition img_zn (p : v3) : vec := vec2 (vx p / vz p) (vy p / vz p).
(** Factor_ImageReprojCalib.cpp 109-110 *)
Definition img_dzn (p : v3) : mat :=
  mat2 (v3vec (V3 (1 / vz p) 0 (- vx p / vz p ^ 2))) (v3vec (V3 0 (1 / vz p) (- vy p / vz p ^ 2))).
(** Factor_ImageReprojCalib.cpp 60-62 *)
Definition img_pI (x : ipar) : v3 := m3v (quat_2_Rot (ip_q x)) (v3sub (ip_f x) (ip_p x)).
(** Factor_ImageReprojCalib.cpp 60-62 *)
Definition img_pC (x : ipar) : v3 := v3add (m3v (quat_2_Rot (ip_qc x)) (img_pI x)) (ip_pc x).
(** Factor_ImageReprojCalib.cpp 60-103 *)
Definition img_res (f : ifac) (x : ipar) : vec :=
  mvec 2 (img_sqrtQ f) (fun i => cam_distort (im_cam f) (ip_k x) (img_zn (img_pC x)) i - im_uv f i).
(** Factor_ImageReprojCalib.cpp 80-91 and 105-150: the six Jacobians as they are stored: 2x4, 2x3, 2x3, 2x4, 2x3, 2x8 *)
Record ijac := mkIJ { ij_q : mat; ij_p : mat; ij_f : mat; ij_qc : mat; ij_pc : mat; ij_k : mat }.
(** Factor_ImageReprojCalib.cpp 80-91 and 105-150 (as above) *)
Definition pad4 (A : mat) : mat := fun i j => if (j <? 3)%nat then A i j else 0.
(** Factor_ImageReprojCalib.cpp 80-91 and 105-150 (as above) *)
Definition img_jac (f : ifac) (x : ipar) : ijac :=
  let pI := img_pI x in let pC := img_pC x in let z := img_zn pC in
  let Ri := quat_2_Rot (ip_q x) in let Rc := quat_2_Rot (ip_qc x) in
  let H_dz_dzn := mmul 2 (img_sqrtQ f) (cam_dzn (im_cam f) (ip_k x) z) in
  let H_dz_dzeta := mmul 2 (img_sqrtQ f) (cam_dzeta (im_cam f) (ip_k x) z) in
  let H := mmul 2 H_dz_dzn (img_dzn pC) in
  mkIJ (pad4 (mmul 3 (mmul 3 H (m3mat Rc)) (m3mat (skew_x pI))))
       (mmul 3 (mmul 3 (mscal (-1) H) (m3mat Rc)) (m3mat Ri))
       (mmul 3 (mmul 3 H (m3mat Rc)) (m3mat Ri))
       (pad4 (mmul 3 H (m3mat (skew_x (m3v Rc pI)))))
       H H_dz_dzeta.

(** ** Factor_ImuCPIv1.cpp *)
(** Factor_ImuCPIv1.cpp 32-48: the saved members; [cf_S] is sqrtI_save *)
Record cfac := mkCF { cf_dt : R; cf_g : v3; cf_al : v3; cf_be : v3; cf_q : q4; cf_ba : v3; cf_bg : v3;
  cf_Jq : m3; cf_Jb : m3; cf_Ja : m3; cf_Hb : m3; cf_Ha : m3; cf_S : mat }.
(** Factor_ImuCPIv1.cpp 50-61: [solve] is llt().solve(I) and [llt] is LLT::matrixL; None where isnan finds NaN.  (Eigen's LLT leaves
    unspecified values, possibly not NaN, for a matrix that is not positive definite.) *)
Definition imu_sqrtI (solve : mat -> option mat) (llt : mat -> mat) (cov : mat) : outcome mat :=
  match solve cov with None => Exit | Some info => Ok (mtr (llt info)) end.
(** Factor_ImuCPIv1.cpp 26-61, called from DynamicInitializer.cpp 744-745; a preintegration that was never fed has an uninitialized q_k2tau (UB) *)
Definition imu_factor (solve : mat -> option mat) (llt : mat -> mat) (g : v3) (c : cpi) : outcome cfac :=
  match cp_q c with
  | None => UB
  | Some q => do S <- imu_sqrtI solve llt (cp_P c);
              Ok (mkCF (cp_DT c) g (cp_al c) (cp_be c) q (cp_ba c) (cp_bw c) (cp_Jq c) (cp_Jb c) (cp_Ja c) (cp_Hb c) (cp_Ha c) S)
  end.
(** one clone: q, bg, v, ba, p (Factor_ImuCPIv1.cpp 65-74) *)
Record clone := mkCl { cl_q : q4; cl_bg : v3; cl_v : v3; cl_ba : v3; cl_p : v3 }.
(** Factor_ImuCPIv1.cpp 65-74 (as above) *)
Definition q4divn (q : q4) : q4 := q4div q (q4norm q).
(** Factor_ImuCPIv1.cpp 107-123 *)
Definition imu_qb (f : cfac) (x : clone) : q4 :=
  let h := m3v (m3scal (5 / 10) (cf_Jq f)) (v3sub (cl_bg x) (cf_bg f)) in q4divn (Q4 (vx h) (vy h) (vz h) 1).
(** Factor_ImuCPIv1.cpp 107-123 (as above) *)
Definition imu_q12 (x y : clone) : q4 := quat_multiply (cl_q y) (quat_inv (cl_q x)).
(** Factor_ImuCPIv1.cpp 107-123 (as above) *)
Definition imu_qm (f : cfac) (x y : clone) : q4 := quat_multiply (imu_q12 x y) (quat_inv (cf_q f)).
(** Factor_ImuCPIv1.cpp 107-123 (as above) *)
Definition imu_qp (f : cfac) (x y : clone) : q4 := quat_multiply (imu_qm f x y) (imu_qb f x).
(** five 3-vectors one below the other [Factor_ImuCPIv1.cpp 130-136] *)
Definition stack5 (a b c d e : v3) : vec := fun i => v3vec (nth (i / 3) [a; b; c; d; e] v3zero) (i mod 3).
(** the two vectors of Factor_ImuCPIv1.cpp 133 and 135 *)
Definition imu_dv (f : cfac) (x y : clone) : v3 := v3add (v3sub (cl_v y) (cl_v x)) (v3scal (cf_dt f) (cf_g f)).
(** Factor_ImuCPIv1.cpp 133 and 135 (as above) *)
Definition imu_dp (f : cfac) (x y : clone) : v3 :=
  v3add (v3sub (v3sub (cl_p y) (cl_p x)) (v3scal (cf_dt f) (cl_v x))) (v3scal (cf_dt f ^ 2) (v3scal (5 / 10) (cf_g f))).
(** Factor_ImuCPIv1.cpp 130-136 *)
Definition imu_raw (f : cfac) (x y : clone) : vec :=
  let dbw := v3sub (cl_bg x) (cf_bg f) in let dba := v3sub (cl_ba x) (cf_ba f) in
  let R1 := quat_2_Rot (cl_q x) in
  stack5 (v3scal 2 (qvec (imu_qp f x y)))
         (v3sub (cl_bg y) (cl_bg x))
         (v3sub (v3sub (v3sub (m3v R1 (imu_dv f x y)) (m3v (cf_Jb f) dbw)) (m3v (cf_Hb f) dba)) (cf_be f))
         (v3sub (cl_ba y) (cl_ba x))
         (v3sub (v3sub (v3sub (m3v R1 (imu_dp f x y)) (m3v (cf_Ja f) dbw)) (m3v (cf_Ha f) dba)) (cf_al f)).
(** Factor_ImuCPIv1.cpp 130-136 (as above) *)
Definition imu_res (f : cfac) (x y : clone) : vec := mvec 15 (cf_S f) (imu_raw f x y).
(** Factor_ImuCPIv1.cpp 150-207: the 15 x 30 matrix before and after the square root information *)
Definition imu_raw_jac (f : cfac) (x y : clone) : mat :=
  let R1 := quat_2_Rot (cl_q x) in
  let q12 := imu_q12 x y in let qm := imu_qm f x y in let qp := imu_qp f x y in
  let qmeas := quat_multiply (quat_inv (cf_q f)) (imu_qb f x) in
  let J := mzero in
  let J := put3 J 0 0 (m3scal (-1) (m3sub (m3mul (m3sub (m3scal (qw q12) m3id) (skew_x (qvec q12)))
                                                 (m3add (m3scal (qw qmeas) m3id) (skew_x (qvec qmeas))))
                                          (m3outer (qvec q12) (qvec qmeas)))) in
  let J := put3 J 0 15 (m3add (m3scal (qw qp) m3id) (skew_x (qvec qp))) in
  let J := put3 J 0 3 (m3mul (m3sub (m3scal (qw qm) m3id) (skew_x (qvec qm))) (cf_Jq f)) in
  let J := put3 J 3 3 (m3scal (-1) m3id) in
  let J := put3 J 3 18 m3id in
  let J := put3 J 6 0 (skew_x (m3v R1 (imu_dv f x y))) in
  let J := put3 J 6 6 (m3scal (-1) R1) in
  let J := put3 J 6 21 R1 in
  let J := put3 J 6 3 (m3scal (-1) (cf_Jb f)) in
  let J := put3 J 6 9 (m3scal (-1) (cf_Hb f)) in
  let J := put3 J 9 9 (m3scal (-1) m3id) in
  let J := put3 J 9 24 m3id in
  let J := put3 J 12 0 (skew_x (m3v R1 (imu_dp f x y))) in
  let J := put3 J 12 6 (m3scal (cf_dt f) (m3scal (-1) R1)) in
  let J := put3 J 12 12 (m3scal (-1) R1) in
  let J := put3 J 12 27 R1 in
  let J := put3 J 12 3 (m3scal (-1) (cf_Ja f)) in
  put3 J 12 9 (m3scal (-1) (cf_Ha f)).
(** Factor_ImuCPIv1.cpp 150-207 (as above) *)
Definition imu_all_jac (f : cfac) (x y : clone) : mat := mmul 15 (cf_S f) (imu_raw_jac f x y).
(** Factor_ImuCPIv1.cpp 209-261: what is stored, in the order of the parameter blocks: q1 bg1 v1 ba1 p1 q2 bg2 v2 ba2 p2 *)
Definition col_from (J : mat) (c : nat) : mat := fun i j => J i (c + j)%nat.
(** Factor_ImuCPIv1.cpp 209-261 (as above) *)
Definition imu_jac (f : cfac) (x y : clone) : list mat :=
  let J := imu_all_jac f x y in
  [pad4 (col_from J 0); col_from J 3; col_from J 6; col_from J 9; col_from J 12; pad4 (col_from J 15); col_from J 18; col_from J 21; col_from J 24; col_from J 27].

(** ** Factor_GenericPrior.cpp *)
(** the strings of x_type; [POther] is any other one [Factor_GenericPrior.cpp 30-56] *)
Inductive ptype := PQuat | PYaw | PVec (n : nat) | POther.
(** a parameter block; vec1, vec3 and vec8 are the only vector types the code knows [Factor_GenericPrior.cpp 30-56] *)
Inductive pval := VQ (q : q4) | VV (v : vec).
(** Factor_GenericPrior.cpp 30-56 *)
Definition known (t : ptype) : bool :=
  match t with PVec n => (Nat.eqb n 1 || Nat.eqb n 3 || Nat.eqb n 8)%bool | POther => false | _ => true end.
(** Factor_GenericPrior.cpp 30-56 *)
Definition psize (t : ptype) : nat := match t with PQuat | PYaw => 4 | PVec n => n | POther => 0 end.
(** Factor_GenericPrior.cpp 30-56 *)
Definition perr (t : ptype) : nat := match t with PQuat => 3 | PYaw => 1 | PVec n => n | POther => 0 end.
(** Factor_GenericPrior.cpp 30-56 *)
Definition total (g : ptype -> nat) (l : list ptype) : nat := fold_right (fun t s => (g t + s)%nat) 0%nat l.
(** Factor_GenericPrior.cpp 28-92: the members.  [llt] is LLT::matrixL, [tri] the triangular solve against the identity; None where isnan finds NaN.
    [n], [ni], [ng] are the rows of x_lin, prior_Info (square) and prior_grad. *)
Record pfac := mkPF { pf_types : list ptype; pf_lin : vec; pf_S : mat; pf_b : vec }.
(** Factor_GenericPrior.cpp 28-92 (as above) *)
Definition prior_new (llt : nat -> mat -> option mat) (tri : nat -> mat -> option mat) (n ni ng : nat)
  (x_lin : vec) (types : list ptype) (Info : mat) (grad : vec) : outcome pfac :=
  guard (forallb known types) Exit
  (guard (Nat.eqb n (total psize types) && Nat.eqb ni (total perr types) && Nat.eqb ng (total perr types))%bool UB
   (match llt ni Info with
    | None => Exit
    | Some L => match tri ni (mtr L) with
                | None => Exit
                | Some Inv => Ok (mkPF types x_lin (mtr L) (mvec ni Inv grad))
                end
    end)).
(** inverse() of Factor_GenericPrior.cpp 112, 128 *)
Definition m3inv (A : m3) : m3 :=
  let d := / m3det A in
  M3 (d * (m11 A * m22 A - m12 A * m21 A)) (d * (m02 A * m21 A - m01 A * m22 A)) (d * (m01 A * m12 A - m02 A * m11 A))
     (d * (m12 A * m20 A - m10 A * m22 A)) (d * (m00 A * m22 A - m02 A * m20 A)) (d * (m02 A * m10 A - m00 A * m12 A))
     (d * (m10 A * m21 A - m11 A * m20 A)) (d * (m01 A * m20 A - m00 A * m21 A)) (d * (m00 A * m11 A - m01 A * m10 A)).
(** block(global_it, 0, 4, 1) of Factor_GenericPrior.cpp 104-107, 120-123 *)
Definition q4at (x : vec) (g : nat) : q4 := Q4 (x g) (x (S g)) (x (S (S g))) (x (S (S (S g)))).
(** Factor_GenericPrior.cpp 104-107 *)
Definition theta_err (q qlin : q4) : v3 := log_so3 (m3mul (m3tr (quat_2_Rot q)) (quat_2_Rot qlin)).
(** Factor_GenericPrior.cpp 103-164: the rows of the residual of one block, from 0, and its stored Jacobian.
    A block whose value does not fit its type cannot arise from arrays of doubles: [UB]. *)
Definition prior_H (qlin : q4) (q : q4) : m3 :=
  m3mul (m3scal (-1) (m3inv (Jr_so3 (theta_err q qlin)))) (m3tr (quat_2_Rot qlin)).
(** Factor_GenericPrior.cpp 103-164 (as above) *)
Definition prior_one (f : pfac) (t : ptype) (x : pval) (l g : nat) : outcome (vec * mat) :=
  let S := col_from (pf_S f) l in
  match t, x with
  | PQuat, VQ q => let th := theta_err q (q4at (pf_lin f) g) in
      Ok (v3vec (v3neg th), pad4 (mmul 3 S (m3mat (prior_H (q4at (pf_lin f) g) q))))
  | PYaw, VQ q => let th := theta_err q (q4at (pf_lin f) g) in
      Ok ((fun _ => - vz th), pad4 (mmul 1 S (fun _ j => m3mat (prior_H (q4at (pf_lin f) g) q) 2%nat j)))
  | PVec k, VV v => guard (known t) Exit (Ok ((fun i => v i - pf_lin f (g + i)%nat), S))
  | POther, _ => Exit
  | _, _ => UB
  end.
(** Factor_GenericPrior.cpp 102-165: the loop, all rows of the residual before the square root information, and the Jacobian of each block *)
Fixpoint prior_loop (f : pfac) (ts : list ptype) (xs : list pval) (l g : nat) (res : vec) : outcome (vec * list mat) :=
  match ts, xs with
  | [], _ => Ok (res, [])
  | t :: ts', x :: xs' =>
      do r <- prior_one f t x l g;
      let res' := fun i => if ((l <=? i) && (i <? l + perr t))%nat%bool then fst r (i - l)%nat else res i in
      do q <- prior_loop f ts' xs' (l + perr t) (g + psize t) res';
      Ok (fst q, snd r :: snd q)
  | _ :: _, [] => UB
  end.
(** Factor_GenericPrior.cpp 94-176 *)
Definition prior_eval (f : pfac) (xs : list pval) : outcome (vec * list mat) :=
  let n := total perr (pf_types f) in
  do r <- prior_loop f (pf_types f) xs 0 0 (fun _ => 0);
  Ok ((fun i => mvec n (pf_S f) (fst r) i + pf_b f i), snd r).
