(** Specification of C88 to C91: what the least-squares terms of the dynamic initializer should be.

    Ceres moves a quaternion block with Plus and forms the Jacobian with respect to the 3-vector it moves by as the
    stored 4-column Jacobian times PlusJacobian.  A term is right when that product is the derivative of the residual
    along Plus. *)
From Coq Require Import Reals List Bool Arith.
From Coquelicot Require Import Coquelicot.
From Verif Require Import RBool Outcome GeoModel GeoSpec ExpSeries JacSo3 Calc3 Lin PropModel CamModel CamSpec HelpModel HelpSpec ManifoldSpec CpiModel CpiSpec CeresModel.
Import ListNotations.
Open Scope R_scope.

(** what Ceres uses for a quaternion block with stored Jacobian [J] *)
Definition local4 (J : mat) : mat := mmul 4 J jpl_jac.

(** ** C88 *)
(** [q'] is the orientation [q] turned by the rotation vector [d] *)
Definition turned_by (d : v3) (q q' : q4) : Prop :=
  exists E, is_mexp (skew_x (v3neg d)) E /\ quat_2_Rot q' = m3mul E (quat_2_Rot q).

(** ** C89 *)
(** a direction in the parameters, and the parameters moved along it as Ceres does *)
Record idir := mkID { id_q : v3; id_p : v3; id_f : v3; id_qc : v3; id_pc : v3; id_k : vec }.
Definition imove (x : ipar) (d : idir) (s : R) : ipar :=
  mkIP (jpl_plus (ip_q x) (v3scal s (id_q d))) (v3add (ip_p x) (v3scal s (id_p d))) (v3add (ip_f x) (v3scal s (id_f d)))
       (jpl_plus (ip_qc x) (v3scal s (id_qc d))) (v3add (ip_pc x) (v3scal s (id_pc d))) (fun i => ip_k x i + s * id_k d i).
(** the rate the stored Jacobians predict *)
Definition ipredict (J : ijac) (d : idir) : vec := fun i =>
  mvec 3 (local4 (ij_q J)) (v3vec (id_q d)) i + mvec 3 (ij_p J) (v3vec (id_p d)) i + mvec 3 (ij_f J) (v3vec (id_f d)) i
  + mvec 3 (local4 (ij_qc J)) (v3vec (id_qc d)) i + mvec 3 (ij_pc J) (v3vec (id_pc d)) i + mvec 8 (ij_k J) (id_k d) i.
(** the pixel of the feature seen from the camera *)
Definition pixel (f : ifac) (x : ipar) : vec :=
  cam_distort (im_cam f) (ip_k x)
    (projected (v3add (m3v (quat_2_Rot (ip_qc x)) (m3v (quat_2_Rot (ip_q x)) (v3sub (ip_f x) (ip_p x)))) (ip_pc x))).

(** ** C90 *)
Record cdir := mkCD { cd_q : v3; cd_bg : v3; cd_v : v3; cd_ba : v3; cd_p : v3 }.
Definition cmove (x : clone) (d : cdir) (s : R) : clone :=
  mkCl (jpl_plus (cl_q x) (v3scal s (cd_q d))) (v3add (cl_bg x) (v3scal s (cd_bg d))) (v3add (cl_v x) (v3scal s (cd_v d)))
       (v3add (cl_ba x) (v3scal s (cd_ba d))) (v3add (cl_p x) (v3scal s (cd_p d))).
Definition cpredict (J : list mat) (d e : cdir) : vec := fun i =>
  let b k := nth k J mzero in
  mvec 3 (local4 (b 0%nat)) (v3vec (cd_q d)) i + mvec 3 (b 1%nat) (v3vec (cd_bg d)) i + mvec 3 (b 2%nat) (v3vec (cd_v d)) i
  + mvec 3 (b 3%nat) (v3vec (cd_ba d)) i + mvec 3 (b 4%nat) (v3vec (cd_p d)) i
  + mvec 3 (local4 (b 5%nat)) (v3vec (cd_q e)) i + mvec 3 (b 6%nat) (v3vec (cd_bg e)) i + mvec 3 (b 7%nat) (v3vec (cd_v e)) i
  + mvec 3 (b 8%nat) (v3vec (cd_ba e)) i + mvec 3 (b 9%nat) (v3vec (cd_p e)) i.
(** scalar part of the estimated relative rotation times the inverse of the measured one, each taken with a scalar
    part that is not negative *)
Definition cross_w (f : cfac) (x y : clone) : R := qw (quat_mul_raw (imu_q12 x y) (quat_multiply (quat_inv (cf_q f)) (imu_qb f x))).
(** less than a quarter turn *)
Definition small_turn (q : q4) : Prop := unit_q q /\ 1 / 2 < qw q * qw q.
(** the measured rotation, corrected for the gyroscope bias *)
Definition corrected (f : cfac) (x : clone) : m3 :=
  m3mul (m3tr (cayley (m3v (cf_Jq f) (v3sub (cl_bg x) (cf_bg f))))) (quat_2_Rot (cf_q f)).
(** the second state is the first one moved by the preintegrated measurement *)
Definition follows (f : cfac) (x y : clone) : Prop :=
  let dbw := v3sub (cl_bg x) (cf_bg f) in let dba := v3sub (cl_ba x) (cf_ba f) in
  let R1 := quat_2_Rot (cl_q x) in let T := cf_dt f in
  quat_2_Rot (cl_q y) = m3mul (corrected f x) R1 /\ cl_bg y = cl_bg x /\ cl_ba y = cl_ba x /\
  cl_v y = v3add (v3sub (cl_v x) (v3scal T (cf_g f)))
             (m3v (m3tr R1) (v3add (cf_be f) (v3add (m3v (cf_Jb f) dbw) (m3v (cf_Hb f) dba)))) /\
  cl_p y = v3add (v3sub (v3add (cl_p x) (v3scal T (cl_v x))) (v3scal (T ^ 2 / 2) (cf_g f)))
             (m3v (m3tr R1) (v3add (cf_al f) (v3add (m3v (cf_Ja f) dbw) (m3v (cf_Ha f) dba)))).
(** a matrix that sends no other vector to zero *)
Definition injective (n : nat) (S : mat) : Prop := forall v : vec, veq n (mvec n S v) (fun _ => 0) -> veq n v (fun _ => 0).
(** contracts of the factorizations: lower triangular factor, inverse *)
Definition lower (n : nat) (L : mat) : Prop := forall i j, (i < j)%nat -> (j < n)%nat -> L i j = 0.
Definition cholesky (n : nat) (A L : mat) : Prop := lower n L /\ meq n n (mmul n L (mtr L)) A.
Definition inverse (n : nat) (A B : mat) : Prop := meq n n (mmul n A B) mid /\ meq n n (mmul n B A) mid.
(** the clone as a body, and the same clone with other biases *)
Definition body_of (x : clone) : body := mkBody (quat_2_Rot (cl_q x)) (cl_v x) (cl_p x).
Definition rebias (x : clone) (bw ba : v3) : clone := mkCl (cl_q x) bw (cl_v x) ba (cl_p x).
(** rotating, and not taken for slow *)
Definition rate_fast (w : v3) : Prop := 8726646 / 1000000000 < v3norm w.

(** ** C91 *)
(** a direction for a block of a prior, and the block moved along it as Ceres does *)
Inductive pdir := DQ (d : v3) | DV (d : vec).
Definition pmove (x : pval) (d : pdir) (s : R) : pval :=
  match x, d with
  | VQ q, DQ d => VQ (jpl_plus q (v3scal s d))
  | VV v, DV d => VV (fun i => v i + s * d i)
  | _, _ => x
  end.
Fixpoint pmoves (xs : list pval) (ds : list pdir) (s : R) : list pval :=
  match xs, ds with x :: xs', d :: ds' => pmove x d s :: pmoves xs' ds' s | _, _ => xs end.
(** the rate the stored Jacobians predict *)
Fixpoint ppredict (ts : list ptype) (Js : list mat) (ds : list pdir) : vec := fun i =>
  match ts, Js, ds with
  | t :: ts', J :: Js', d :: ds' =>
      (match d with DQ d => mvec 3 (local4 J) (v3vec d) i | DV d => mvec (psize t) J d i end) + ppredict ts' Js' ds' i
  | _, _, _ => 0
  end.
(** the residual that was computed *)
Definition res_of (o : outcome (vec * list mat)) : vec := match o with Ok (r, _) => r | _ => fun _ => 0 end.
(** turns whose logarithm the code computes exactly *)
Definition log_inside (r : m3) : Prop := r = m3id \/ (1 / 10 ^ 10 < m3trace r + 1 /\ m3trace r - 3 < - (1 / 10 ^ 7)).
(** the blocks one after the other, each with its type and where its rows and its values start *)
Fixpoint blocks {A} (P : ptype -> A -> nat -> nat -> Prop) (ts : list ptype) (xs : list A) (l g : nat) : Prop :=
  match ts, xs with
  | [], [] => True
  | t :: ts', x :: xs' => P t x l g /\ blocks P ts' xs' (l + perr t) (g + psize t)
  | _, _ => False
  end.
(** a block that has the type: unit quaternions, at less than half a turn and not too close to the linearization point unless at it *)
Definition block_ok (lin : vec) (t : ptype) (x : pval) (_ g : nat) : Prop :=
  match t, x with
  | (PQuat | PYaw), VQ q => unit_q q /\ unit_q (q4at lin g) /\ log_inside (m3mul (m3tr (quat_2_Rot q)) (quat_2_Rot (q4at lin g)))
  | PVec n, VV _ => (n = 1 \/ n = 3 \/ n = 8)%nat
  | _, _ => False
  end.
Definition dir_ok (t : ptype) (d : pdir) (_ _ : nat) : Prop :=
  match t, d with (PQuat | PYaw), DQ _ => True | PVec _, DV _ => True | _, _ => False end.
(** the turn [E] that takes the orientation [q'] to [q], on the global side *)
Definition turn_of (u : v3) (q' q : q4) : Prop :=
  v3norm u < PI /\ exists E, is_mexp (skew_x u) E /\ quat_2_Rot q = m3mul (quat_2_Rot q') E.
(** [e] holds the difference of the block to the linearization point, from row [l] on *)
Definition block_err (lin e : vec) (t : ptype) (x : pval) (l g : nat) : Prop :=
  match t, x with
  | PQuat, VQ q => turn_of (seg3 e l) (q4at lin g) q
  | PYaw, VQ q => exists u, turn_of u (q4at lin g) q /\ e l = vz u
  | PVec n, VV v => forall i, (i < n)%nat -> e (l + i)%nat = v i - lin (g + i)%nat
  | _, _ => False
  end.
