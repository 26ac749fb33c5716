(** Model of Propagator::fast_state_propagate (ov_msckf/src/state/Propagator.cpp 140-267) and of the
    fields of Propagator it shares with the filter (Propagator.h 51-96, 437-453).

    Simplifications: doubles are exact reals; one thread; the fields of State that are read are
    gathered in [fview]; the 16-vector cache_state_est is an [ival]. *)
From Coq Require Import Reals List Arith Bool.
From Verif Require Import Outcome RBool GeoModel Lin TypesModel StateModel ImuModel PropModel.
Import ListNotations.
Open Scope R_scope.

(** Propagator.h 448-453: the cache *)
Record cache := mkCache { ca_valid : bool; ca_time : R; ca_est : ival; ca_cov : mat; ca_toff : R }.
(** what fast_state_propagate reads of the filter state; [fv_cov] is the marginal covariance of the IMU [Propagator.cpp 140-173] *)
Record fview := mkView { fv_time : R; fv_toff : R; fv_pst : pst; fv_cov : mat }.

(** the intrinsics of [x] with the cached estimate [Propagator.cpp 140-173] *)
Definition with_est (x : pst) (e : ival) : pst :=
  mkPst (ps_model x) (ps_calib x) (ps_gsens x) (ps_dofej x) e e (ps_dw x) (ps_da x) (ps_tg x) (ps_qw x) (ps_qa x).

(** Propagator.cpp 183-191: a_hat and w_hat, averages of the corrected readings *)
Definition fast_avg (x : pst) (e : ival) (m p : imu) : v3 * v3 :=
  let Dw := Dm (ps_model x) (ps_dw x) in let Da := Dm (ps_model x) (ps_da x) in
  let Tg := Tg_of (ps_tg x) in
  let Ra := quat_2_Rot (ps_qa x) in let Rw := quat_2_Rot (ps_qw x) in
  let a1 := m3v (m3mul Ra Da) (v3sub (i_a m) (iv_ba e)) in
  let a2 := m3v (m3mul Ra Da) (v3sub (i_a p) (iv_ba e)) in
  let w1 := m3v (m3mul Rw Dw) (v3sub (v3sub (i_w m) (iv_bg e)) (m3v Tg a1)) in
  let w2 := m3v (m3mul Rw Dw) (v3sub (v3sub (i_w p) (iv_bg e)) (m3v Tg a2)) in
  (v3scal (/ 2) (v3add a1 a2), v3scal (/ 2) (v3add w1 w2)).

(** Propagator.cpp 201-212 *)
Definition fast_F (Rk : m3) (a w : v3) (dt : R) : mat :=
  let E := exp_so3 (v3scal dt (v3neg w)) in
  let F := mzero in
  let F := put3 F 0 0 E in
  let F := put3 F 0 9 (m3scal dt (m3mul (m3scal (-1) E) (Jr_so3 (v3scal dt (v3neg w))))) in
  let F := put1 F 9 3 in
  let F := put3 F 6 0 (m3mul (m3scal (-1) (m3tr Rk)) (skew_x (v3scal dt a))) in
  let F := put1 F 6 3 in
  let F := put3 F 6 12 (m3scal dt (m3scal (-1) (m3tr Rk))) in
  let F := put1 F 12 3 in
  let F := put3 F 3 0 (m3mul (m3scal (- / 2) (m3tr Rk)) (skew_x (v3scal dt (v3scal dt a)))) in
  let F := put3 F 3 6 (m3scal dt m3id) in
  let F := put3 F 3 12 (m3scal dt (m3scal dt (m3scal (- / 2) (m3tr Rk)))) in
  put1 F 3 3.
(** Propagator.cpp 213-218 *)
Definition fast_G (Rk : m3) (w : v3) (dt : R) : mat :=
  let E := exp_so3 (v3scal dt (v3neg w)) in
  let G := mzero in
  let G := put3 G 0 0 (m3scal dt (m3mul (m3scal (-1) E) (Jr_so3 (v3scal dt (v3neg w))))) in
  let G := put3 G 6 3 (m3scal dt (m3scal (-1) (m3tr Rk))) in
  let G := put3 G 3 3 (m3scal dt (m3scal dt (m3scal (- / 2) (m3tr Rk)))) in
  let G := put3 G 9 6 m3id in
  put3 G 12 9 m3id.
(** Propagator.cpp 224-228 *)
Definition fast_Qc (ns : noises) (dt : R) : mat := fun i j =>
  if Nat.eqb i j then
    (if Nat.ltb i 3 then sigma_w ns ^ 2 / dt else if Nat.ltb i 6 then sigma_a ns ^ 2 / dt
     else if Nat.ltb i 9 then sigma_wb ns ^ 2 * dt else sigma_ab ns ^ 2 * dt)
  else 0.
(** Propagator.cpp 229-230 *)
Definition fast_Qd (ns : noises) (Rk : m3) (w : v3) (dt : R) : mat :=
  let G := fast_G Rk w dt in
  let Q := mmul 12 (mmul 12 G (fast_Qc ns dt)) (mtr G) in
  mscal (/ 2) (madd Q (mtr Q)).

(** Propagator.cpp 178-236: one interval *)
Definition fast_step (ns : noises) (g : v3) (x : pst) (s : ival * mat) (m p : imu) : ival * mat :=
  let (e, P) := s in
  let dt := i_t p - i_t m in
  let (a, w) := fast_avg x e m p in
  let Rk := quat_2_Rot (iv_q e) in
  let F := fast_F Rk a w dt in
  let v := iv_v e in
  (IVal (rot_2_quat (m3mul (exp_so3 (v3scal dt (v3neg w))) Rk))
     (v3sub (v3add (v3add (iv_p e) (v3scal dt v)) (v3scal dt (v3scal dt (m3v (m3scal (/ 2) (m3tr Rk)) a)))) (v3scal dt (v3scal dt (v3scal (/ 2) g))))
     (v3sub (v3add v (v3scal dt (m3v (m3tr Rk) a))) (v3scal dt g))
     (iv_bg e) (iv_ba e),
   madd (mmul 15 (mmul 15 F P) (mtr F)) (fast_Qd ns Rk w dt)).
(** Propagator.cpp 178-236 (as above) *)
Fixpoint fast_steps (ns : noises) (g : v3) (x : pst) (l : list imu) (s : ival * mat) : ival * mat :=
  match l with
  | m :: ((p :: _) as l') => fast_steps ns g x l' (fast_step ns g x s m p)
  | _ => s
  end.

(** state_plus and covariance [Propagator.cpp 238-266] *)
Record plus := mkPlus { pl_q : q4; pl_p : v3; pl_v : v3; pl_w : v3; pl_cov : mat }.
(** Propagator.cpp 259-265: Phi, and the 12 x 12 covariance *)
Definition local_Phi (q : q4) : mat := put3 mid 6 6 (quat_2_Rot q).
(** Propagator.cpp 259-265 (as above) *)
Definition plus_cov (ns : noises) (q : q4) (P : mat) (dt : R) : mat := fun i j =>
  if (Nat.ltb i 9 && Nat.ltb j 9)%bool then mmul 15 (mmul 15 (local_Phi q) P) (mtr (local_Phi q)) i j
  else if (Nat.leb 9 i && Nat.eqb i j)%bool then sigma_w ns ^ 2 / dt else 0.
(** Propagator.cpp 140-267; [None] is return false *)
Definition fast_query (ns : noises) (g : v3) (data : list imu) (c : cache) (x : fview) (t : R) : outcome (cache * option plus) :=
  let c := if ca_valid c then c else mkCache true (fv_time x) (ps_imu (fv_pst x)) (fv_cov x) (fv_toff x) in
  let time0 := ca_time c + ca_toff c in
  let time1 := t + ca_toff c in
  do l <- select_imu_readings data time0 time1;
  match rev l with
  | z :: y :: _ =>
      let (e, P) := fast_steps ns g (fv_pst x) l (ca_est c, ca_cov c) in
      let c' := mkCache true time1 e P 0 in
      let w := last_w (with_est (fv_pst x) e) l in
      Ok (c', Some (mkPlus (iv_q e) (iv_p e) (m3v (quat_2_Rot (iv_q e)) (iv_v e)) w (plus_cov ns (iv_q e) P (i_t z - i_t y))))
  | _ => Ok (c, None)
  end.

(** ** the fields of a Propagator, and the calls made on one.  The filter state [St] and what a
    propagation and an update do with it are arguments: propagate_and_clone (Propagator.cpp 33-138) reads
    imu_data, last_prop_time_offset and have_last_prop_time_offset besides the state. *)
Record propobj := mkProp { pr_data : list imu; pr_last : R; pr_have : bool; pr_cache : cache }.
(** Propagator.cpp 33-138 (as above) *)
Inductive call (St : Type) :=
  | Feed (m : imu) (oldest : R)                                        (* feed_imu *)
  | Propagate (t : R)                                                  (* propagate_and_clone *)
  | Change (f : St -> St)                                              (* any update of the state *)
  | Invalidate                                                         (* invalidate_cache *)
  | Query (t : R).                                                     (* fast_state_propagate *)
Arguments Feed {St}. Arguments Propagate {St}. Arguments Change {St}. Arguments Invalidate {St}. Arguments Query {St}.
Section Run.
Context {St : Type}.
Variables (ns : noises) (g : v3) (view : St -> fview) (prop : St -> list imu -> R -> outcome St).
(** Propagator.cpp 33-138 as far as the fields of Propagator are concerned; [prop] is lines 71-133, 136-137 *)
Definition do_propagate (s : St) (o : propobj) (t : R) : outcome (St * propobj) :=
  if Reqb (fv_time (view s)) t then Exit else if Rltb t (fv_time (view s)) then Exit
  else
    let last := if pr_have o then pr_last o else fv_toff (view s) in
    let toff := fv_toff (view s) in
    do l <- select_imu_readings (pr_data o) (fv_time (view s) + last) (t + toff);
    do s' <- prop s l t;
    Ok (s', mkProp (pr_data o) toff true (pr_cache o)).
(** Propagator.cpp 33-138 (as above) *)
Definition do_call (so : St * propobj) (c : call St) : outcome (St * propobj * option plus) :=
  let (s, o) := so in
  match c with
  | Feed m old => Ok (s, mkProp (feed_imu m old (pr_data o)) (pr_last o) (pr_have o) (pr_cache o), None)
  | Propagate t => do r <- do_propagate s o t; Ok (fst r, snd r, None)
  | Change f => Ok (f s, o, None)
  | Invalidate => let c := pr_cache o in
      Ok (s, mkProp (pr_data o) (pr_last o) (pr_have o) (mkCache false (ca_time c) (ca_est c) (ca_cov c) (ca_toff c)), None)
  | Query t => do r <- fast_query ns g (pr_data o) (pr_cache o) (view s) t;
      Ok (s, mkProp (pr_data o) (pr_last o) (pr_have o) (fst r), snd r)
  end.
(** Propagator.cpp 33-138 (as above) *)
Fixpoint run_calls (so : St * propobj) (cs : list (call St)) : outcome (St * propobj * list (option plus)) :=
  match cs with
  | [] => Ok (so, [])
  | c :: cs => do r <- do_call so c; do q <- run_calls (fst r) cs; Ok (fst q, snd r :: snd q)
  end.
End Run.
