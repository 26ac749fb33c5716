(** C82: what the preintegrated means are.  C83: how they change with the biases. *)
From Coq Require Import Reals List Bool Arith.
From Coquelicot Require Import Coquelicot.
From Verif Require Import RBool GeoModel GeoSpec JacSo3 Calc3 Lin TypesModel ManifoldSpec PropModel PropSpec CpiModel CpiSpec CpiProofs CpiJac CpiEx.
Open Scope R_scope.

(** After any readings the object holds the exact relative motion of a body that follows them from any start under any
    gravity, as long as every rotation is zero or not slower than half a degree per second. *)
Theorem C82_means : forall avg Qc bw ba g l x y, is_rot (bo_R x) -> rates rate_ok avg bw l -> moves g (map (piece avg bw ba) l) x y ->
  let c := cpi_run (cpi_new avg Qc bw ba) l in let T := duration l in
  cp_DT c = T /\ bo_R y = m3mul (cp_R c) (bo_R x) /\
  bo_v y = v3add (v3sub (bo_v x) (v3scal T g)) (m3v (m3tr (bo_R x)) (cp_be c)) /\
  bo_p y = v3add (v3sub (v3add (bo_p x) (v3scal T (bo_v x))) (v3scal (T ^ 2 / 2) g)) (m3v (m3tr (bo_R x)) (cp_al c)) /\
  (forall q, cp_q c = Some q -> unit_q q /\ quat_2_Rot q = cp_R c).
Proof. exact means_thm. Qed.
Print Assumptions C82_means.
(** For slower ones the stored matrix is not even a rotation. *)
Theorem C82_slow_refuted : exists l, forall Qc, ~ is_rot (cp_R (cpi_run (cpi_new false Qc v3zero v3zero) l)).
Proof. exact (ex_intro _ exs_l slow_not_rot). Qed.
Print Assumptions C82_slow_refuted.
(** The stored Jacobians are the derivatives of the means along any change of the two biases. *)
Theorem C83_bias_jacobians : forall avg Qc bw ba e f l, rates rate_in avg bw l ->
  let c := fun s => cpi_run (cpi_new avg Qc (v3add bw (v3scal s e)) (v3add ba (v3scal s f))) l in let k := cpi_run (cpi_new avg Qc bw ba) l in
  m3_derive (fun s => cp_R (c s)) 0 (m3mul (skew_x (m3v (cp_Jq k) e)) (cp_R k)) /\
  v3_derive (fun s => cp_al (c s)) 0 (v3add (m3v (cp_Ja k) e) (m3v (cp_Ha k) f)) /\
  v3_derive (fun s => cp_be (c s)) 0 (v3add (m3v (cp_Jb k) e) (m3v (cp_Hb k) f)).
Proof. exact bias_thm. Qed.
Print Assumptions C83_bias_jacobians.

(** three readings, one turning at 4 rad/s, one of no duration, one not turning; every list of pieces can be followed *)
Example C82_ex : is_rot (bo_R exc_x) /\ rates rate_ok true exc_bw exc_l /\ duration exc_l = 2 /\
  exists y, moves exc_g (map (piece true exc_bw exc_ba) exc_l) exc_x y.
Proof. exact (conj GeoProofs.is_rot_id (conj (rates_in_ok _ _ _ exc_rates) (conj exc_duration exc_moves))). Qed.
Example C82_ex_any : forall g l x, exists y, moves g l x y.
Proof. exact moves_exists. Qed.
Example C83_ex : rates rate_in true exc_bw exc_l.
Proof. exact exc_rates. Qed.
