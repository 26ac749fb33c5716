(** C103: the covariance of the preintegrated measurement. *)
From Coq Require Import Reals List Bool Arith.
From Coquelicot Require Import Coquelicot.
From Verif Require Import RBool GeoModel GeoSpec JacSo3 Calc3 Lin HelpSpec CpiModel CpiSpec CpiCovSpec CpiCov CpiCov2 CpiCov3 CpiCovEx.
Import ListNotations.
Open Scope R_scope.

(** It is symmetric after any readings. *)
Theorem C103_symmetric : forall avg Qc bw ba l, sym 15 (cp_P (cpi_run (cpi_new avg Qc bw ba) l)).
Proof. exact new_sym. Qed.
Print Assumptions C103_symmetric.
(** Its bias part is that of two random walks: the time since the start times the variances, nothing between them. *)
Theorem C103_bias : forall avg sw swb sa sab bw ba l r s, (r < 3)%nat -> (s < 3)%nat ->
  let P := cp_P (cpi_run (cpi_new avg (cpi_Qc sw swb sa sab) bw ba) l) in let T := duration l in
  P (3 + r)%nat (3 + s)%nat = (if Nat.eqb r s then swb ^ 2 * T else 0) /\
  P (9 + r)%nat (9 + s)%nat = (if Nat.eqb r s then sab ^ 2 * T else 0) /\
  P (3 + r)%nat (9 + s)%nat = 0 /\ P (9 + r)%nat (3 + s)%nat = 0.
Proof. exact bias_cov. Qed.
Print Assumptions C103_bias.
(** One step agrees, to second order in its duration, with the covariance of the linearized errors of the preintegrated state. *)
Theorem C103_order : forall c w a Qt, sym 12 (cp_Qc c) -> sym 15 (cp_P c) -> Qt 0 = cp_R c ->
  (forall t, m3_derive Qt t (m3mul (m3scal (-1) (skew_x w)) (Qt t))) ->
  exists Ft Gt, (forall t, lin_rates (Ft t) (Gt t) (Qt t) w a) /\
    forall Pt, true_cov (cp_Qc c) Ft Gt Pt -> meq 15 15 (Pt 0) (cp_P c) ->
      forall i j, (i < 15)%nat -> (j < 15)%nat ->
      is_lim (fun dt => (cp_P (cpi_feed c (steady c dt w a)) i j - Pt dt i j) / dt ^ 2) 0 0.
Proof. exact order_thm. Qed.
Print Assumptions C103_order.
(** Without rotation that covariance exists and the step agrees to fourth order. *)
Theorem C103_still : forall c a, sym 12 (cp_Qc c) -> sym 15 (cp_P c) ->
  exists F G, lin_rates F G (cp_R c) v3zero a /\
    (exists Pt, true_cov (cp_Qc c) (fun _ => F) (fun _ => G) Pt /\ Pt 0 = cp_P c) /\
    forall Pt, true_cov (cp_Qc c) (fun _ => F) (fun _ => G) Pt -> meq 15 15 (Pt 0) (cp_P c) ->
      forall i j, (i < 15)%nat -> (j < 15)%nat ->
      is_lim (fun dt => (cp_P (cpi_feed c (steady c dt v3zero a)) i j - Pt dt i j) / dt ^ 4) 0 0.
Proof. exact still_thm. Qed.
Print Assumptions C103_still.
(** The linear rates are determined by the motion: those of the theorems are the only ones. *)
Theorem C103_rates_unique : forall F G F' G' Q w a, is_rot Q -> lin_rates F G Q w a -> lin_rates F' G' Q w a -> meq 15 15 F F' /\ meq 15 12 G G'.
Proof. exact rates_unique. Qed.
Print Assumptions C103_rates_unique.
(** The comment of the code, "ensure it is positive definite", does not hold: the first reading of a fresh object can leave
    a matrix with a negative direction (default noises, at rest, one second). *)
Theorem C103_psd_refuted : exists c r, sym 12 (cp_Qc c) /\ psd 12 (cp_Qc c) /\ sym 15 (cp_P c) /\ psd 15 (cp_P c) /\
  c = cpi_new true (cp_Qc c) v3zero v3zero /\ 0 < rd_t1 r - rd_t0 r /\ ~ psd 15 (cp_P (cpi_run c [r])).
Proof. exact psd_refuted. Qed.
Print Assumptions C103_psd_refuted.

(** the default noises, a fresh object, an orientation that stays *)
Example C103_ex : sym 12 ex_Qc /\ sym 15 (cp_P ex_c) /\ (forall t, m3_derive (fun _ => cp_R ex_c) t (m3mul (m3scal (-1) (skew_x v3zero)) (cp_R ex_c))) /\
  (exists F G Pt, lin_rates F G (cp_R ex_c) v3zero ex_a /\ true_cov ex_Qc (fun _ => F) (fun _ => G) Pt /\ meq 15 15 (Pt 0) (cp_P ex_c)) /\
  ex_P 12%nat 12%nat = 1 / 3 * (2 / 1000) ^ 2.
Proof. exact cov_ex. Qed.
