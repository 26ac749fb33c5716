(** C37: triangulation; C38: its refinement (FeatureInitializer.cpp). *)
From Coq Require Import Reals List Bool.
From Coquelicot Require Import Coquelicot.
From Verif Require Import RBool Outcome GeoModel GeoSpec FeatModel FeatSpec FeatThms FeatGn FeatEx FeatProofs.
Import ListNotations.
Open Scope R_scope.

(** C37: when every measurement shows the same point P, from two camera centres not in line with it, the
    result is P, and it is rejected exactly for its depth or for the condition number of the normal matrix *)
Theorem C37_exact solve svals o cs f r ms P : triangulate solve svals o cs f = Ok r -> rotations cs -> solves solve -> all_meas cs f = Some ms ->
  (forall m, In m ms -> appears P m) -> (exists m1 m2, In m1 ms /\ In m2 ms /\ v3cross (v3sub P (centre m1)) (v3sub P (centre m2)) <> v3zero) ->
  exists RA pA, cs (tr_cam r) (tr_time r) = Some (RA, pA) /\ let pa := m3v RA (v3sub P pA) in
  (forall pf pg, tr_pos r = Some (pf, pg) -> pf = pa /\ pg = P) /\
  (tr_pos r = None <-> vz pa < fo_min o \/ fo_max o < vz pa \/ exists A, normal_matrix RA ms A /\ bad_cond o (svals A) = true).
Proof. exact (tri_exact solve svals o cs f r ms P). Qed.
Print Assumptions C37_exact.

(** with arbitrary measurements it is the point closest to the viewing lines *)
Theorem C37_least_squares solve svals o cs f r ms pf pg : triangulate solve svals o cs f = Ok r -> rotations cs -> solves solve -> all_meas cs f = Some ms -> two_rays ms ->
  tr_pos r = Some (pf, pg) -> forall P', ray_cost ms pg <= ray_cost ms P'.
Proof. exact (tri_least solve svals o cs f r ms pf pg). Qed.
Print Assumptions C37_least_squares.

Theorem C37_range solve svals o cs f r pf pg : triangulate solve svals o cs f = Ok r -> tr_pos r = Some (pf, pg) ->
  fo_min o <= vz pf <= fo_max o /\ exists RA pA, cs (tr_cam r) (tr_time r) = Some (RA, pA) /\ pg = v3add (m3v (m3tr RA) pf) pA.
Proof. exact (tri_range solve svals o cs f r pf pg). Qed.
Print Assumptions C37_range.

(** along the bearing of the anchor only: also P *)
Theorem C37_exact_1d o cs f r ms P : triangulate_1d o cs f = Ok r -> rotations cs -> NoDup (map fst f) -> all_meas cs f = Some ms -> (forall m, In m ms -> appears P m) ->
  forall RA pA, cs (tr_cam r) (tr_time r) = Some (RA, pA) -> (exists m, In m ms /\ v3cross (v3sub P (centre m)) (v3sub P pA) <> v3zero) ->
  let pa := m3v RA (v3sub P pA) in tr_pos r = if Rltb (vz pa) (fo_min o) || Rltb (fo_max o) (vz pa) then None else Some (pa, P).
Proof. exact (tri1_exact o cs f r ms P). Qed.
Print Assumptions C37_exact_1d.

(** the anchor is the last measurement of the camera with most of them *)
Theorem C37_anchor solve svals o cs f r : triangulate solve svals o cs f = Ok r -> NoDup (map fst f) ->
  exists ts l uv, In (tr_cam r, ts) f /\ ts = l ++ [(tr_time r, uv)] /\ forall c' ts', In (c', ts') f -> (length ts' <= length ts)%nat.
Proof.
  intros E ND. destruct (tri_split solve svals o cs f r E) as (c & t & uv & ai & RA & pA & ws & E1 & _ & _ & E4 & E5 & _).
  destruct (tri_anchor f c t uv ai E1 ND) as (ts & l & H). rewrite E4, E5. exists ts, l, uv. exact H.
Qed.
Print Assumptions C37_anchor.

Theorem C37_defined solve svals o cs f : (exists ms, all_meas cs f = Some ms) -> (exists c ts, In (c, ts) f /\ ts <> []) -> NoDup (map fst f) ->
  exists r r1, triangulate solve svals o cs f = Ok r /\ triangulate_1d o cs f = Ok r1.
Proof. exact (tri_defined solve svals o cs f). Qed.
Print Assumptions C37_defined.

(** (0, 0, 2) seen from the origin and from (1, 0, 0) *)
Example C37_example solve svals : exists r, triangulate solve svals (dflt (1 / 1000)) ex_cs ex_obs = Ok r /\ tr_cam r = 0%nat /\ tr_time r = 0 /\ rotations ex_cs /\ all_meas ex_cs ex_obs = Some ex_ms /\
  (forall m, In m ex_ms -> appears ex_P m) /\ (exists m1 m2, In m1 ex_ms /\ In m2 ex_ms /\ v3cross (v3sub ex_P (centre m1)) (v3sub ex_P (centre m2)) <> v3zero) /\ NoDup (map fst ex_obs) /\
  (exists r1, triangulate_1d (dflt (1 / 1000)) ex_cs ex_obs = Ok r1).
Proof. exact (tri_example solve svals). Qed.
Example C37_solver : solves cramer.
Proof. exact cramer_solves. Qed.

(** C38: for every lam_mult > 1 and init_lamda > 0 there is a number of passes after which the loop has ended,
    whatever the data and the solver do *)
Theorem C38_terminates o : 1 < fo_mult o -> 0 < fo_lam0 o -> exists n, forall solve hQ cs f ac t p, refine solve hQ o cs f ac t p n <> Ok None.
Proof. exact (refine_ends o). Qed.
Print Assumptions C38_terminates.

(** the number: twice max_runs and the steps from init_lamda to max_lamda *)
Theorem C38_passes solve hQ o cs f ac t p K : fo_mult o <> 0 -> fo_lam_max o <= fo_lam0 o * fo_mult o ^ K -> refine solve hQ o cs f ac t p (2 * fo_runs o + K) <> Ok None.
Proof. exact (refine_terminates solve hQ o cs f ac t p K). Qed.
Print Assumptions C38_passes.

Theorem C38_fuel solve hQ o cs f ac t p n m r : refine solve hQ o cs f ac t p n = Ok (Some r) -> (n <= m)%nat -> refine solve hQ o cs f ac t p m = Ok (Some r).
Proof. exact (refine_more solve hQ o cs f ac t p n m r). Qed.
Print Assumptions C38_fuel.

Theorem C38_defined solve hQ o cs f ac t p n : (exists q, cs ac t = Some q) -> (exists ms, all_meas cs f = Some ms) -> exists r, refine solve hQ o cs f ac t p n = Ok r.
Proof. exact (refine_defined solve hQ o cs f ac t p n). Qed.
Print Assumptions C38_defined.

(** the reprojection error never gets worse *)
Theorem C38_descent solve hQ o cs f ac t p n pf pg RA pA ms : refine solve hQ o cs f ac t p n = Ok (Some (Some (pf, pg))) -> rotations cs -> cs ac t = Some (RA, pA) -> all_meas cs f = Some ms ->
  vz p <> 0 -> let P0 := v3add (m3v (m3tr RA) p) pA in off_planes ms P0 -> off_planes ms pg /\ reproj_cost ms pg <= reproj_cost ms P0.
Proof. exact (refine_descent solve hQ o cs f ac t p n pf pg RA pA ms). Qed.
Print Assumptions C38_descent.

(** success: within the depth limits, and some camera centre is off the line of sight by at least the
    distance over max_baseline *)
Theorem C38_checks solve hQ o cs f ac t p n pf pg RA pA ms : refine solve hQ o cs f ac t p n = Ok (Some (Some (pf, pg))) -> rotations cs -> house hQ -> cs ac t = Some (RA, pA) -> all_meas cs f = Some ms -> 0 < fo_min o ->
  fo_min o <= vz pf <= fo_max o /\ pg = v3add (m3v (m3tr RA) pf) pA /\
  exists m, In m ms /\ let d := off_line (v3sub pg pA) (v3sub (centre m) pA) in 0 < d /\ v3norm (v3sub pg pA) <= fo_base o * d /\ forall m', In m' ms -> off_line (v3sub pg pA) (v3sub (centre m') pA) <= d.
Proof. exact (refine_checks solve hQ o cs f ac t p n pf pg RA pA ms). Qed.
Print Assumptions C38_checks.

(** Hess and grad: grad is the downhill direction of the reprojection error, Hess is positive semidefinite *)
Theorem C38_gradient RA pA x ws H g : is_rot RA -> vz x <> 0 -> gn_sums RA pA x ws (M3 0 0 0 0 0 0 0 0 0, v3zero) = Some (H, g) ->
  (forall d, is_derive (fun s => reproj_cost (map vm ws) (inv_point RA pA (shift x d s))) 0 (-2 * v3dot d g)) /\ (forall d, 0 <= v3dot d (m3v H d)).
Proof. exact (gn_gradient RA pA x ws H g). Qed.
Print Assumptions C38_gradient.

(** with init_lamda = 0 the loop may never end: the triangulated point is one of the camera centres *)
Theorem C38_zero_lambda_refuted : exists o cs f, o = dflt 0 /\ rotations cs /\ forall solve svals hQ, solves solve -> (forall A, bad_cond o (svals A) = false) ->
  exists r p q, triangulate solve svals o cs f = Ok r /\ tr_pos r = Some (p, q) /\ forall n, refine solve hQ o cs f (tr_cam r) (tr_time r) p n = Ok None.
Proof. exact never_ends. Qed.
Print Assumptions C38_zero_lambda_refuted.

Example C38_default_passes solve RA pA ws p : exists g, gn_loop solve (dflt (1 / 1000)) RA pA ws 23 (gn_start (dflt (1 / 1000)) RA pA ws p) = Some g.
Proof. exact (dflt_passes solve RA pA ws p). Qed.
Example C38_example : exists q, refine cramer reflect (dflt (1 / 1000)) ex_cs ex_obs 0 0 ex_P 23 = Ok (Some (Some (ex_P, q))) /\ vz ex_P <> 0 /\ 0 < fo_min (dflt (1 / 1000)) /\
  off_planes ex_ms (v3add (m3v (m3tr m3id) ex_P) (V3 0 0 0)).
Proof. exact refine_example. Qed.
Example C38_house : house reflect.
Proof. exact reflect_house. Qed.
