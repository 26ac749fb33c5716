(** The loop of VioManager.cpp 536-548 as a transition system: one pass of its body per step. *)
From Coq Require Import Reals List ZArith Bool.
From Verif Require Import RBool Outcome GeoModel Lin GivensModel TypesModel StateModel DbModel FeatModel HelpModel UpdModel SelModel.
Import ListNotations.

(** feats_slam_UPDATE, the state and the feature database [VioManager.cpp 536] *)
Record loop := mkLoop { lp_ids : list nat; lp_st : state; lp_db : db }.
(** VioManager.cpp 536: the condition of the loop *)
Definition loop_done (c : loop) : Prop := lp_ids c = [].
(** VioManager.cpp 538-547: the body, for a batch size that is not negative (an iterator before begin() otherwise) *)
Definition loop_body (E : env) (jac : state -> feature -> outcome linsys) (c : loop) : outcome loop :=
  let k := Z.to_nat (Z.min (se_batch (en_opt E)) (Z.of_nat (length (lp_ids c)))) in
  guard (0 <=? se_batch (en_opt E))%Z UB
    (do r <- slam_update (en_chi2 E) (en_so E) (en_single E) jac (lp_st c) (lp_db c) (firstn k (lp_ids c));
     let '(st, d, used, fails) := r in Ok (mkLoop (skipn k (lp_ids c)) st d)).
(** VioManager.cpp 536-548 *)
Definition loop_step E jac (c c' : loop) : Prop := ~ loop_done c /\ loop_body E jac c = Ok c'.
