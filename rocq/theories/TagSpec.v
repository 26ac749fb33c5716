(** Specification of C78: how delayed initialization treats each track, and which noise belongs to a tag corner. *)
From Coq Require Import Reals List Arith ZArith Bool.
From Verif Require Import RBool Outcome Lin GeoModel TypesModel GivensModel StateModel DbModel DbSpec UpdModel UpdSpec.
Import ListNotations.
Open Scope R_scope.

(** the linear system handed to StateHelper::initialize: that of the track; of a single inverse depth the bearing is
    projected out and the depth column is what is left of the feature block *)
Definition init_eqs (sgl : bool) (l : linsys) (Hx Hf : dmat) (res : dvec) : Prop :=
  if sgl then
    exists F X, nullspace_project (but_last (ls_Hf l)) (append_cols (ls_Hx l) (last_col (ls_Hf l))) (ls_res l) = Ok (F, X, res) /\
      Hx = but_last X /\ Hf = last_col X
  else Hx = ls_Hx l /\ Hf = ls_Hf l /\ res = ls_res l.

(** The tracks are initialized one after the other, each linearized at the state its predecessors left, each with the
    noise and the gate that belong to its id; [track id f] says that [f] is the prepared track of [id].  A landmark is
    recorded exactly when initialize accepts it. *)
Inductive init_run (chi2q : nat -> R) (so : slam_opts) (single : nat -> bool) (lm_val : feature -> list R)
  (jac : state -> feature -> outcome linsys) (track : nat -> feature -> Prop) : state -> list nat -> state -> list nat -> Prop :=
| ir_nil st : init_run chi2q so single lm_val jac track st [] st []
| ir_step st id ids f l Hx Hf res sig mult (ok : bool) st1 st' kept :
    track id f -> jac st f = Ok l -> init_eqs (single id) l Hx Hf res -> slam_noise so st id sig mult ->
    initialize chi2q (set_next st (S (s_next st)))
      (TVec (mkVec (s_next st) None (if single id then 1%nat else 3%nat) (lm_val f) (lm_val f)))
      (map snd (ls_order l)) Hx Hf (DMat (dn res) (dn res) (mscal sig mid)) res mult = Ok (ok, st1) ->
    init_run chi2q so single lm_val jac track
      (if ok then set_slam st1 (s_slam st1 ++ [(id, (s_next st, false))]) else st1) ids st' kept ->
    init_run chi2q so single lm_val jac track st (id :: ids) st' (if ok then id :: kept else kept).

