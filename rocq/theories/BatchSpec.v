(** What the sequential landmark update should do. *)
From Coq Require Import List ZArith Relations.
From Verif Require Import Outcome StateModel DbModel FeatModel HelpModel UpdModel SelModel BatchModel.
Import ListNotations.

(** the list cut into pieces of [k], the last one possibly shorter *)
Definition cut_into {A} (k : nat) (ids : list A) (bs : list (list A)) : Prop :=
  concat bs = ids /\ (forall b, In b bs -> (1 <= length b <= k)%nat) /\ forall l1 b c l2, bs = l1 ++ b :: c :: l2 -> length b = k.
(** one update per piece, in this order *)
Inductive in_turn (E : env) (jac : state -> feature -> outcome linsys) : list (list nat) -> state -> db -> state -> db -> Prop :=
| it_nil st d : in_turn E jac [] st d st d
| it_cons b bs st d st1 d1 used fails st2 d2 :
    slam_update (en_chi2 E) (en_so E) (en_single E) jac st d b = Ok (st1, d1, used, fails) ->
    in_turn E jac bs st1 d1 st2 d2 -> in_turn E jac (b :: bs) st d st2 d2.
Definition loop_runs E jac := clos_refl_trans_1n loop (loop_step E jac).
