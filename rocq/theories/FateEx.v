(** A message that meets the hypotheses of C79 and C80. *)
From Coq Require Import Reals List Arith Lia Lra ZArith Bool Sorted Permutation.
From Verif Require Import RBool Outcome Lin GeoModel TypesModel StateModel StateSpec StateOps2 ReachModel ReachSpec StateReach StateFrame StateEx DbModel DbSpec
  ImuModel PropModel AnchorModel UpdModel UpdEx InitModel ZuptModel SelUpd SelModel SelSpec SelEx FateSpec FateRun.
Import ListNotations.
Open Scope R_scope.

Lemma fate_ex zo zc z pi lm : exists T g g' f, let E := exs_env zo zc in
  (forall id, en_single E id = false) /\ sorts (en_sort E) /\ ready E g [exs_m1 T; exs_m2 T] /\ msg_ok (exs_m1 T) /\
  message E g (exs_m1 T) (exs_fin pi lm) = Ok (g', [f]) /\ f_id f = 5%nat /\ landmarks (g_st g) = [7%nat] /\ z = g_z g /\
  landmarks (g_st g') = [7%nat] /\ g_fail g' 7%nat = 0%nat.
Proof.
  destruct ex_rich as (st0 & p & t & q & R0 & C0 & S0 & _ & _ & _ & O0).
  destruct (reach_progress _ _ (OTime (t + 1)) R0 I) as (st & E1 & R1). cbn [exec] in E1. injection E1 as <-. set (st := set_time st0 (t + 1)) in *.
  destruct (exs_first zo zc z pi lm st p t q (t + 1) R1 C0 S0 O0 eq_refl ltac:(lra)) as (g1 & f & Q1 & (Sm & _) & A1 & A2 & A3 & A4 & A5 & A6 & A7).
  exists (t + 1), (exs_mgr st [(5%nat, exu_feat 5 t)] z), g1, f. cbv zeta. split; [reflexivity|]. split; [apply isort_sorts|].
  split; [apply (exs_ready _ st p t q); auto; lra|]. split.
  { split; [repeat constructor; simpl; auto|]. intros id c u n [X|[]]. injection X as <- <- <- <-. simpl; auto. }
  split; [exact Q1|]. split; [exact Sm|]. split; [unfold landmarks; cbn; rewrite S0; reflexivity|]. split; [reflexivity|]. split; [unfold landmarks; rewrite A2; reflexivity|exact A7].
Qed.
