(** Property C107: the sequential landmark update. *)
From Coq Require Import Reals List ZArith Bool Lia.
From Verif Require Import RBool Outcome GeoModel Lin GivensModel TypesModel StateModel DbModel FeatModel HelpModel UpdModel SelModel BatchModel BatchSpec BatchThms UpdEx SelEx StateEx InitModel ZuptModel PropModel.
Import ListNotations.

(** C107: with a positive max_slam_in_update the loop ends whatever the updates do *)
Theorem C107_terminates : forall E jac, (1 <= se_batch (en_opt E))%Z -> forall c, Acc (fun a b => loop_step E jac b a) c.
Proof. exact loop_wf. Qed.
Print Assumptions C107_terminates.
(** it is one update for each piece of the list cut into pieces of that size, each landmark once and in order *)
Theorem C107_batches : forall E jac fuel ids st d st' d', (1 <= se_batch (en_opt E))%Z -> (length ids <= fuel)%nat ->
  ((exists uses fails, slam_batches E jac fuel ids st d = Ok (st', d', uses, fails)) <->
   exists bs, cut_into (Z.to_nat (se_batch (en_opt E))) ids bs /\ in_turn E jac bs st d st' d').
Proof. exact batches_iff. Qed.
Print Assumptions C107_batches.
Theorem C107_loop : forall E jac c c', (1 <= se_batch (en_opt E))%Z -> loop_runs E jac c c' -> loop_done c' ->
  exists bs, cut_into (Z.to_nat (se_batch (en_opt E))) (lp_ids c) bs /\ in_turn E jac bs (lp_st c) (lp_db c) (lp_st c') (lp_db c').
Proof. intros E jac c c' B. exact (run_in_turn E jac B c c'). Qed.
Print Assumptions C107_loop.
(** the pieces are determined *)
Theorem C107_pieces_unique : forall k, (1 <= k)%nat -> forall (bs bs' : list (list nat)) ids, cut_into k ids bs -> cut_into k ids bs' -> bs = bs'.
Proof. exact (@cut_unique nat). Qed.
Print Assumptions C107_pieces_unique.
Example C107_ex : cut_into 2 [4; 5; 6; 7; 8]%nat [[4; 5]; [6; 7]; [8]]%nat.
Proof.
  split; [reflexivity|]. split; [intros b [<-|[<-|[<-|[]]]]; simpl; lia|].
  intros l1 b c l2 E. destruct l1 as [|x [|y [|z l1]]]; injection E; intros; subst; auto; [destruct l2; discriminate|]. destruct l1; discriminate.
Qed.

(** a size of zero, which the options accept: the loop never ends, for any state and database *)
Theorem C107_zero_refuted : forall (zo : zopts) (zc : state -> pst * R) st d, exists E ids, se_batch (en_opt E) = 0%Z /\ ids <> [] /\
  loop_step E exu_jac (mkLoop ids st d) (mkLoop ids st d) /\ forall c, loop_runs E exu_jac (mkLoop ids st d) c -> ~ loop_done c.
Proof.
  intros zo zc st d. exists (mkEnv0 ex_chi2 1 1 exu_so (fun _ => false) zo zc isort (fun _ => false) (mkSel 10 10 0 0 0 false false)), [7%nat].
  set (E := mkEnv0 _ _ _ _ _ _ _ _ _ _). assert (N : ~ loop_done (mkLoop [7%nat] st d)) by discriminate.
  destruct (zero_stuck E exu_jac _ eq_refl N) as (A & B). do 2 (split; [auto; discriminate|]). split; auto. intros c R. rewrite (B c R). exact N.
Qed.
Print Assumptions C107_zero_refuted.
(** a negative size is an iterator before the first element *)
Theorem C107_negative_refuted : forall (zo : zopts) (zc : state -> pst * R) c, exists E, (se_batch (en_opt E) < 0)%Z /\ loop_body E exu_jac c = UB.
Proof.
  intros zo zc c. exists (mkEnv0 ex_chi2 1 1 exu_so (fun _ => false) zo zc isort (fun _ => false) (mkSel 10 10 (-1) 0 0 false false)).
  split; [reflexivity|]. apply negative_ub. reflexivity.
Qed.
Print Assumptions C107_negative_refuted.
