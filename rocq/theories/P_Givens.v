(** Property theorems C14 - C15 (UpdaterHelper nullspace projection and measurement compression). *)
From Coq Require Import Reals List Arith Lia Lra.
From Verif Require Import RBool Outcome Lin GivensModel GivensSpec GivensProofs TypesModel StateModel StateSpec
  StateOps3 ReachModel ReachSpec StateThms StateEx.
Import ListNotations.
Open Scope R_scope.

(** ** C14 *)
(** N has orthonormal columns spanning exactly the left null space of H_f *)
Theorem C14_nullspace_projection : forall Hf Hx res Hf' Hx' res',
  nullspace_project Hf Hx res = Ok (Hf', Hx', res') ->
  let r := dr Hf in let k := dc Hf in let w := dc Hx in
  (k <= r)%nat /\ dr Hx' = (r - k)%nat /\ dc Hx' = w /\ dn res' = (r - k)%nat /\
  exists N, orthonormal_cols r (r - k) N /\
    meq (r - k) k (mmul r (mtr N) (dm Hf)) mzero /\
    meq (r - k) w (dm Hx') (mmul r (mtr N) (dm Hx)) /\
    veq (r - k) (dv res') (mvec r (mtr N) (dv res)) /\
    (full_col_rank r k (dm Hf) -> forall y, veq k (mvec r (mtr (dm Hf)) y) (fun _ => 0) ->
       exists z, veq r y (mvec (r - k) N z)).
Proof. exact nullspace_thm. Qed.
Print Assumptions C14_nullspace_projection.

(** white noise of variance s stays white with variance s; the true model residual loses only the feature *)
Theorem C14_noise_and_model : forall Hf Hx res Hf' Hx' res',
  nullspace_project Hf Hx res = Ok (Hf', Hx', res') ->
  let r := dr Hf in let k := dc Hf in let w := dc Hx in
  exists N, (forall s, meq (r - k) (r - k) (congr r (mtr N) (mscal s mid)) (mscal s mid)) /\
    forall x f n, veq r (dv res) (fun i => mvec w (dm Hx) x i + mvec k (dm Hf) f i + n i) ->
      veq (r - k) (dv res') (fun i => mvec w (dm Hx') x i + mvec r (mtr N) n i).
Proof. exact nullspace_model. Qed.
Print Assumptions C14_noise_and_model.

Theorem C14_returns : forall Hf Hx res, (dc Hf <= dr Hf)%nat -> dr Hx = dr Hf -> dn res = dr Hf ->
  exists p, nullspace_project Hf Hx res = Ok p.
Proof. exact nullspace_total. Qed.
Print Assumptions C14_returns.

Example C14_ex : exists p, nullspace_project (DMat 4 3 (fun i j => INR (1 + i * j))) (DMat 4 6 (fun i j => INR (i + j)))
  (DVec 4 (fun i => INR i)) = Ok p.
Proof. apply nullspace_total; simpl; lia. Qed.

(** ** C15 *)
Theorem C15_compression : forall Hx res Hx' res', measurement_compress Hx res = Ok (Hx', res') -> dn res = dr Hx ->
  dc Hx' = dc Hx /\ dn res' = dr Hx' /\ (dr Hx' <= dr Hx)%nat /\ ((dr Hx <= dc Hx)%nat -> Hx' = Hx /\ res' = res) /\
  (dr Hx' <= dc Hx)%nat /\
  (exists N, orthonormal_cols (dr Hx) (dr Hx') N /\
     meq (dr Hx') (dc Hx) (dm Hx') (mmul (dr Hx) (mtr N) (dm Hx)) /\
     veq (dr Hx') (dv res') (mvec (dr Hx) (mtr N) (dv res))) /\
  meq (dc Hx) (dc Hx) (mmul (dr Hx') (mtr (dm Hx')) (dm Hx')) (mmul (dr Hx) (mtr (dm Hx)) (dm Hx)) /\
  veq (dc Hx) (mvec (dr Hx') (mtr (dm Hx')) (dv res')) (mvec (dr Hx) (mtr (dm Hx)) (dv res)).
Proof. exact compress_thm. Qed.
Print Assumptions C15_compression.

(** updating with the compressed measurement gives the same state as with the full one *)
Theorem C15_same_posterior : forall chi2q st order H res H' res' s, reach chi2q st ->
  in_cov (s_dim st) order -> dc H = length (indices order) -> dr H = dn res -> 0 < s ->
  measurement_compress H res = Ok (H', res') ->
  exists st1 st2,
    EKFUpdate st order H res (DMat (dr H) (dr H) (mscal s mid)) = Ok st1 /\
    EKFUpdate st order H' res' (DMat (dr H') (dr H') (mscal s mid)) = Ok st2 /\
    s_vars st1 = s_vars st2 /\ s_dim st1 = s_dim st2 /\
    meq (s_dim st1) (s_dim st1) (s_cov st1) (s_cov st2).
Proof. exact compressed_update. Qed.
Print Assumptions C15_same_posterior.

Theorem C15_returns : forall Hx res, dn res = dr Hx -> exists p, measurement_compress Hx res = Ok p.
Proof. exact compress_total. Qed.
Print Assumptions C15_returns.

Example C15_ex : exists st H' res', reach ex_chi2 st /\ in_cov (s_dim st) [(Some 3%nat, 3%nat)] /\
  measurement_compress (DMat 5 3 (fun i j => INR (i + 2 * j))) (DVec 5 (fun i => INR i)) = Ok (H', res') /\ dr H' = 3%nat.
Proof.
  destruct ex_rich as (st & p & t & q & A & _ & _ & D & _).
  destruct (compress_total (DMat 5 3 (fun i j => INR (i + 2 * j))) (DVec 5 (fun i => INR i)) eq_refl) as ([H' res'] & E).
  exists st, H', res'. split; [exact A|]. split; [incov|]. split; [exact E|].
  destruct (compress_full _ _ _ _ E) as [_ B]. apply B. simpl. lia.
Qed.
