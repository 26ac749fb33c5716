(** Proofs about the stretches of the IMU clock used by a Propagator. *)
From Coq Require Import Reals List Arith Bool Lia Lra.
From Verif Require Import RBool Outcome GeoModel Lin ImuModel ImuSpec PropModel FastModel FastSpec FastThms AdjSpec P_Fast.
Import ListNotations.
Open Scope R_scope.

Section Adj.
Context {St : Type}.
Variables (ns : noises) (g : v3) (view : St -> fview) (prop : St -> list imu -> R -> outcome St).
Hypothesis PT : forall s l t s', prop s l t = Ok s' -> fv_time (view s') = t.
Notation dc := (do_call ns g view prop).
Lemma prop_call s o t s' o' out : dc (s, o) (Propagate t) = Ok ((s', o'), out) ->
  exists l, select_imu_readings (pr_data o) (fv_time (view s) + if pr_have o then pr_last o else fv_toff (view s)) (t + fv_toff (view s)) = Ok l /\
    prop s l t = Ok s' /\ pr_have o' = true /\ pr_last o' = fv_toff (view s) /\ fv_time (view s') = t /\ fv_time (view s) < t.
Proof.
  cbn [do_call]. unfold do_propagate. destruct (Reqb_spec (fv_time (view s)) t); [discriminate|]. destruct (Rltb_spec t (fv_time (view s))); [discriminate|]. cbv zeta.
  replace (fv_time (view s) + (if pr_have o then pr_last o else fv_toff (view s))) with (fv_time (view s) + if pr_have o then pr_last o else fv_toff (view s)) by reflexivity.
  destruct (select_imu_readings _ _ _) as [l| |] eqn:L; try discriminate. cbn [obind]. destruct (prop s l t) as [s1| |] eqn:P; try discriminate. cbn [obind fst snd]. intros E. injection E as <- <- _.
  exists l. repeat split; auto; [eapply PT; eauto|lra].
Qed.
Lemma other_call s o c s' o' out : ~ is_propagate c -> keeps_time view c -> dc (s, o) c = Ok ((s', o'), out) -> pr_have o' = pr_have o /\ pr_last o' = pr_last o /\ fv_time (view s') = fv_time (view s).
Proof.
  intros N K E. destruct c as [m old|t|f| |t]; cbn [do_call] in E.
  - injection E as <- <- _. auto.
  - exfalso. apply N. eexists. reflexivity.
  - injection E as <- <- _. auto.
  - injection E as <- <- _. auto.
  - destruct (fast_query _ _ _ _ _ _) as [r| |]; try discriminate. cbn [obind] in E. injection E as <- <- _. auto.
Qed.
Lemma call_dec (c : call St) : is_propagate c \/ ~ is_propagate c.
Proof. destruct c as [m old|t|f| |t]; [right; intros (u & K); discriminate K|left; eexists; reflexivity|right; intros (u & K); discriminate K|right; intros (u & K); discriminate K|right; intros (u & K); discriminate K]. Qed.
Lemma adjoin_run cs : forall s o s' o' outs, Forall (keeps_time view) cs -> (pr_have o = true \/ exists t cs', cs = Propagate t :: cs') -> run_calls ns g view prop (s, o) cs = Ok ((s', o'), outs) ->
  exists H, history ns g view prop (s, o) cs H (s', o') /\ adjoin (fv_time (view s) + if pr_have o then pr_last o else fv_toff (view s)) H (fv_time (view s') + pr_last o') /\
    length H = length (filter (fun c => match c with Propagate _ => true | _ => false end) cs).
Proof.
  induction cs as [|c cs IH]; intros s o s' o' outs K HV E.
  - cbn in E. injection E as <- <- _. exists []. split; [constructor|]. destruct HV as [->|(t & cs' & D)]; [split; [constructor|reflexivity]|discriminate].
  - cbn [run_calls] in E. destruct (dc (s, o) c) as [[[s1 o1] out]| |] eqn:C; try discriminate. cbn [obind fst snd] in E.
    destruct (run_calls ns g view prop (s1, o1) cs) as [[[s2 o2] outs2]| |] eqn:RN; try discriminate. cbn [obind fst snd] in E. injection E as <- <- _.
    inversion K as [|? ? K1 K2]; subst. destruct (call_dec c) as [(t & ->)|N].
    + destruct (prop_call _ _ _ _ _ _ C) as (l & SL & PR & HV1 & LA & TM & _). destruct (IH s1 o1 s2 o2 outs2 K2 (or_introl HV1) RN) as (H & HH & AD & LN). rewrite HV1, TM, LA in AD.
      eexists (mkPi _ _ (pr_data o) l :: H). split; [eapply hi_prop; eauto|]. split; [apply (ad_cons (mkPi (fv_time (view s) + if pr_have o then pr_last o else fv_toff (view s)) (t + fv_toff (view s)) (pr_data o) l)); exact AD|].
      cbn [filter length]. rewrite LN. reflexivity.
    + destruct (other_call _ _ _ _ _ _ N K1 C) as (A & B & D). assert (HO : pr_have o = true) by (destruct HV as [HV|(t & cs' & D')]; [exact HV|exfalso; apply N; exists t; congruence]).
      destruct (IH s1 o1 s2 o2 outs2 K2 (or_introl (eq_trans A HO)) RN) as (H & HH & AD & LN). rewrite A, B, D, HO in AD. rewrite HO. exists H. split; [eapply hi_other; eauto|]. split; [exact AD|].
      rewrite LN. destruct c; try reflexivity. exfalso. apply N. eexists. reflexivity.
Qed.
Lemma used_adjoin so cs H so' : history ns g view prop so cs H so' -> forall a b, adjoin a H b -> Forall covered H -> used H = b - a.
Proof.
  induction 1 as [so|so so' so'' c cs H out N C _ IH|s o s' o' so'' t cs H out a b l C SL PR EB _ IH]; intros x y AD CV.
  - inversion AD; subst. cbn. lra.
  - auto.
  - inversion AD as [|p H' y' AD']; subst. cbn [pi_a pi_b] in AD' |- *. inversion CV as [|? ? (CH & LT & CO & SP) CV']; subst. cbn [pi_a pi_b pi_data] in CH, LT, CO, SP.
    cbn [used pi_l]. rewrite (IH _ _ AD' CV'). destruct (C58_interval _ _ _ CH LT CO SP) as (l' & SL' & _ & _ & _ & _ & DU). rewrite SL in SL'. injection SL' as <-. rewrite DU. lra.
Qed.
End Adj.
Lemma total_run {St} ns g (view : St -> fview) (prop : St -> list imu -> R -> outcome St) cs s o s' o' outs : (forall s l t s', prop s l t = Ok s' -> fv_time (view s') = t) ->
  Forall (keeps_time view) cs -> (pr_have o = true \/ exists t cs', cs = Propagate t :: cs') -> run_calls ns g view prop (s, o) cs = Ok ((s', o'), outs) ->
  exists H, history ns g view prop (s, o) cs H (s', o') /\ (Forall covered H -> used H = (fv_time (view s') + pr_last o') - (fv_time (view s) + if pr_have o then pr_last o else fv_toff (view s))).
Proof. intros PT K HV E. destruct (adjoin_run ns g view prop PT cs s o s' o' outs K HV E) as (H & HH & AD & _). exists H. split; [exact HH|]. intros CV. eapply used_adjoin; eauto. Qed.

(** ** a change that moves the time, as a zero velocity update does *)
(** a state of a time, a clock offset and the readings it was advanced with *)
Definition book := (R * R * list (list imu))%type.
Definition bview (s : book) : fview := mkView (fst (fst s)) (snd (fst s)) (rest (default_dw KALIBR)) mzero.
Definition bprop (s : book) (l : list imu) (t : R) : outcome book := Ok (t, snd (fst s), snd s ++ [l]).
Definition set_offset (d : R) (s : book) : book := (fst (fst s), d, snd s).
Definition set_time (t : R) (s : book) : book := (t, snd (fst s), snd s).
Definition fresh_prop (c : cache) : propobj := mkProp (still4 ++ [still 4]) 0 false c.
Lemma bprop_time : forall s l t s', bprop s l t = Ok s' -> fv_time (bview s') = t.
Proof. intros s l t s' E. injection E as <-. reflexivity. Qed.
Ltac rd := repeat match goal with
  | |- context [Rltb ?a ?b] => destruct (Rltb_spec a b); try (exfalso; lra)
  end.
Lemma still5_chrono : chrono (still4 ++ [still 4]).
Proof. cbn. repeat split; intros b I; repeat (destruct I as [<-|I]; [cbn; lra|]); destruct I. Qed.
Definition start0 : book := (0, 0, []).
Definition turn_calls : list (call book) := [Propagate 1; Change (set_offset (1 / 100)); Propagate 2].
Lemma turn_runs c : exists s' o' outs, run_calls unit_noise v3zero bview bprop (start0, fresh_prop c) turn_calls = Ok ((s', o'), outs) /\ fv_time (bview s') = 2 /\ pr_last o' = 1 / 100.
Proof.
  cbn [run_calls turn_calls do_call]. unfold do_propagate at 1. cbn [bview start0 fv_time fv_toff fst snd fresh_prop pr_have pr_data pr_last].
  destruct (Reqb_spec 0 1); [lra|]. rd. cbv zeta. destruct (select_ok (still4 ++ [still 4]) (0 + 0) (1 + 0)) as [l1 ->]. cbn [obind bprop fst snd start0 do_call]. unfold set_offset; cbn [fst snd app].
  unfold do_propagate. cbn [bview fv_time fv_toff fst snd pr_have pr_data pr_last]. destruct (Reqb_spec 1 2); [lra|]. rd. cbv zeta.
  destruct (select_ok (still4 ++ [still 4]) (1 + 0) (2 + 1 / 100)) as [l2 ->]. cbn [obind bprop fst snd].
  eexists _, _, _. split; [reflexivity|]. split; reflexivity.
Qed.
Lemma turn_keeps : Forall (keeps_time bview) turn_calls.
Proof. repeat constructor. Qed.
Definition zv_calls : list (call book) := [Propagate 1; Change (set_offset (1 / 100)); Change (set_time 2)].
Lemma zv_stale c : exists s2 o2 s3 o3 l1 l2 outs, run_calls unit_noise v3zero bview bprop (start0, fresh_prop c) zv_calls = Ok ((s2, o2), outs) /\
  do_call unit_noise v3zero bview bprop (s2, o2) (Propagate 3) = Ok ((s3, o3), None) /\ snd s3 = [l1; l2] /\
  first_at l2 2 /\ fv_time (bview s2) + fv_toff (bview s2) = 2 + 1 / 100.
Proof.
  cbn [run_calls zv_calls do_call]. unfold do_propagate at 1. cbn [bview start0 fv_time fv_toff fst snd fresh_prop pr_have pr_data pr_last].
  destruct (Reqb_spec 0 1); [lra|]. rd. cbv zeta. destruct (select_ok (still4 ++ [still 4]) (0 + 0) (1 + 0)) as [l1 ->]. cbn [obind bprop fst snd start0 do_call]. unfold set_time, set_offset; cbn [fst snd app].
  assert (CO : covers (still4 ++ [still 4]) (2 + 0) (3 + 1 / 100)).
  { split; [exists (still 0)|exists (still 4)]; (split; [cbn; tauto|cbn; lra]). }
  assert (SP : exists r0 r1, i_t r0 = 2 + 0 /\ i_t r1 = 3 + 1 / 100 /\ spaced (1 / 10 ^ 12) (r0 :: inside (2 + 0) (3 + 1 / 100) (still4 ++ [still 4]) ++ [r1])).
  { exists (still (2 + 0)), (still (3 + 1 / 100)). split; [reflexivity|]. split; [reflexivity|]. unfold inside, still4. cbn [app filter still i_t]. rd. cbn [andb app spaced i_t]. repeat split; unfold still; cbn [i_t]; lra. }
  destruct (C58_interval _ (2 + 0) (3 + 1 / 100) still5_chrono ltac:(lra) CO SP) as (l2 & SL & (a & l' & E & T) & _).
  eexists _, _, _, _, l1, l2, _. split; [reflexivity|]. unfold do_propagate. cbn [bview fv_time fv_toff fst snd pr_have pr_data pr_last].
  destruct (Reqb_spec 2 3); [lra|]. rd. cbv zeta. rewrite SL. cbn [obind bprop fst snd].
  split; [reflexivity|]. split; [reflexivity|]. split; [exists a, l'; split; [exact E|lra]|lra].
Qed.
