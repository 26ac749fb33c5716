(** Which stretches of the IMU clock a run of a Propagator uses. *)
From Coq Require Import Reals List Arith Bool.
From Verif Require Import Outcome GeoModel Lin ImuModel ImuSpec PropModel FastModel.
Import ListNotations.
Open Scope R_scope.

(** the readings [pi_l] of the buffer [pi_data] between two instants of the IMU clock *)
Record piece := mkPi { pi_a : R; pi_b : R; pi_data : list imu; pi_l : list imu }.
Section Runs.
Context {St : Type}.
Variables (ns : noises) (g : v3) (view : St -> fview) (prop : St -> list imu -> R -> outcome St).
Definition is_propagate (c : call St) : Prop := exists t, c = Propagate t.
(** the calls [cs] lead from [so] to [so'], and the state is advanced exactly by the pieces [H], in order *)
Inductive history : St * propobj -> list (call St) -> list piece -> St * propobj -> Prop :=
| hi_end so : history so [] [] so
| hi_other so so' so'' c cs H out : ~ is_propagate c -> do_call ns g view prop so c = Ok (so', out) -> history so' cs H so'' -> history so (c :: cs) H so''
| hi_prop s o s' o' so'' t cs H out a b l : do_call ns g view prop (s, o) (Propagate t) = Ok ((s', o'), out) ->
    select_imu_readings (pr_data o) a b = Ok l -> prop s l t = Ok s' -> b = t + fv_toff (view s) -> history (s', o') cs H so'' ->
    history (s, o) (Propagate t :: cs) (mkPi a b (pr_data o) l :: H) so''.
(** updates of the state leave its time alone *)
Definition keeps_time (c : call St) : Prop := match c with Change f => forall s, fv_time (view (f s)) = fv_time (view s) | _ => True end.
End Runs.
(** from [a] to [b] without gap and overlap *)
Inductive adjoin : R -> list piece -> R -> Prop :=
| ad_nil a : adjoin a [] a
| ad_cons p H b : adjoin (pi_b p) H b -> adjoin (pi_a p) (p :: H) b.
(** the buffer reaches over the piece, with readings at least a picosecond apart *)
Definition covered (p : piece) : Prop := chrono (pi_data p) /\ pi_a p < pi_b p /\ covers (pi_data p) (pi_a p) (pi_b p) /\
  exists r0 r1, i_t r0 = pi_a p /\ i_t r1 = pi_b p /\ spaced (1 / 10 ^ 12) (r0 :: inside (pi_a p) (pi_b p) (pi_data p) ++ [r1]).
(** total duration integrated *)
Fixpoint used (H : list piece) : R := match H with [] => 0 | p :: H' => durations (pi_l p) + used H' end.
