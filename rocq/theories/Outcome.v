(** Outcomes of modelled C++ functions.

    [Ok a]   normal return with result [a];
    [Exit]   [std::exit(EXIT_FAILURE)] (process terminates);
    [UB]     undefined behaviour / failed [assert] / Eigen index assertion.   *)
From Coq Require Import List.
Import ListNotations.

Inductive outcome (A : Type) : Type :=
| Ok (a : A)
| Exit
| UB.
Arguments Ok {A} a.
Arguments Exit {A}.
Arguments UB {A}.

Definition obind {A B : Type} (x : outcome A) (f : A -> outcome B) : outcome B :=
  match x with Ok a => f a | Exit => Exit | UB => UB end.

Declare Scope outcome_scope.
Notation "'do' x <- e ; f" := (obind e (fun x => f))
  (at level 200, x name, e at level 100, f at level 200, right associativity) : outcome_scope.
Open Scope outcome_scope.

(** [guard b e k]: continue with [k] when [b], otherwise stop with outcome [e]. *)
Definition guard {A : Type} (b : bool) (e : outcome A) (k : outcome A) : outcome A :=
  if b then k else e.

Lemma obind_ok {A B} (x : outcome A) (f : A -> outcome B) b :
  obind x f = Ok b -> exists a, x = Ok a /\ f a = Ok b.
Proof. destruct x as [a| |]; simpl; intros H; try discriminate; eauto. Qed.

Lemma guard_ok {A} (b : bool) (e k : outcome A) r :
  e <> Ok r -> guard b e k = Ok r -> b = true /\ k = Ok r.
Proof. destruct b; simpl; intros He H; [auto|contradiction]. Qed.

Fixpoint ofold {A S : Type} (f : S -> A -> outcome S) (l : list A) (s : S) : outcome S :=
  match l with
  | [] => Ok s
  | a :: l' => obind (f s a) (ofold f l')
  end.
