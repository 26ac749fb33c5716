(** What C96 means. *)
From Coq Require Import Reals List.
Import ListNotations.
Open Scope R_scope.
(** standard deviations of the start: orientation, position, velocity, the two biases *)
Definition gt_sigma : list R := repeat (17 / 1000) 3 ++ repeat (5 / 100) 3 ++ repeat (1 / 100) 3 ++ repeat (2 / 100) 3 ++ repeat (2 / 100) 3.
