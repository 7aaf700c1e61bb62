(** What is left of the initial error after steps with these learning rates. *)
From Coq Require Import Reals List.
Local Open Scope R_scope.

Definition left_over (rates : list R) : R := fold_right (fun r a => (1 - r) * a) 1 rates.
