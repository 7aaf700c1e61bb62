(** What the training loop of a recipe should compute: rounds of accumulation
    over the shares of the list, each followed by an update. *)
From Coq Require Import List Arith Bool Ascii.
From Verif Require Import Prelude.
Import ListNotations.

Section Spec.
  Context {M A U : Type}.
  Variables (acc : M -> list U -> option A) (upd : M -> list A -> option M).
  Variable shares : list (list U).

  Fixpoint all_of {B} (l : list (option B)) : option (list B) :=
    match l with
    | [] => Some []
    | Some x :: l' => match all_of l' with Some t => Some (x :: t) | None => None end
    | None :: _ => None
    end.

  Definition round (m : M) : option M :=
    match all_of (map (acc m) shares) with Some l => upd m l | None => None end.

  Fixpoint after_rounds (m0 : M) (e : nat) : option M :=
    match e with
    | 0 => Some m0
    | S e' => match after_rounds m0 e' with Some m => round m | None => None end
    end.
End Spec.
