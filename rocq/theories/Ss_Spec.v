(** What the subspace recipe is meant to compute: the epochs one after the
    other, the state of Adam going from each one to the next, without any
    file. *)
From Coq Require Import List Arith.
From Verif Require Import Ss_Model.
Import ListNotations.
Local Open Scope nat_scope.

Section Spec.
  Context {M G P A T V : Type}.
  Variable acc : M -> A.
  Variable upd : M -> A -> option M.
  Variable train : nat -> nat -> option V -> G -> P -> M -> option (G * P * M * V).
  Variable budget : nat -> nat.
  Variables (m0 : M) (g0 : G) (q0 : P).

  Record epoch : Type := Epoch { ep_m : M; ep_g : G; ep_q : P; ep_v : option V }.

  (** What the epoch i leaves, if the epochs up to i do not fail *)
  Fixpoint ideal (i : nat) : option epoch :=
    match i with
    | 0 => Some (Epoch m0 g0 q0 None)
    | S i' =>
        match ideal i' with
        | None => None
        | Some x =>
            match upd (ep_m x) (acc (ep_m x)) with
            | None => None
            | Some m1 =>
                match train i (budget i) (ep_v x) (ep_g x) (ep_q x) m1 with
                | None => None
                | Some (g, q, m, v) => Some (Epoch m g q (Some v))
                end
            end
        end
    end.
End Spec.
Arguments epoch : clear implicits.

Section Kills.
  Context {M G P A T V : Type}.
  Variable acc : M -> A.
  Variable upd : option T -> M -> A -> option (M * T).
  Variable train : nat -> nat -> option V -> G -> P -> M -> option (G * P * M * V).
  Variables (n ge sm : nat).

  (** A kill between E.mdl and gsm_optim_state.pth, except for the last epoch,
      or between final.mdl and the two other final files, is excluded *)
  Definition harmless (p : pc M P T V) : Prop :=
    match p with
    | PGSave e _ => e = n
    | PFin2 _ | PFin3 _ => False
    | _ => True
    end.
  Fixpoint harmless_kills (l : list nat) (s : sdir M G P A T V) : Prop :=
    match l with
    | [] => True
    | k :: l' => harmless (fst (steps acc upd train n ge sm k (start n s, s))) /\ harmless_kills l' (run acc upd train n ge sm k s)
    end.
End Kills.
