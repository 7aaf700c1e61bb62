(** Variational training of a phone-loop: Vt_Model with the weights of the
    phones, whose update rewrites the transitions of the graph.

    - The weights are a Categorical with a Dirichlet prior (PhoneLoop.create,
      phoneloop.py:34-37).
    - The graph of the loop is modified in place by the callback of the weights
      (phoneloop.py:53-65): its transitions are part of the state.
    - An utterance is trained on the graph of the loop or on an alignment graph
      given with it (phoneloop.py:88-99: no count of phones then). *)
From Coq Require Import Reals List Arith Bool.
From Verif Require Import Prelude Vec Lgamma FB_Model Edit_Model Dec_Model Set_Model
  HMM_Model Dist_Model Mat NW_Model Vt_Model.
Import ListNotations.
Local Open Scope R_scope.

(** phoneloop.py:42-50: the name of the parameter of the weights, the compiled
    graph and its mapping to the emissions, start_pdf and end_pdf *)
Record ploop : Type := {
  pl_weights : nat;
  pl_graph : cgraph;
  pl_order : list nat;
  pl_starts : list nat;
  pl_ends : list nat
}.

Definition with_trans (g : cgraph) (tr : nat -> nat -> lp) : cgraph :=
  {| cg_n := cg_n g; cg_init := cg_init g; cg_trans := tr; cg_final := cg_final g |}.

Record lstate : Type := { ls_pars : state; ls_trans : nat -> nat -> lp }.

Record lutt : Type := { lu_ali : option (cgraph * list nat); lu_stats : mat }.

(** hmm.py:76-79 *)
Definition lu_utt (l : ploop) (tr : nat -> nat -> lp) (x : lutt) : utt :=
  match lu_ali x with
  | None => {| u_graph := with_trans (pl_graph l) tr; u_order := pl_order l; u_own := true; u_stats := lu_stats x |}
  | Some (g, order) => {| u_graph := g; u_order := order; u_own := false; u_stats := lu_stats x |}
  end.

(** phoneloop.py:80-101 *)
Definition loop_acc (amax : nat -> (nat -> lp) -> nat) (scale : R) (l : ploop) (m : mset)
  (tr : nat -> nat -> lp) (x : lutt) : option sdict :=
  let u := lu_utt l tr x in
  match hmm_ellh amax m (u_graph u) (u_order u) (u_own u) Soft scale (u_stats u) with
  | Ok (_, c) => phoneloop_accumulate (pl_weights l) m (cg_n (u_graph u)) (u_order u)
                   (pl_starts l) (pl_ends l) c (u_stats u)
  | Err _ => None
  end.

(** phoneloop.py:54-59 *)
Definition log_weights (l : ploop) (st : state) : list R :=
  mixture_log_weights (nth 0 (forms st (pl_weights l)) []).

(** phoneloop.py:49-50: the creation of the loop *)
Definition loop_init (l : ploop) (st : state) : lstate :=
  {| ls_pars := st;
     ls_trans := on_weights_update (log_weights l st) (pl_starts l) (pl_ends l) (cg_trans (pl_graph l)) |}.

(** One step of training; the callback is called when the weights are updated. *)
Definition loop_step (amax : nat -> (nat -> lp) -> nat) (scale w lrate : R) (group : list nat)
  (l : ploop) (skel : mset) (utts : list lutt) (s : lstate) : option lstate :=
  match all_some (map (loop_acc amax scale l (inst (forms (ls_pars s)) skel) (ls_trans s)) utts) with
  | Some Ds =>
      let st' := apply_step w lrate group Ds (ls_pars s) in
      Some {| ls_pars := st';
              ls_trans := if existsb (Nat.eqb (pl_weights l)) group
                          then on_weights_update (log_weights l st') (pl_starts l) (pl_ends l) (ls_trans s)
                          else ls_trans s |}
  | None => None
  end.

Fixpoint loop_train (amax : nat -> (nat -> lp) -> nat) (scale w : R) (steps : list (R * list nat))
  (l : ploop) (skel : mset) (utts : list lutt) (s : lstate) : option lstate :=
  match steps with
  | [] => Some s
  | (lrate, group) :: t =>
      match loop_step amax scale w lrate group l skel utts s with
      | Some s' => loop_train amax scale w t l skel utts s'
      | None => None
      end
  end.
