(** Model of the creation of a neural network from its description:
    /repo/beer/nnet/neuralnetwork.py (create_nnet_element, create_nnet_block,
    create and the forward methods), with the tensors in a memory, since some
    modules return their argument or write into it.

    - A tensor is an address of the memory; its shape is left out, its value is
      the list of its numbers.
    - torch.nn is a registry: for a name of the module, a function building the
      layer from the evaluated keyword arguments; ast.literal_eval is an
      argument. *)
From Coq Require Import Reals String Ascii List Arith Bool.
From Verif Require Import Prelude Vec Nn_Model.
Import ListNotations.
Local Open Scope nat_scope.

Notation vec := (list R).
Notation mem := (list (list R)).

Definition load (m : mem) (a : nat) : vec := nth a m [].
Definition alloc (m : mem) (v : vec) : nat * mem := (length m, m ++ [v]).
Fixpoint store (m : mem) (a : nat) (v : vec) : mem :=
  match m, a with
  | [], _ => []
  | _ :: m', 0 => v :: m'
  | w :: m', S a' => w :: store m' a' v
  end.

(** A layer returns a new tensor, writes its result into its argument (the
    modules with inplace=True), or returns its argument: IdentityLayer
    (neuralnetwork.py:31-35) and ReshapeLayer (10-21, a view of the same
    numbers).  TransposeLayer (24-28) returns a new tensor. *)
Inductive layer : Type :=
| Fresh (f : vec -> vec)
| InPlace (f : vec -> vec)
| Same
| Merge (ts : list layer).

(** neuralnetwork.py:54-67: the sum is written into the output of the first
    transform; there are as many terms as inputs. *)
Fixpoint forward (l : layer) (inputs : list nat) (m : mem) {struct l} : nat * mem :=
  let x := hd 0 inputs in
  match l with
  | Fresh f => alloc m (f (load m x))
  | InPlace f => (x, store m x (f (load m x)))
  | Same => (x, m)
  | Merge ts =>
      match ts with
      | [] => (x, m)
      | t :: ts' =>
          let (r, m1) := forward t [x] m in
          (r, (fix go (ts : list layer) (ins : list nat) (m : mem) {struct ts} : mem :=
                 match ts, ins with
                 | t :: ts', i :: ins' =>
                     let (y, m2) := forward t [i] m in
                     go ts' ins' (store m2 r (vadd (load m2 r) (load m2 y)))
                 | _, _ => m
                 end) ts' (tl inputs) m1)
      end
  end.

(** torch.nn.Sequential *)
Fixpoint sequential (ls : list layer) (x : nat) (m : mem) : nat * mem :=
  match ls with
  | [] => (x, m)
  | l :: ls' => let (y, m') := forward l [x] m in sequential ls' y m'
  end.

Record block : Type := { b_structure : list layer; b_residual : option layer }.

(** neuralnetwork.py:38-51 *)
Definition block_fwd (b : block) (x : nat) (m : mem) : nat * mem :=
  let (h, m1) := sequential (b_structure b) x m in
  match b_residual b with
  | None => (h, m1)
  | Some r => let (y, m2) := forward r [x] m1 in alloc m2 (vadd (load m2 h) (load m2 y))
  end.

(** neuralnetwork.py:168-180 *)
Fixpoint net_fwd (bs : list block) (x : nat) (m : mem) : nat * mem :=
  match bs with
  | [] => (x, m)
  | b :: bs' => let (y, m') := block_fwd b x m in net_fwd bs' y m'
  end.

(** ** From the description *)
Section Create.
  Context {val : Type}.
  Variable torch_nn : str -> option (list (str * val) -> result layer).
  Variable literal_eval : str -> result val.
  Variable transpose : vec -> vec.

  (** neuralnetwork.py:121-137; a keyword argument that the beer modules do not
      have is a TypeError *)
  Definition create_one (s : str) : result layer :=
    bindr (parse_element s) (fun nk =>
    let (name, kwargs) := nk in
    bindr (match torch_nn name with
           | Some f => Ok f
           | None =>
               if str_eqb name (list_ascii_of_string "ReshapeLayer") then
                 Ok (fun kw => match kw with
                               | [(k, _)] => if str_eqb k (list_ascii_of_string "shape") then Ok Same else Err TypeError
                               | _ => Err TypeError
                               end)
               else if str_eqb name (list_ascii_of_string "TransposeLayer") then
                 Ok (fun kw => match kw with [] => Ok (Fresh transpose) | _ => Err TypeError end)
               else if str_eqb name (list_ascii_of_string "IdentityLayer") then
                 Ok (fun kw => match kw with [] => Ok Same | _ => Err TypeError end)
               else Err ValueError
           end) (fun f =>
    bindr (mapM (fun kv => bindr (literal_eval (snd kv)) (fun v => Ok (fst kv, v))) kwargs) f)).

  (** neuralnetwork.py:121-145 *)
  Definition create_nnet_element (s : str) : result layer :=
    bindr (mapM create_one (split_on "|" s)) (fun els =>
    match els with
    | [l] => Ok l
    | _ => Ok (Merge els)
    end).

  Record block_conf : Type := { c_structure : list str; c_residual : option str }.

  (** neuralnetwork.py:148-165 *)
  Definition create_nnet_block (c : block_conf) : result block :=
    bindr (mapM create_nnet_element (c_structure c)) (fun st =>
    match c_residual c with
    | None => Ok {| b_structure := st; b_residual := None |}
    | Some r => bindr (create_nnet_element r) (fun l => Ok {| b_structure := st; b_residual := Some l |})
    end).

  (** neuralnetwork.py:168-180 *)
  Definition create_net (cs : list block_conf) : result (list block) := mapM create_nnet_block cs.
End Create.
