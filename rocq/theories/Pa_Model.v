(** Model of the scripts writing the alignment graphs and the forced alignments:
    - /repo/beer/cli/subcommands/hmm/mkaligraph.py:42-67;
    - /repo/recipes/timit_v2/utils/prepare-alignments.py:14-68 (its
      create_graph_from_seq, lines 17-39, is the text of mkaligraph.py:18-39);
    - /repo/recipes/timit_v2/utils/hmm-align.py:30-48 and
      hmm-decode-parallel.py:18-38.

    - stdin is the list of the lines, split into tokens (line.strip().split())
      or stripped (the utterance ids).
    - A directory of .npy files is an association list from the utterance id to
      what was stored; the files written before an exception stay, so the loops
      return the files together with the outcome.
    - The features of an utterance are given by their sufficient statistics
      (model.sufficient_statistics is applied frame by frame).
    - np.load of pickled graphs (refused by default since numpy 1.16.3) is
      assumed to give back what was saved. *)
From Coq Require Import Reals String List Arith Bool.
From Verif Require Import Prelude Vec FB_Model Graph_Model Gb_Model Set_Model HMM_Model.
Import ListNotations.
Local Open Scope R_scope.

(** /repo/beer/graph.py:239-240: the logarithms of the probabilities.  A vector
    0/0 (all NaN) is given the value -inf here; [align] does not use it. *)
Definition log_vec (v : option (nat -> R)) : nat -> lp :=
  fun i => match v with Some u => lnp (u i) | None => NInf end.

Definition to_cgraph (c : compiled) : cgraph :=
  {| cg_n := c_n c; cg_init := log_vec (c_init c); cg_final := log_vec (c_final c);
     cg_trans := fun i j => lnp (Graph_Model.c_trans c i j) |}.

(** ** mkaligraph.py:48-66, prepare-alignments.py:56-63

    [check] is the test of mkaligraph.py:52-54, absent from
    prepare-alignments.py.  The result is the files and the number of graphs
    written or the exception. *)
Fixpoint mkali (check : bool) (pg : list (string * graph)) (lines : list (list string))
  (files : list (string * compiled)) (nutts : nat)
  : list (string * compiled) * result nat :=
  match lines with
  | [] => (files, Ok nutts)
  | [] :: _ => (files, Err IndexError)
  | (uttid :: phones) :: t =>
    if check && match phones with [] => true | _ => false end
    then mkali check pg t files nutts
    else match create_graph_from_seq phones pg with
         | Err e => (files, Err e)
         | Ok c => mkali check pg t (sset uttid c files) (S nutts)
         end
  end.

(** mkaligraph.py:42-67 *)
Definition mkaligraph (pg : list (string * graph)) (lines : list (list string)) :=
  mkali true pg lines [] 0.

(** prepare-alignments.py:55-67: test.pkl holds the last graph, or the empty
    Graph of line 55 ([None]) when there is no line. *)
Definition prepare_alignments (pg : list (string * graph)) (lines : list (list string))
  : list (string * compiled) * result (option compiled) :=
  let (files, r) := mkali false pg lines [] 0 in
  (files, bindr r (fun _ =>
     match rev lines with
     | (_ :: phones) :: _ => bindr (create_graph_from_seq phones pg) (fun c => Ok (Some c))
     | _ => Ok None
     end)).

(** ** hmm-align.py:38-47 *)
Section Align.
  Variables (amax : nat -> (nat -> lp) -> nat) (m : mset).

  (** model.decode(ft, inference_graph=graph) on an alignment graph; a graph
      whose initial or final vector is 0/0 is outside the model. *)
  Definition align (c : compiled) (stats : mat) : result (list nat) :=
    match c_init c, c_final c with
    | Some _, Some _ => hmm_decode amax m (to_cgraph c) (c_map c) 1 stats
    | _, _ => Err OtherError
    end.

  (** hmm-align.py:38-47; without --ali-graphs, or hmm-decode-parallel.py:32-37,
      the graph is the one of the model ([own] with its mapping [order]). *)
  Fixpoint align_loop (own : cgraph) (order : list nat)
    (graphs : option (list (string * compiled))) (feats : list (string * mat))
    (utts : list string) (out : list (string * list nat))
    : list (string * list nat) * result unit :=
    match utts with
    | [] => (out, Ok tt)
    | u :: t =>
      match bindr (sget u feats) (fun ft =>
            match graphs with
            | Some gs => bindr (sget u gs) (fun c => align c ft)
            | None => hmm_decode amax m own order 1 ft
            end) with
      | Err e => (out, Err e)
      | Ok ali => align_loop own order graphs feats t (sset u ali out)
      end
    end.
End Align.
