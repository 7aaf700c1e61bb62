(** Model of the scripts building the graphs of the phone-loop recipes:
    /repo/beer/cli/subcommands/hmm/{mkphones,mkphoneloopgraph,mkdecodegraph,
    mkaligraph}.py, on top of the graphs of Graph_Model.

    - Dictionaries keyed by names are association lists in insertion order.
    - Files are given parsed: the lines of the unit list as lists of tokens
      (line.strip().split()), the configuration as the list of the
      (group_name, topology) pairs, a topology as the list of its
      (start_id, end_id, trans_prob) triples with natural identifiers.
    - [arcs] in mkphones.py is a Python set, iterated in an unspecified order;
      the order of the topology stands for it, so that the theorems, which
      quantify over the topologies, cover all the orders.
    - The emission models (create_pdfs), built from the statistics of the data
      set, are in Em_Model.v; here only the number of pdfs of each group.
    - Pickling is the identity. *)
From Coq Require Import Reals String List Arith Bool.
From Verif Require Import Prelude Graph_Model.
Import ListNotations.
Local Open Scope R_scope.

(** ** Dictionaries *)

(** d[k] = v : the position of an existing key is kept. *)
Fixpoint sset {A : Type} (k : string) (v : A) (d : list (string * A))
  : list (string * A) :=
  match d with
  | [] => [(k, v)]
  | (k', v') :: t => if String.eqb k k' then (k', v) :: t else (k', v') :: sset k v t
  end.

(** d[k] *)
Fixpoint sget {A : Type} (k : string) (d : list (string * A)) : result A :=
  match d with
  | [] => Err KeyError
  | (k', v) :: t => if String.eqb k k' then Ok v else sget k t
  end.

(** d[k] = v for integer keys. *)
Fixpoint nset {A : Type} (k : nat) (v : A) (d : list (nat * A)) : list (nat * A) :=
  match d with
  | [] => [(k, v)]
  | (k', v') :: t => if Nat.eqb k k' then (k', v) :: t else (k', v') :: nset k v t
  end.

Definition nget {A : Type} (k : nat) (d : list (nat * A)) : result A :=
  match lookup k d with Some v => Ok v | None => Err KeyError end.

(** name, group = line.strip().split()
    (mkphones.py:84, mkphoneloopgraph.py:28) *)
Definition unit_line (toks : list string) : result (string * string) :=
  match toks with
  | [name; group] => Ok (name, group)
  | _ => Err ValueError
  end.

(** ** mkphones.py *)

Notation topology := (list (nat * nat * R)) (only parsing).

(** sorted(list(set)): insertion into a sorted list without duplicates. *)
Fixpoint insert_id (k : nat) (l : list nat) : list nat :=
  match l with
  | [] => [k]
  | x :: t => if Nat.ltb k x then k :: l
              else if Nat.eqb k x then l
              else x :: insert_id k t
  end.

(** mkphones.py:13-21: the sorted state ids (the arcs are the topology). *)
Definition state_ids (t : topology) : list nat :=
  fold_left (fun l a => insert_id (snd (fst a)) (insert_id (fst (fst a)) l)) t [].

(** mkphones.py:29-35: body of the loop; the state carries the counter. *)
Definition add_unit_state (first last start_pdf_id : nat) (st : graph * nat)
  (state_id : nat) : graph * nat :=
  let '(g, count) := st in
  if Nat.eqb state_id first || Nat.eqb state_id last
  then (snd (add_state g None), count)
  else (snd (add_state g (Some (start_pdf_id + count)%nat)), S count).

(** mkphones.py:24-39.  A topology without arc: state_ids[0] raises IndexError.
    A topology with a single state id makes the script return
    start_pdf_id - 1; negative pdf ids are not modelled (OtherError). *)
Definition create_unit_graph (t : topology) (start_pdf_id : nat)
  : result (graph * nat) :=
  let ids := state_ids t in
  match ids with
  | [] => Err IndexError
  | first :: _ =>
    let last := List.last ids O in
    let '(g, _) := fold_left (add_unit_state first last start_pdf_id)
                             (seq 0 (length ids)) (empty_graph, O) in
    let g := set_end (set_start g first) last in
    let g := fold_left (fun g a => add_arc g (fst (fst a)) (snd (fst a)) (snd a)) t g in
    if Nat.ltb (start_pdf_id + length ids) 2 then Err OtherError
    else Ok (g, (start_pdf_id + length ids - 2)%nat)
  end.

(** mkphones.py:42-46 *)
Definition count_emitting_state (g : graph) : nat :=
  length (filter (fun s => match pdf_of g s with Some (Some _) => true | _ => false end)
                 (states g)).

(** mkphones.py:78 *)
Definition groups_conf (conf : list (string * topology)) : list (string * topology) :=
  fold_left (fun d gc => sset (fst gc) (snd gc) d) conf [].

(** mkphones.py:81-85 *)
Definition group_units (gconf : list (string * topology)) (lines : list (list string))
  : result (list (string * list string)) :=
  foldM (fun d toks =>
           bindr (unit_line toks) (fun ng =>
           bindr (sget (snd ng) d) (fun names =>
           Ok (sset (snd ng) (names ++ [fst ng]) d))))
        lines (map (fun gc => (fst gc, [])) gconf).

(** mkphones.py:104-111: the units of one group.  The state is
    (start_pdf_id, units, tot_emitting_states). *)
Definition create_group (t : topology) (names : list string)
  (st : nat * list (string * graph)) : result (nat * list (string * graph) * nat) :=
  foldM (fun st name =>
           let '(start_pdf_id, units, tot) := st in
           bindr (create_unit_graph t start_pdf_id) (fun gs =>
           Ok (snd gs, sset name (fst gs) units, (tot + count_emitting_state (fst gs))%nat)))
        names (st, O).

(** mkphones.py:112 and create_pdfs (49-61): [units] are the units made so far.
    [group_conf] is assigned by the loop over the units only: as long as there is
    no unit it has no value (UnboundLocalError, a NameError).  Without emitting
    state MixtureSet.create divides by zero (mixtureset.py:48).  Otherwise the set
    of the group has one mixture per emitting state. *)
Definition group_pdfs (units : list (string * graph)) (tot : nat) : result nat :=
  match units with
  | [] => Err NameError
  | _ => if Nat.eqb tot 0 then Err ZeroDivisionError else Ok tot
  end.

(** mkphones.py:104-112: one group *)
Definition mkgroup (gconf : list (string * topology))
  (st : nat * list (string * graph) * list nat) (gn : string * list string)
  : result (nat * list (string * graph) * list nat) :=
  let '(start_pdf_id, units, tots) := st in
  bindr (sget (fst gn) gconf) (fun t =>
  bindr (create_group t (snd gn) (start_pdf_id, units)) (fun r =>
  let '(start_pdf_id, units, tot) := r in
  bindr (group_pdfs units tot) (fun n =>
  Ok (start_pdf_id, units, tots ++ [n])))).

(** mkphones.py:74-113: the unit HMMs and the number of pdfs of each group
    (the lengths of the members of the JointModelSet). *)
Definition mkphones (conf : list (string * topology)) (lines : list (list string))
  : result (list (string * graph) * list nat) :=
  let gconf := groups_conf conf in
  bindr (group_units gconf lines) (fun grouped =>
  bindr (foldM (mkgroup gconf) grouped (O, [], [])) (fun r =>
  let '(_, units, tots) := r in Ok (units, tots))).

(** ** mkphoneloopgraph.py *)

(** mkphoneloopgraph.py:10-12 *)
Definition START_SYM : string := "\<s\>".
Definition END_SYM : string := "\</s\>".
Definition PIVOT_SYM : string := "#1".

(** mkphoneloopgraph.py:45: the dict comprehension calls add_state once per
    line and keeps the last state of a repeated name. *)
Fixpoint unit_states (g : graph) (names : list string) (d : list (string * nat))
  : graph * list (string * nat) :=
  match names with
  | [] => (g, d)
  | n :: t => let (s, g1) := add_state g None in unit_states g1 t (sset n s d)
  end.

(** add_arc(unit2state[...], ...) with the default weight (graph.py:110). *)
Definition loop_arc (u2s : list (string * nat)) (f : nat -> nat * nat) (g : graph)
  (u : string) : result graph :=
  bindr (sget u u2s) (fun s => Ok (add_arc g (fst (f s)) (snd (f s)) 1)).

(** mkphoneloopgraph.py:23-77: the graph and its symbols (state2unit). *)
Definition mkphoneloopgraph (group : option string) (lines : list (list string))
  : result (graph * list (nat * string)) :=
  bindr (mapM unit_line lines) (fun units =>
  let (start, g) := add_state empty_graph None in
  let g := set_start g start in
  let (stop, g) := add_state g None in
  let g := set_end g stop in
  let (pivot, g) := add_state g None in
  (* the comprehension builds its own dict, merged by update *)
  let (g, new) := unit_states g (map fst units) [] in
  let u2s := fold_left (fun d us => sset (fst us) (snd us) d) new
               [(START_SYM, start); (END_SYM, stop); (PIVOT_SYM, pivot)] in
  let s2u := fold_left (fun d us => nset (snd us) (fst us) d) u2s [] in
  bindr (match group with
         | Some gr => if String.eqb gr "" then
                        bindr (nget pivot s2u) (fun p => Ok [p])
                      else Ok (map fst (filter (fun ug => String.eqb (snd ug) gr) units))
         | None => bindr (nget pivot s2u) (fun p => Ok [p])
         end) (fun start_end_units =>
  bindr (foldM (loop_arc u2s (fun s => (start, s))) start_end_units g) (fun g =>
  bindr (foldM (loop_arc u2s (fun s => (s, stop))) start_end_units g) (fun g =>
  bindr (foldM (fun g u => bindr (loop_arc u2s (fun s => (pivot, s)) g (fst u)) (fun g =>
                           loop_arc u2s (fun s => (s, pivot)) g (fst u)))
               units g) (fun g =>
  bindr (normalize g) (fun g => Ok (g, s2u))))))).

(** ** mkdecodegraph.py *)

(** mkdecodegraph.py:11-17 ([fwd = true]) and 20-26 ([fwd = false]). *)
Definition edge_pdf (fwd : bool) (hmm : graph) : result (option nat) :=
  bindr (yields (find_pdf_ids fwd hmm (if fwd then g_start hmm else g_end hmm) 1)) (fun l =>
  match map fst l with
  | [s] => match pdf_of hmm s with Some o => Ok o | None => Err KeyError end
  | _ => Err ValueError
  end).

(** mkdecodegraph.py:35-59 *)
Definition mkdecodegraph (pl : graph) (symbols : list (nat * string))
  (units : list (string * graph))
  : result (graph * list (string * option nat) * list (string * option nat)) :=
  let phone2state := fold_left (fun d su => sset (snd su) (fst su) d) symbols [] in
  bindr (foldM (fun g ph => bindr (sget (fst ph) phone2state) (fun s =>
                            replace_state g s (snd ph))) units pl) (fun g =>
  bindr (normalize g) (fun g =>
  bindr (mapM (fun ph => bindr (edge_pdf true (snd ph)) (fun s =>
                         bindr (edge_pdf false (snd ph)) (fun e =>
                         Ok (fst ph, s, e)))) units) (fun l =>
  Ok (g, map (fun x => (fst (fst x), snd (fst x))) l,
         map (fun x => (fst (fst x), snd x)) l)))).

(** ** mkaligraph.py *)

(** mkaligraph.py:24-29: the states of the phones, in order. *)
Fixpoint phone_chain (seq : list string) (g : graph) (last_state : nat)
  : graph * nat * list nat :=
  match seq with
  | [] => (g, last_state, [])
  | _ :: t =>
    let (state, g) := add_state g None in
    let g := add_arc g last_state state 1 in
    let '(g, l, ss) := phone_chain t g state in
    (g, l, state :: ss)
  end.

(** mkaligraph.py:19-32: the linear graph. *)
Definition linear_graph (seq : list string) : graph * list nat :=
  let (start, g) := add_state empty_graph None in
  let g := set_start g start in
  let '(g, last_state, phone_states) := phone_chain seq g start in
  let (state, g) := add_state g None in
  let g := add_arc g last_state state 1 in
  (set_end g state, phone_states).

(** mkaligraph.py:35-36 *)
Definition replace_phones (phone_graphs : list (string * graph))
  (l : list (nat * string)) (g : graph) : result graph :=
  foldM (fun g sp => bindr (sget (snd sp) phone_graphs) (fun h =>
                     replace_state g (fst sp) h)) l g.

(** mkaligraph.py:18-39: the graph before compile() and the compiled graph. *)
Definition ali_graph (seq : list string) (phone_graphs : list (string * graph))
  : result graph :=
  let (g, phone_states) := linear_graph seq in
  bindr (replace_phones phone_graphs (combine phone_states seq) g) normalize.

Definition create_graph_from_seq (seq : list string)
  (phone_graphs : list (string * graph)) : result compiled :=
  bindr (ali_graph seq phone_graphs) compile.
