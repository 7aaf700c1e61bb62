(** Models of the scripts of the TIMIT recipe that prepare the phones, the
    decoding graph and the HMM:
    /repo/recipes/timit_v2/local/timit_lang_prep.py,
    /repo/recipes/timit_v2/utils/{prepare_trans,create-decode-graph,
    prepare-decode-graph,hmm-create-graph-and-emissions,hmm-create,
    hmm-set-decoding-graph,hmm-pdf-id-mapping,features-stats}.py.

    Files are lists of lines, lines are lists of tokens.  A Python set is
    iterated in an order given as an argument.  [show] and [float] are the
    printing and the reading of a weight. *)
From Coq Require Import Reals String Ascii List Arith Bool.
From Verif Require Import Prelude Graph_Model Gb_Model.
Import ListNotations.
Local Open Scope string_scope.

(** ** sorted(list(set)) of strings: insertion in a sorted list without repetition *)
Fixpoint insert_name (s : string) (l : list string) : list string :=
  match l with
  | [] => [s]
  | x :: t => match String.compare s x with
              | Lt => s :: l
              | Eq => l
              | Gt => x :: insert_name s t
              end
  end.
Definition sort_names (l : list string) : list string := fold_left (fun d s => insert_name s d) l [].

(** ** timit_lang_prep.py *)

(** timit_lang_prep.py:21-28: the map from 48 to 39 phones, without silence *)
Definition lang_line (d : list (string * string)) (toks : list string) : result (list (string * string)) :=
  match toks with
  | [] => Err IndexError
  | t0 :: rest =>
    if String.eqb t0 "q" then Ok d else
    match rest with
    | [] => Err IndexError
    | t1 :: rest' =>
      if String.eqb t1 "sil" then Ok d else
      match rest' with
      | [] => Err IndexError
      | t2 :: _ => Ok (sset t1 t2 d)
      end
    end
  end.
(** list.remove *)
Fixpoint list_remove (s : string) (l : list string) : result (list string) :=
  match l with
  | [] => Err ValueError
  | x :: t => if String.eqb s x then Ok t else bindr (list_remove s t) (fun r => Ok (x :: r))
  end.
Record lang := Lang { phones_txt : list (string * nat); map_txt : list (string * string); phones39_txt : list (string * nat) }.
(** timit_lang_prep.py:19-43 *)
Definition lang_prep (lines : list (list string)) : result lang :=
  bindr (foldM lang_line lines []) (fun dict_map =>
  let phone_39 := sort_names (map snd dict_map) in
  bindr (list_remove "sil" phone_39) (fun rest =>
  let phone_39 := "sil" :: rest in
  let names := sort_names (map fst dict_map) in
  bindr (mapM (fun k => bindr (sget k dict_map) (fun v => Ok (k, v))) names) (fun m =>
  Ok (Lang (("sil", 0) :: combine names (seq 1 (List.length names)))
           (("sil", "sil") :: m)
           (combine phone_39 (seq 0 (List.length phone_39))))))).

(** prepare_trans.py:22-38 *)
Definition int_trans (ids : list (string * nat)) (lines : list (list string)) : result (list (string * list nat)) :=
  foldM (fun d toks => match toks with
                       | [] => Err IndexError
                       | utt :: t => bindr (mapM (fun p => sget p ids) t) (fun l => Ok (sset utt l d))
                       end) lines [].

(** ** Decoding graph *)
Section Decode.
  Variables (show : R -> string) (float : string -> result R).

  (** phones[i:], weights[i + j] (create-decode-graph.py:50-53) *)
  Fixpoint phone_arcs (phones : list string) (weights : list R) (i : nat) : result (list (list string)) :=
    match phones with
    | [] => Ok []
    | p :: t => match nth_error weights i with
                | None => Err IndexError
                | Some w => bindr (phone_arcs t weights (S i)) (fun l => Ok (["_1"; p; show w] :: [p; "_1"] :: l))
                end
    end.
  (** create-decode-graph.py:24-53; [weights]: ones or the mean of the language model *)
  Definition decode_txt (phones : list string) (weights : list R) (use_silence : bool) : result (list (list string)) :=
    if use_silence then
      match phones, weights with
      | silence :: rest, w0 :: _ =>
        bindr (phone_arcs rest weights 1) (fun l =>
        Ok (["[s]"; silence] :: [silence; "[/s]"] :: [silence; "_1"] :: ["_1"; silence; show w0] :: l))
      | _, _ => Err IndexError
      end
    else bindr (phone_arcs phones weights 0) (fun l => Ok (["[s]"; "_1"] :: ["_1"; "[/s]"] :: l)).

  (** prepare-decode-graph.py:20-29: one line *)
  Definition txt_arc (toks : list string) : result (string * string * R) :=
    match toks with
    | [s; e; w] => bindr (float w) (fun w => Ok (s, e, w))
    | s :: e :: _ => Ok (s, e, 1%R)
    | _ => Err IndexError
    end.
  (** prepare-decode-graph.py:31-36 *)
  Definition sym_states (names : list string) : graph * list (string * nat) :=
    fold_left (fun st s => let (i, g) := add_state (fst st) None in (g, sset s i (snd st))) names (empty_graph, []).
  (** prepare-decode-graph.py:18-48; [order] lists the set of arcs.  The result is
      the graph and the map from the names to the states. *)
  Definition prepare_graph (order : list (string * string * R) -> list (string * string * R)) (lines : list (list string))
    : result (graph * list (string * nat)) :=
    bindr (mapM txt_arc lines) (fun arcs =>
    let names := sort_names (flat_map (fun a => [fst (fst a); snd (fst a)]) arcs) in
    let (g, sym2id) := sym_states names in
    bindr (sget "[s]" sym2id) (fun s =>
    bindr (sget "[/s]" sym2id) (fun e =>
    let g := set_end (set_start g s) e in
    bindr (foldM (fun g a => bindr (sget (fst (fst a)) sym2id) (fun i =>
                             bindr (sget (snd (fst a)) sym2id) (fun j =>
                             Ok (add_arc g i j (snd a))))) (order arcs) g) (fun g =>
    bindr (normalize g) (fun g => Ok (g, sym2id)))))).
End Decode.

(** ** hmm-create-graph-and-emissions.py *)

(** create_unit_graph, lines 25-44.  One state makes the script go back by one
    pdf and create a negative number of pdfs, which is not modelled. *)
Definition tv_unit_graph (n_states : nat) (arcs : list (nat * nat * R)) (start_pdf_id : nat) : result (graph * nat) :=
  match n_states with
  | O => Err IndexError
  | S last =>
    if Nat.eqb n_states 1 then Err OtherError else
    let '(g, _) := fold_left (add_unit_state 0 last start_pdf_id) (seq 0 n_states) (empty_graph, O) in
    let g := set_end (set_start g 0) last in
    let g := fold_left (fun g a => add_arc g (fst (fst a)) (snd (fst a)) (snd a)) arcs g in
    bindr (normalize g) (fun g => Ok (g, (start_pdf_id + n_states - 2)%nat))
  end.
Record tv_group := Group { n_units : nat; n_state_per_unit : nat; topo : list (nat * nat * R) }.
(** lines 139-148: the units of one group; the state is (unit_count, pdf_id, units) *)
Definition tv_group_units (phones : list string) (c : tv_group) (st : nat * nat * list (string * graph))
  : result (nat * nat * list (string * graph)) :=
  foldM (fun st (_ : nat) =>
           let '(unit_count, pdf_id, units) := st in
           bindr (tv_unit_graph (n_state_per_unit c) (topo c) pdf_id) (fun r =>
           match nth_error phones unit_count with
           | None => Err IndexError
           | Some p => Ok (S unit_count, snd r, sset p (fst r) units)
           end)) (seq 0 (n_units c)) st.
(** lines 134-157: the unit graphs and the number of pdfs of each member of the
    JointModelSet *)
Definition tv_units (conf : list tv_group) (phones : list string) : result (list (string * graph) * list nat) :=
  bindr (foldM (fun st c =>
           bindr (tv_group_units phones c (fst st)) (fun st' =>
           Ok (st', (snd st ++ [n_units c * (n_state_per_unit c - 2)])%list)))
         conf (0, 0, [], [])) (fun r =>
  let '(_, _, units, tots) := r in Ok (units, tots)).

(** hmm-create.py:29-34 and hmm-set-decoding-graph.py:30-35; [sym2id] is the
    inverse of the symbols of the graph *)
Definition hmm_graph (decoding_graph : graph) (sym2id : list (string * nat)) (hmm_graphs : list (string * graph)) : result graph :=
  foldM (fun g u => bindr (sget (fst u) sym2id) (fun s => replace_state g s (snd u))) hmm_graphs decoding_graph.

(** hmm-pdf-id-mapping.py:22-26 *)
Definition pdf_unit_map (units : list (string * graph)) : list (nat * string) :=
  flat_map (fun u => flat_map (fun s => match snd s with Some p => [(p, fst u)] | None => [] end) (g_states (snd u))) units.

(** ** features-stats.py:5-26; one dimension of the features, the utterances in
    the order of the archive.  The division by zero frames (nan) is an error. *)
Local Open Scope R_scope.
Definition stats_accumulate (feats : list (list R)) : result (R * R * nat) :=
  match feats with
  | [] => Err IndexError
  | _ => let '(s, s2, n) := fold_left (fun st utt =>
           let '(s, s2, n) := st in
           (s + sumf (fun x => x) utt, s2 + sumf (fun x => x * x) utt, (n + List.length utt)%nat)) feats (0, 0, 0%nat) in
         if Nat.eqb n 0 then Err OtherError else
         let mean := s / INR n in
         Ok (mean, s2 / INR n - mean * mean, n)
  end.
