(** Model of the acoustic graphs: /repo/beer/graph.py:17-240.

    - Weights are exact reals.
    - The arc set ([_arcs], a Python set hashed on (start,end)) is a list
      without duplicated (start,end); its order stands for the (unspecified)
      iteration order of the set, so every theorem quantifies over it.
    - [_states] (an OrderedDict) is an association list in insertion order.
    - [symbols] (display only) is not modelled. *)
From Coq Require Import Reals List Arith Bool.
From Verif Require Import Prelude FB_Model.
Import ListNotations.
Local Open Scope R_scope.

(** graph.py:24-29. *)
Record arc : Type := Arc { a_start : nat; a_end : nat; a_weight : R }.

(** graph.py:60-70. *)
Record graph : Type := Graph {
  g_count : nat;                           (* _state_count *)
  g_states : list (nat * option nat);      (* id -> pdf_id *)
  g_arcs : list arc;
  g_start : option nat;
  g_end : option nat
}.

(** graph.py:63-70: Graph(). *)
Definition empty_graph : graph := Graph 0 [] [] None None.

Definition set_start (g : graph) (s : nat) : graph :=
  Graph (g_count g) (g_states g) (g_arcs g) (Some s) (g_end g).
Definition set_end (g : graph) (s : nat) : graph :=
  Graph (g_count g) (g_states g) (g_arcs g) (g_start g) (Some s).
Definition with_arcs (g : graph) (arcs : list arc) : graph :=
  Graph (g_count g) (g_states g) arcs (g_start g) (g_end g).

(** graph.py:75-77. *)
Definition states (g : graph) : list nat := map fst (g_states g).

(** self._states[id].pdf_id: [None] when the key is missing (KeyError). *)
Fixpoint lookup {A : Type} (k : nat) (l : list (nat * A)) : option A :=
  match l with
  | [] => None
  | (k', v) :: t => if Nat.eqb k k' then Some v else lookup k t
  end.

Definition pdf_of (g : graph) (s : nat) : option (option nat) :=
  lookup s (g_states g).

(** graph.py:82-101: arcs(state_id, incoming). *)
Definition out_arcs (g : graph) (s : nat) : list arc :=
  filter (fun a => Nat.eqb (a_start a) s) (g_arcs g).
Definition in_arcs (g : graph) (s : nat) : list arc :=
  filter (fun a => Nat.eqb (a_end a) s) (g_arcs g).

(** graph.py:103-108. *)
Definition add_state (g : graph) (pdf : option nat) : nat * graph :=
  (g_count g,
   Graph (S (g_count g)) (g_states g ++ [(g_count g, pdf)]) (g_arcs g)
         (g_start g) (g_end g)).

(** Arc equality ignores the weight (graph.py:24,29). *)
Definition same_key (a b : arc) : bool :=
  Nat.eqb (a_start a) (a_start b) && Nat.eqb (a_end a) (a_end b).

(** set.add: an equal element already present is kept. *)
Definition arc_add (arcs : list arc) (a : arc) : list arc :=
  if existsb (same_key a) arcs then arcs else arcs ++ [a].

(** graph.py:110-113. *)
Definition add_arc (g : graph) (s e : nat) (w : R) : graph :=
  with_arcs g (arc_add (g_arcs g) (Arc s e w)).

(** set.remove: KeyError when absent. *)
Definition arc_remove (arcs : list arc) (a : arc) : result (list arc) :=
  if existsb (same_key a) arcs
  then Ok (filter (fun b => negb (same_key a b)) arcs)
  else Err KeyError.

(** graph.py:115-121, body of the loop for one state.  Python raises
    ZeroDivisionError when dividing by 0., which happens only when there is an
    outgoing arc. *)
Definition out_sum (arcs : list arc) (s : nat) : R :=
  sumf a_weight (filter (fun a => Nat.eqb (a_start a) s) arcs).

Definition scale_out (arcs : list arc) (s : nat) (c : R) : list arc :=
  map (fun a => if Nat.eqb (a_start a) s
                then Arc (a_start a) (a_end a) (a_weight a / c) else a) arcs.

Definition normalize_state (arcs : list arc) (s : nat) : result (list arc) :=
  match filter (fun a => Nat.eqb (a_start a) s) arcs with
  | [] => Ok arcs
  | _ => if Req_EM_T (out_sum arcs s) 0 then Err ZeroDivisionError
         else Ok (scale_out arcs s (out_sum arcs s))
  end.

(** graph.py:115-121. *)
Definition normalize (g : graph) : result graph :=
  bindr (foldM normalize_state (states g) (g_arcs g))
        (fun arcs => Ok (with_arcs g arcs)).

(** graph.py:126-131: copy of the states, returning the renaming. *)
Fixpoint copy_states (g : graph) (sts : list (nat * option nat))
  : graph * list (nat * nat) :=
  match sts with
  | [] => (g, [])
  | (s, pdf) :: t =>
    let (ns, g1) := add_state g pdf in
    let (g2, ren) := copy_states g1 t in
    (g2, (s, ns) :: ren)
  end.

(** new_states[id]: KeyError when missing. *)
Definition rename (ren : list (nat * nat)) (s : nat) : result nat :=
  match lookup s ren with Some x => Ok x | None => Err KeyError end.

(** graph.py:134-135. *)
Definition copy_arc (ren : list (nat * nat)) (g : graph) (a : arc)
  : result graph :=
  bindr (rename ren (a_start a)) (fun s =>
  bindr (rename ren (a_end a)) (fun e => Ok (add_arc g s e (a_weight a)))).

(** new_states[graph.start_state] / new_states[graph.end_state]; the key None
    is never in the dict. *)
Definition rename_opt (ren : list (nat * nat)) (s : option nat) : result nat :=
  match s with Some x => rename ren x | None => Err KeyError end.

(** del self._states[old]: KeyError when missing. *)
Definition del_state (g : graph) (s : nat) : result graph :=
  match pdf_of g s with
  | None => Err KeyError
  | Some _ => Ok (Graph (g_count g)
                    (filter (fun x => negb (Nat.eqb (fst x) s)) (g_states g))
                    (g_arcs g) (g_start g) (g_end g))
  end.

(** graph.py:137-145: the arcs to add. The renaming of the end (start) state is
    evaluated only if there is an outgoing (incoming) arc. *)
Definition reroute (ren : list (nat * nat)) (h : graph) (outs ins : list arc)
  : result (list arc) :=
  bindr (mapM (fun a => bindr (rename_opt ren (g_end h)) (fun e =>
                        Ok (Arc e (a_end a) (a_weight a)))) outs) (fun l1 =>
  bindr (mapM (fun a => bindr (rename_opt ren (g_start h)) (fun s =>
                        Ok (Arc (a_start a) s (a_weight a)))) ins) (fun l2 =>
  Ok (l1 ++ l2))).

(** graph.py:123-154.  The partially updated graph left behind by an exception
    is not modelled. *)
Definition replace_state (g : graph) (old : nat) (h : graph) : result graph :=
  let (g1, ren) := copy_states g (g_states h) in
  bindr (foldM (copy_arc ren) (g_arcs h) g1) (fun g2 =>
  let outs := out_arcs g2 old in
  let ins := in_arcs g2 old in
  bindr (reroute ren h outs ins) (fun new_arcs =>
  let arcs3 := fold_left arc_add new_arcs (g_arcs g2) in
  bindr (foldM arc_remove (outs ++ ins) arcs3) (fun arcs4 =>
  del_state (with_arcs g2 arcs4) old))).

(** ** Epsilon following: graph.py:156-183.

    [fwd = true] is find_next_pdf_ids (156-168), [fwd = false] is
    find_previous_pdf_ids (170-183), identical up to the arc direction.
    The Python list [to_explore] is used as a stack (pop() takes the last
    element): here the head of the list is the top.  On line 166-167 (181-182)
    the comprehension variable shadows [arc]: the pushed weight is the weight of
    the *next* arc times [weight].

    The generator is modelled by the list of the yielded pairs. [None] means
    that the fuel is exhausted (shown not to happen); [Some (Err KeyError)] an
    arc to an unregistered state. *)
Definition dest (fwd : bool) (a : arc) : nat := if fwd then a_end a else a_start a.
Definition src (fwd : bool) (a : arc) : nat := if fwd then a_start a else a_end a.
Definition arcs_of (fwd : bool) (g : graph) (s : nat) : list arc :=
  if fwd then out_arcs g s else in_arcs g s.

Definition mem (x : nat) (l : list nat) : bool := existsb (Nat.eqb x) l.

Fixpoint explore (fuel : nat) (fwd : bool) (g : graph)
  (stack : list (arc * R)) (visited : list nat) : option (result (list (nat * R))) :=
  match fuel with
  | O => None
  | S fuel' =>
    match stack with
    | [] => Some (Ok [])
    | (a, w) :: rest =>
      match pdf_of g (dest fwd a) with
      | None => Some (Err KeyError)
      | Some (Some _) =>
        match explore fuel' fwd g rest visited with
        | Some (Ok l) => Some (Ok ((dest fwd a, w * a_weight a) :: l))
        | r => r
        end
      | Some None =>
        if mem (dest fwd a) visited
        then explore fuel' fwd g rest visited
        else explore fuel' fwd g
               (rev (map (fun b => (b, a_weight b * w)) (arcs_of fwd g (dest fwd a)))
                ++ rest)
               (dest fwd a :: visited)
      end
    end
  end.

(** [s = None] is the start (end) state of a graph where it has not been set:
    arcs(None) then iterates over *all* the arcs (graph.py:97,100) and visited
    is {None}. Every arc is pushed at most twice, hence the fuel. *)
Definition find_pdf_ids (fwd : bool) (g : graph) (s : option nat) (w : R)
  : option (result (list (nat * R))) :=
  let arcs := match s with Some x => arcs_of fwd g x | None => g_arcs g end in
  let visited := match s with Some x => [x] | None => [] end in
  explore (S (length (g_arcs g) + length (g_arcs g))) fwd g
    (rev (map (fun a => (a, w)) arcs)) visited.

Definition find_next_pdf_ids := find_pdf_ids true.
Definition find_previous_pdf_ids := find_pdf_ids false.

(** ** compile: graph.py:185-240 *)

(** graph.py:192-196: the emitting states (id, pdf_id) in insertion order;
    state2pdf_id maps the n-th one to n. *)
Definition emitting (g : graph) : list (nat * nat) :=
  flat_map (fun x => match snd x with Some p => [(fst x, p)] | None => [] end)
           (g_states g).

Definition pdf_id_mapping (g : graph) : list nat := map snd (emitting g).

(** state2pdf_id[id]. *)
Fixpoint index_of (s : nat) (l : list (nat * nat)) : option nat :=
  match l with
  | [] => None
  | (x, _) :: t => if Nat.eqb s x then Some O else option_map S (index_of s t)
  end.
Definition state2pdf (g : graph) (s : nat) : option nat := index_of s (emitting g).

(** Vectors and matrices under construction: functions from the index. *)
Definition vec_add (v : nat -> R) (i : nat) (w : R) : nat -> R :=
  fun k => if Nat.eqb k i then v k + w else v k.
Definition mat_add (m : nat -> nat -> R) (i j : nat) (w : R) : nat -> nat -> R :=
  fun k l => if Nat.eqb k i && Nat.eqb l j then m k l + w else m k l.

(** Lift the fuel exhaustion to an error which the theorems exclude. *)
Definition yields (r : option (result (list (nat * R)))) : result (list (nat * R)) :=
  match r with Some x => x | None => Err RuntimeError end.

(** graph.py:203-204 / 208-209. *)
Definition acc_vec (g : graph) (l : list (nat * R)) : result (nat -> R) :=
  foldM (fun v x => match state2pdf g (fst x) with
                    | Some i => Ok (vec_add v i (snd x))
                    | None => Err KeyError end) l (fun _ => 0).

Definition raw_init (g : graph) : result (nat -> R) :=
  bindr (yields (find_next_pdf_ids g (g_start g) 1)) (acc_vec g).
Definition raw_final (g : graph) : result (nat -> R) :=
  bindr (yields (find_previous_pdf_ids g (g_end g) 1)) (acc_vec g).

(** graph.py:213-228: contribution of one arc to the transition matrix. *)
Definition acc_arc (g : graph) (m : nat -> nat -> R) (a : arc)
  : result (nat -> nat -> R) :=
  match pdf_of g (a_start a), pdf_of g (a_end a) with
  | None, _ | _, None => Err KeyError
  | Some None, Some _ => Ok m
  | Some (Some _), Some None =>
    match state2pdf g (a_start a) with
    | None => Err KeyError
    | Some i =>
      bindr (yields (find_next_pdf_ids g (Some (a_end a)) (a_weight a))) (fun l =>
        foldM (fun m x => match state2pdf g (fst x) with
                          | Some j => Ok (mat_add m i j (snd x))
                          | None => Err KeyError end) l m)
    end
  | Some (Some _), Some (Some _) =>
    match state2pdf g (a_start a), state2pdf g (a_end a) with
    | Some i, Some j => Ok (mat_add m i j (a_weight a))
    | _, _ => Err KeyError
    end
  end.

Definition raw_trans (g : graph) : result (nat -> nat -> R) :=
  foldM (acc_arc g) (g_arcs g) (fun _ _ => 0).

(** graph.py:205,210: v /= v.sum(). 0/0 is NaN in torch: [None]. *)
Definition norm_vec (n : nat) (v : nat -> R) : option (nat -> R) :=
  let s := sumf v (seq 0 n) in
  if Req_EM_T s 0 then None else Some (fun i => v i / s).

(** graph.py:231-237: normalisation of one row, the diagonal being kept.
    When diag = 1 and off_diag > 0, norms / (1 - diag) is +inf and the
    off-diagonal entries become 0: Coq's convention x * (1 - 1) / y agrees. *)
Definition norm_row (n : nat) (m : nat -> nat -> R) (d : nat) : nat -> R :=
  let diag := m d d in
  let off := sumf (m d) (seq 0 n) - diag in
  if Rlt_dec 0 diag then
    if Rlt_dec 0 off then
      fun j => if Nat.eqb j d then diag else m d j * ((1 - diag) / off)
    else m d
  else m d.

Definition norm_rows (n : nat) (m : nat -> nat -> R) : nat -> nat -> R :=
  fun i => norm_row n m i.

(** The numeric content of the CompiledGraph, in the probability domain
    (graph.py:239-240 takes the logarithms). *)
Record compiled : Type := Compiled {
  c_n : nat;
  c_init : option (nat -> R);
  c_final : option (nat -> R);
  c_trans : nat -> nat -> R;
  c_map : list nat
}.

(** graph.py:185-240. *)
Definition compile (g : graph) : result compiled :=
  let n := length (emitting g) in
  bindr (raw_init g) (fun vi =>
  bindr (raw_final g) (fun vf =>
  bindr (raw_trans g) (fun m =>
  Ok (Compiled n (norm_vec n vi) (norm_vec n vf) (norm_rows n m)
               (pdf_id_mapping g))))).
