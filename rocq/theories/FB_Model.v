(** Model of the inference on compiled graphs: /repo/beer/graph.py:243-344.

    Numbers are exact reals extended with -inf (log-probabilities); rounding is
    not modelled.  A tensor of shape [N,K] is a list of N rows, each row a
    function from the column index to the value; only columns [< K] are ever
    read. *)
From Coq Require Import Reals List Bool.
From Verif Require Import Prelude.
Import ListNotations.
Local Open Scope R_scope.

(** Log-domain values: [-inf] or a finite real. (+inf and NaN inputs are not
    modelled.) *)
Inductive lp : Type :=
| NInf
| Fin (r : R).

(** exp of a log-domain value (torch: exp(-inf) = 0). *)
Definition ex (a : lp) : R := match a with NInf => 0 | Fin r => exp r end.

(** torch '+' on log-domain values. *)
Definition ladd (a b : lp) : lp :=
  match a, b with
  | Fin x, Fin y => Fin (x + y)
  | _, _ => NInf
  end.

Definition is_ninf (a : lp) : bool := match a with NInf => true | _ => false end.

(** torch.logsumexp over a list of values; -inf when all the values are -inf. *)
Definition lse (l : list lp) : lp :=
  if forallb is_ninf l then NInf else Fin (ln (rsum (map ex l))).

(** Comparison of log-domain values. *)
Definition lp_le (a b : lp) : Prop :=
  match a, b with
  | NInf, _ => True
  | Fin _, NInf => False
  | Fin x, Fin y => x <= y
  end.

(** graph.py:243-260: the buffers of a CompiledGraph.  [cg_n] is
    len(trans_log_probs) (graph.py:265-268). *)
Record cgraph : Type := {
  cg_n : nat;
  cg_init : nat -> lp;
  cg_final : nat -> lp;
  cg_trans : nat -> nat -> lp
}.

Definition row := nat -> lp.

(** graph.py:274-277, one iteration of the loop of _baum_welch_forward:
    llhs[i] + logsumexp(log_alphas[i-1] + log_trans_mat.t(), dim=1). *)
Definition fwd_step (g : cgraph) (alpha : row) (llh : row) : row :=
  fun j => ladd (llh j)
             (lse (map (fun i => ladd (alpha i) (cg_trans g i j))
                       (seq 0 (cg_n g)))).

Fixpoint fwd_from (g : cgraph) (alpha : row) (llhs : list row) : list row :=
  match llhs with
  | [] => []
  | l :: t => let a := fwd_step g alpha l in a :: fwd_from g a t
  end.

(** graph.py:270-278 _baum_welch_forward.  On zero frames, llhs[0] raises
    IndexError: see [posteriors]. *)
Definition forward (g : cgraph) (llhs : list row) : list row :=
  match llhs with
  | [] => []
  | l :: t => let a0 : row := fun j => ladd (l j) (cg_init g j) in
              a0 :: fwd_from g a0 t
  end.

(** graph.py:284-286, one iteration of the loop of _baum_welch_backward. *)
Definition bwd_step (g : cgraph) (llh : row) (beta : row) : row :=
  fun i => lse (map (fun j => ladd (ladd (cg_trans g i j) (llh j)) (beta j))
                    (seq 0 (cg_n g))).

(** graph.py:280-287 _baum_welch_backward; one row per frame of [l0 :: llhs],
    where [llhs] are the frames following the current one.  *)
Fixpoint bwd_from (g : cgraph) (llhs : list row) : list row :=
  match llhs with
  | [] => [cg_final g]
  | l :: t => let bs := bwd_from g t in
              bwd_step g l (hd (cg_final g) bs) :: bs
  end.

Definition backward (g : cgraph) (llhs : list row) : list row :=
  match llhs with
  | [] => []
  | _ :: t => bwd_from g t
  end.

(** Values which can be NaN or +inf. *)
Inductive num : Type :=
| NaN
| PInf
| Num (r : R).

(** (a - n).exp() for log-domain a, n. *)
Definition exp_sub (a n : lp) : num :=
  match a, n with
  | Fin x, Fin y => Num (exp (x - y))
  | NInf, Fin _ => Num 0
  | NInf, NInf => NaN
  | Fin _, NInf => PInf
  end.

(** graph.py:306: lognorm of one frame. *)
Definition lognorm (g : cgraph) (a b : row) : lp :=
  lse (map (fun j => ladd (a j) (b j)) (seq 0 (cg_n g))).

(** graph.py:306-307: state posteriors of one frame. *)
Definition state_post (g : cgraph) (a b : row) : nat -> num :=
  fun j => exp_sub (ladd (a j) (b j)) (lognorm g a b).

(** torch mean of a vector of log-domain values. *)
Definition lp_mean (l : list lp) : lp :=
  if existsb is_ninf l then NInf
  else Fin (rsum (map (fun a => match a with Fin r => r | NInf => 0 end) l)
            / INR (length l)).

(** graph.py:289-307,324-326: posteriors(llhs, trans_posteriors=False).
    Returns the state posteriors and lognorm.mean(). *)
Definition posteriors (g : cgraph) (llhs : list row)
  : result (list (nat -> num) * lp) :=
  match llhs with
  | [] => Err IndexError
  | _ =>
    let ab := combine (forward g llhs) (backward g llhs) in
    Ok (map (fun x => state_post g (fst x) (snd x)) ab,
        lp_mean (map (fun x => lognorm g (fst x) (snd x)) ab))
  end.

(** All the pairs (i,j) in the order of the flattened KxK matrix
    (graph.py:312). *)
Definition pairs (n : nat) : list (nat * nat) :=
  flat_map (fun i => map (fun j => (i, j)) (seq 0 n)) (seq 0 n).

(** graph.py:310-311: log_xi of one frame transition. *)
Definition log_xi (g : cgraph) (a : row) (llh b : row) (i j : nat) : lp :=
  ladd (ladd (a i) (cg_trans g i j)) (ladd (llh j) (b j)).

(** graph.py:319-321: NaN replaced by zero. *)
Definition nan_to_zero (x : num) : num :=
  match x with NaN => Num 0 | _ => x end.

(** graph.py:316-321: transition posteriors of one frame transition. *)
Definition trans_post (g : cgraph) (a : row) (llh b : row) (i j : nat) : num :=
  nan_to_zero
    (exp_sub (log_xi g a llh b i j)
       (lse (map (fun ij => log_xi g a llh b (fst ij) (snd ij))
                 (pairs (cg_n g))))).

(** graph.py:308-323: the transition posteriors for t = 0 .. N-2. *)
Definition trans_posteriors (g : cgraph) (llhs : list row)
  : list (nat -> nat -> num) :=
  map (fun x => trans_post g (fst x) (fst (snd x)) (snd (snd x)))
    (combine (removelast (forward g llhs))
       (combine (tl llhs) (tl (backward g llhs)))).

(** ** Viterbi: graph.py:329-344.
    [amax n f] stands for torch.argmax of a vector of size n: the theorems
    quantify over any function returning an index of a maximal element. *)
Section Viterbi.
  Variable amax : nat -> (nat -> lp) -> nat.

  (** graph.py:337: hypothesis[j,i] = omega[i] + trans[i,j]. *)
  Definition hyp (g : cgraph) (omega : row) (j i : nat) : lp :=
    ladd (omega i) (cg_trans g i j).

  (** graph.py:338: backtrack[i]. *)
  Definition backtrack (g : cgraph) (omega : row) : nat -> nat :=
    fun j => amax (cg_n g) (hyp g omega j).

  (** graph.py:339. *)
  Definition vit_step (g : cgraph) (omega llh : row) : row :=
    fun j => ladd (llh j) (hyp g omega j (backtrack g omega j)).

  (** graph.py:336-339: the loop, returning the final omega and the rows of
      [backtrack] for i = 1 .. N-1. *)
  Fixpoint vit_loop (g : cgraph) (omega : row) (llhs : list row)
    : row * list (nat -> nat) :=
    match llhs with
    | [] => (omega, [])
    | l :: t =>
      let bt := backtrack g omega in
      let r := vit_loop g (vit_step g omega l) t in
      (fst r, bt :: snd r)
    end.

  (** graph.py:342-343: path.insert(0, backtrack[i, path[0]]) for i from the
      last frame to the second one. *)
  Definition bt_insert (path : list nat) (bt : nat -> nat) : list nat :=
    bt (hd 0%nat path) :: path.

  Definition best_path (g : cgraph) (llhs : list row) : result (list nat) :=
    match llhs with
    | [] => Err IndexError
    | l :: t =>
      let omega0 : row := fun j => ladd (l j) (cg_init g j) in
      let r := vit_loop g omega0 t in
      let last := amax (cg_n g) (fun j => ladd (fst r j) (cg_final g j)) in
      Ok (fold_left bt_insert (rev (snd r)) [last])
    end.
End Viterbi.

(** A concrete arg-max (first maximal index), used for the examples. *)
Definition lp_ltb (a b : lp) : bool :=
  match a, b with
  | NInf, NInf => false
  | NInf, Fin _ => true
  | Fin _, NInf => false
  | Fin x, Fin y => if Rlt_dec x y then true else false
  end.

Definition first_max (n : nat) (f : nat -> lp) : nat :=
  fold_left (fun best i => if lp_ltb (f best) (f i) then i else best)
            (seq 0 n) 0%nat.
