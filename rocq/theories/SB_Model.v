(** Stick-breaking categorical models: SBCategorical, SBCategoricalHyperPrior
    (beer/models/categorical.py) and SBCategoricalSet
    (beer/models/categoricalset.py).

    A stick is the pair of concentrations of its Beta posterior (a Dirichlet of
    dimension two).  Sticks are stored in the order of the components; the
    stick-breaking order is [ordering]: ordering[i] is the component of the
    i-th stick.  Numbers are exact reals. *)
From Coq Require Import Reals List Arith Bool.
From Verif Require Import Prelude Vec Lgamma Dist_Model.
Import ListNotations.
Local Open Scope R_scope.

Notation stick := (R * R)%type.

(** t[order] *)
Definition reorder {A} (d : A) (ord : list nat) (l : list A) : list A :=
  map (fun k => nth k l d) ord.

(** l[k] = v *)
Fixpoint set_at {A} (k : nat) (v : A) (l : list A) : list A :=
  match l, k with
  | [], _ => []
  | _ :: t, O => v :: t
  | a :: t, S k => a :: set_at k v t
  end.

(** categorical.py:133-138 *)
Definition reverse_ordering (ord : list nat) : list nat :=
  fold_left (fun acc ij => set_at (snd ij) (fst ij) acc)
    (combine (seq 0 (length ord)) ord) (repeat 0%nat (length ord)).

(** torch.cumsum and torch.cumprod *)
Fixpoint cumsum_from (acc : R) (l : list R) : list R :=
  match l with
  | [] => []
  | x :: t => (acc + x) :: cumsum_from (acc + x) t
  end.
Definition cumsum : list R -> list R := cumsum_from 0.

Fixpoint cumprod_from (acc : R) (l : list R) : list R :=
  match l with
  | [] => []
  | x :: t => (acc * x) :: cumprod_from (acc * x) t
  end.
Definition cumprod : list R -> list R := cumprod_from 1.

(** l[1:] op= m *)
Definition shift_op (op : R -> R -> R) (l m : list R) : list R :=
  match l with
  | [] => []
  | a :: t => a :: map2 op t m
  end.

(** categorical.py:109-118, given the order computed at line 111: natural
    statistics of the two dimensional Dirichlets, in component order *)
Definition transform_stats (ord : list nat) (stats : list R) : list stick :=
  let stats' := reorder 0 ord stats in
  let s2 := match stats' with [] => [] | _ :: t => t ++ [0] end in
  let s2 := rev (cumsum (rev s2)) in
  let new_stats := map2 (fun a b => (a, b + a)) stats' s2 in
  reorder (0, 0) (reverse_ordering ord) new_stats.

(** parameters.py:134-141 on one stick *)
Definition stick_update (lrate : R) (prior post : stick) (stats : stick) : stick :=
  let l x := [fst x; snd x] in
  match std_update dir_nat dir_from_nat lrate (l prior) (l post) (l stats) with
  | [a; b] => (a, b)
  | _ => (0, 0)
  end.

(** One update of the stick-breaking parameter with the counts [stats]; [sort]
    is the permutation returned by torch.sort(descending=True).  The result is
    the new order and the new posterior. *)
Definition sb_update (sort : list R -> list nat) (lrate : R) (prior post : list stick)
  (stats : list R) : list nat * list stick :=
  let ord := sort stats in
  (ord, map2 (fun pq s => stick_update lrate (fst pq) (snd pq) s)
          (combine prior post) (transform_stats ord stats)).

(** categorical.py:120-125, in stick order *)
Definition log_v (ord : list nat) (c : list stick) : list R * list R :=
  let c := reorder (0, 0) ord c in
  (map (fun ab => digamma (fst ab) - digamma (fst ab + snd ab)) c,
   map (fun ab => digamma (snd ab) - digamma (fst ab + snd ab)) c).

(** categorical.py:127-131 *)
Definition log_prob (ord : list nat) (c : list stick) : list R * list R :=
  let (lv, l1v) := log_v ord c in
  (shift_op Rplus lv (cumsum (removelast l1v)), l1v).

(** categorical.py:158-160: expected log-weights, in component order *)
Definition sb_log_weights (ord : list nat) (c : list stick) : list R :=
  reorder 0 (reverse_ordering ord) (fst (log_prob ord c)).

Definition sb_ellh (ord : list nat) (c : list stick) (stats : list R) : R :=
  dot stats (sb_log_weights ord c).

(** categorical.py:140-147; eps: torch.finfo(c.dtype).eps *)
Definition sb_mean (eps : R) (ord : list nat) (c : list stick) : list R :=
  let c := reorder (0, 0) ord c in
  let norm ab := fst ab + snd ab + eps in
  let weights := map (fun ab => fst ab / norm ab) c in
  let residual := cumprod (map (fun ab => snd ab / norm ab) c) in
  let weights := shift_op Rmult weights (removelast residual) in
  reorder 0 (reverse_ordering ord) weights.

(** ** SBCategoricalHyperPrior *)

(** categorical.py:197-199 *)
Definition on_concentration_update (g : gamma_par) (prior : list stick) : list stick :=
  map (fun ab => (fst ab, nth 0 (gamma_mean g) 0)) prior.

(** categorical.py:201-206: statistics given to the concentration parameter *)
Definition concentration_stats (ord : list nat) (c : list stick) : list R :=
  let (_, l1v) := log_prob ord c in
  [rsum l1v; rsum (map (fun _ => 1) l1v)].

Definition on_stickbreaking_update (ord : list nat) (c : list stick) (gprior gpost : gamma_par)
  (prior : list stick) : gamma_par * list stick :=
  let g := std_update gamma_nat gamma_from_nat 1 gprior gpost (concentration_stats ord c) in
  (g, on_concentration_update g prior).

(** ** SBCategoricalSet *)

(** categoricalset.py:228-239, one row of counts per component of the set *)
Definition set_transform_stats (ord : list nat) (stats : list (list R)) : list stick :=
  concat (map (transform_stats ord) stats).

(** categoricalset.py:165-177, 241-257: prior of every member of the set from
    the mean of the root (in component order) *)
Definition set_prior_row (strength : R) (mean : list R) : list stick :=
  map2 (fun m s => (strength * m, strength * (1 - s))) mean (cumsum mean).

Definition set_prior (n : nat) (strength : R) (mean : list R) : list stick :=
  concat (repeat (set_prior_row strength mean) n).

(** c.reshape(n_components, -1, 2) with K sticks per member *)
Definition member (K i : nat) (c : list stick) : list stick := firstn K (skipn (i * K) c).

(** categoricalset.py:270-288 *)
Definition set_log_prob (ord : list nat) (n K : nat) (c : list stick) : list (list R) :=
  map (fun i => reorder 0 (reverse_ordering ord) (fst (log_prob ord (member K i c)))) (seq 0 n).

Definition set_mean (eps : R) (ord : list nat) (n K : nat) (c : list stick) : list (list R) :=
  map (fun i => sb_mean eps ord (member K i c)) (seq 0 n).
