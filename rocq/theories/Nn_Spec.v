(** Notions used to state the neural network properties. *)
From Coq Require Import Reals List Arith Bool Ascii.
From Verif Require Import Prelude Vec Mat Dist_Spec Nn_Model.
Import ListNotations.
Local Open Scope R_scope.

(** Same length, same first d entries *)
Definition agree (d : nat) (x x' : list R) : Prop :=
  length x = length x' /\ forall j, (j < d)%nat -> nth j x 0 = nth j x' 0.

Definition wf_linear (l : linear) (n_out n_in : nat) : Prop :=
  length (weight l) = n_out /\ Forall (fun r => length r = n_in) (weight l) /\ length (bias l) = n_out.

(** Output i of an affine transformation *)
Definition affine (l : linear) (x : list R) (i : nat) : R :=
  sumf (fun j => nth j (nth i (weight l) []) 0 * nth j x 0) (seq 0 (length x)) + nth i (bias l) 0.

(** Networks with consistent sizes *)
Fixpoint wf_layers (n_in : nat) (layers : list (list nat * linear)) : Prop :=
  match layers with
  | [] => True
  | (c, l) :: layers' => wf_linear l (length c) n_in /\ wf_layers (length c) layers'
  end.
Definition wf_arnet (net : arnet) : Prop :=
  an_layers net <> [] /\ wf_layers (an_dim net) (an_layers net) /\
  (forall l, an_flow net = Some l -> exists k, wf_linear l (length (fst (hd ([], an_mean net) (an_layers net)))) k) /\
  let w := length (last_conns (seq 0 (an_dim net)) (an_layers net)) in
  wf_linear (an_mean net) (an_dim net) w /\ wf_linear (an_logvar net) (an_dim net) w.

(** Replace entry j *)
Definition upd (j : nat) (t : R) (x : list R) : list R := firstn j x ++ t :: skipn (S j) x.

(** A step of an n-dimensional inverse auto-regressive flow: positive scales,
    entry d of the location and of the scale only depend on entries before d. *)
Definition autoregressive (n : nat) (step : list R -> list R * list R) : Prop :=
  forall x, length x = n ->
    length (fst (step x)) = n /\ length (snd (step x)) = n /\ Forall (fun v => 0 < v) (snd (step x)) /\
    forall x' d, agree d x x' ->
      nth d (fst (step x)) 0 = nth d (fst (step x')) 0 /\ nth d (snd (step x)) 0 = nth d (snd (step x')) 0.

(** Determinant by Laplace expansion along the first row *)
Definition minor0 (A : fm) (j : nat) : fm := fun i k => A (S i) (if (k <? j)%nat then k else S k).
Fixpoint ldet (n : nat) (A : fm) : R :=
  match n with
  | O => 1
  | S m => bsum (S m) (fun j => (-1) ^ j * A 0%nat j * ldet m (minor0 A j))
  end.

(** J is the Jacobian of f : R^n -> R^n at x *)
Definition is_jacobian (n : nat) (f : list R -> list R) (x : list R) (J : fm) : Prop :=
  forall d j, (d < n)%nat -> (j < n)%nat ->
    derivable_pt_lim (fun t => nth d (f (upd j t x)) 0) (nth j x 0) (J d j).

(** Log-density of independent Gaussians *)
Definition gauss_diag (x m v : list R) : R :=
  sumf (fun d => ln (gauss_pdf (nth d x 0) (nth d m 0) (/ nth d v 0))) (seq 0 (length x)).

(** Log-density of the transformed sample: change of variables through all steps *)
Inductive flow_density (n : nat) : list (list R -> list R * list R) -> list R -> R -> list R -> R -> Prop :=
| fd_nil x l : flow_density n [] x l x l
| fd_cons s steps x l J y l' :
    is_jacobian n (flow_step s) x J ->
    flow_density n steps (flow_step s x) (l - ln (Rabs (ldet n J))) y l' ->
    flow_density n (s :: steps) x l y l'.

(** All binary vectors of length d *)
Fixpoint binary (d : nat) : list (list R) :=
  match d with
  | O => [[]]
  | S d' => map (cons 0) (binary d') ++ map (cons 1) (binary d')
  end.

(** "name:key=value;key=value" *)
Fixpoint join (sep : ascii) (l : list (list ascii)) : list ascii :=
  match l with [] => [] | [p] => p | p :: l' => p ++ sep :: join sep l' end.
Definition render (name : list ascii) (kwargs : list (list ascii * list ascii)) (sep : ascii) : list ascii :=
  match kwargs with
  | [] => name
  | _ => name ++ ":"%char :: join sep (map (fun kv => fst kv ++ "="%char :: snd kv) kwargs)
  end.
(** No separator and no white space *)
Definition plain (s : list ascii) : Prop :=
  Forall (fun c => is_space c = false /\ c <> ":"%char /\ c <> ";"%char /\ c <> "="%char) s.
