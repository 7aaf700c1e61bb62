(** Model of beer/nnet: arnet.py, problayers.py, parse_nnet_element of
    neuralnetwork.py, and the residual blocks.

    Weights, biases and the draws of [random.choices] are arguments; the
    activation is a real function applied to every unit (element-wise torch
    modules).  One row of a mini-batch is modelled: all layers work row by row.
    Random noise is an argument. *)
From Coq Require Import Reals List Arith Bool Ascii.
From Verif Require Import Prelude Vec.
Import ListNotations.
Local Open Scope R_scope.

(** ** arnet.py *)

(** arnet.py 10-28 *)
Definition create_mask (ordering max_connections : list nat) : list (list R) :=
  map (fun m_i => map (fun order => if (order + 1 <=? m_i + 1)%nat then 1 else 0) ordering) max_connections.

(** arnet.py 31-51 *)
Definition create_final_mask (ordering max_connections : list nat) : list (list R) :=
  map (fun order => map (fun m_j => if (m_j + 1 <? order + 1)%nat then 1 else 0) max_connections) ordering.

(** torch.nn.Linear: weight matrix (one row per output) and bias *)
Record linear : Type := { weight : list (list R); bias : list R }.
Definition linear_fwd (l : linear) (x : list R) : list R :=
  map2 (fun w b => dot w x + b) (weight l) (bias l).

(** arnet.py 69-74 *)
Definition masked_fwd (mask : list (list R)) (l : linear) (x : list R) : list R :=
  linear_fwd {| weight := map2 vmul (weight l) mask; bias := bias l |} x.

Definition sigmoid (x : R) : R := / (1 + exp (- x)).

(** arnet.py 90-94 *)
Definition ar_normal_fwd (mask : list (list R)) (h2mean h2logvar : linear) (h : list R) : list R * list R :=
  let mean := masked_fwd mask h2mean h in
  let variance := map (fun lv => / 100 + sigmoid lv) (masked_fwd mask h2logvar h) in
  (map2 (fun v m => (1 - v) * m) variance mean, variance).

(** What AutoRegressiveNetwork builds.  [an_flow]: the transformation of the
    flow parameters merged in the first layer (None if flow_params_dim = 0). *)
Record arnet : Type := {
  an_dim : nat;
  an_layers : list (list nat * linear);   (* drawn connections, weights *)
  an_flow : option linear;
  an_mean : linear;
  an_logvar : linear
}.

(** arnet.py 106-130: which calls succeed.  random.choices on an empty range
    and layer_connections[-1] of an empty list raise IndexError. *)
Definition build_arnet (dim_in : nat) (draws : list (list nat)) (width : nat) (weights : list linear)
  (flow : option linear) (mean logvar : linear) : result arnet :=
  if (0 <? length draws)%nat && (0 <? width)%nat && (dim_in - 1 =? 0)%nat then Err IndexError
  else match draws with
       | [] => Err IndexError
       | _ => Ok {| an_dim := dim_in; an_layers := combine draws weights; an_flow := flow;
                    an_mean := mean; an_logvar := logvar |}
       end.

(** Hidden layers (arnet.py 114-124 and 98-103): masks chained on the previous
    connections; only the first one adds the flow parameters. *)
Fixpoint hidden_fwd (act : R -> R) (ordering : list nat) (layers : list (list nat * linear))
  (extra : option (list R)) (h : list R) : list R :=
  match layers with
  | [] => h
  | (conns, l) :: layers' =>
      let z := masked_fwd (create_mask ordering conns) l h in
      let z := match extra with None => z | Some e => vadd z e end in
      hidden_fwd act conns layers' None (map act z)
  end.

Fixpoint last_conns (ordering : list nat) (layers : list (list nat * linear)) : list nat :=
  match layers with [] => ordering | (c, _) :: layers' => last_conns c layers' end.

(** The forward pass (arnet.py 97-103).  Without [an_flow] the network takes one
    input (a second one is a TypeError) and [flow] is unused. *)
Definition arnet_fwd (act : R -> R) (net : arnet) (x flow : list R) : list R * list R :=
  let ordering := seq 0 (an_dim net) in
  let extra := match an_flow net with None => None | Some l => Some (linear_fwd l flow) end in
  let h := hidden_fwd act ordering (an_layers net) extra x in
  ar_normal_fwd (create_final_mask ordering (last_conns ordering (an_layers net)))
    (an_mean net) (an_logvar net) h.

(** ** problayers.py *)

(** torch.nn.Softplus(beta=1, threshold=20) *)
Definition softplus20 (x : R) : R := if Rlt_dec 20 x then x else ln (1 + exp x).

(** problayers.py 83-87 *)
Definition normal_llh (data means variances : list R) : R :=
  let dim := INR (length means) in
  let delta := rsum (map2 (fun dm v => dm ^ 2 / v) (vsub data means) variances) in
  - / 2 * (rsum (map ln variances) + delta + dim * ln (2 * PI)).

(** problayers.py 67-69 *)
Definition diag_fwd (nonlin : R -> R) (mean logvar : linear) (x : list R) : list R * list R :=
  (linear_fwd mean x, map nonlin (linear_fwd logvar x)).

(** problayers.py 71-81 *)
Definition diag_samples (use_mean : bool) (means variances noise : list R) : list R * R :=
  let samples := if use_mean then means else vadd means (vmul (map sqrt variances) noise) in
  (samples, normal_llh samples means variances).

(** problayers.py 102-106: one log-variance, padded by ones *)
Definition iso_fwd (nonlin : R -> R) (mean logvar : linear) (x : list R) : list R * list R :=
  let means := linear_fwd mean x in
  (means, map (fun _ => match map nonlin (linear_fwd logvar x) with v :: _ => v * 1 | [] => 0 end) means).

(** problayers.py 130-134 *)
Definition identity_llh (data means : list R) : R :=
  - / 2 * (rsum (map (fun d => d ^ 2) (vsub data means)) + INR (length means) * ln (2 * PI)).

(** problayers.py 156-161 *)
Definition bernoulli_llh (eps : R) (data means : list R) : R :=
  rsum (map2 (fun x m => x * ln (eps + m) + (1 - x) * ln (eps + 1 - m)) data means).

(** problayers.py 179-198: the steps are functions of the current value and the
    flow parameters *)
Definition flow_step (step : list R -> list R * list R) (flow : list R) : list R :=
  let '(m, v) := step flow in vadd m (vmul (map sqrt v) flow).

Fixpoint iaf_loop (steps : list (list R -> list R * list R)) (flow : list R) (llh : R) : list R * R :=
  match steps with
  | [] => (flow, llh)
  | s :: steps' => iaf_loop steps' (flow_step s flow) (llh + - / 2 * rsum (map ln (snd (s flow))))
  end.

Definition iaf_samples (use_mean : bool) (steps : list (list R -> list R * list R))
  (means variances noise : list R) : list R * R :=
  let dim := INR (length means) in
  let '(flow, llh) :=
    if use_mean then (means, 0)
    else (vadd means (vmul (map sqrt variances) noise),
          - / 2 * (rsum (map (fun z => z ^ 2) noise) + dim * ln (2 * PI))) in
  iaf_loop steps flow (llh - / 2 * rsum (map ln variances)).

(** ** neuralnetwork.py *)

(** Strings are lists of ASCII characters. *)
Notation str := (list ascii).

(** White space removed by str.split() *)
Definition is_space (c : ascii) : bool :=
  let n := nat_of_ascii c in ((9 <=? n)%nat && (n <=? 13)%nat) || ((28 <=? n)%nat && (n <=? 32)%nat).

(** str.split(c) *)
Fixpoint split_on (c : ascii) (s : str) : list str :=
  match s with
  | [] => [[]]
  | a :: s' => if Ascii.eqb a c then [] :: split_on c s'
               else match split_on c s' with p :: ps => (a :: p) :: ps | [] => [[a]] end
  end.

Fixpoint str_eqb (a b : str) : bool :=
  match a, b with
  | [], [] => true
  | x :: a', y :: b' => Ascii.eqb x y && str_eqb a' b'
  | _, _ => false
  end.

(** d[k] = v on an insertion-ordered dictionary *)
Fixpoint dict_set (k v : str) (d : list (str * str)) : list (str * str) :=
  match d with
  | [] => [(k, v)]
  | (k', v') :: d' => if str_eqb k k' then (k, v) :: d' else (k', v') :: dict_set k v d'
  end.

(** neuralnetwork.py 82-108.  Unpacking a split of the wrong length raises
    ValueError. *)
Definition parse_element (strval : str) : result (str * list (str * str)) :=
  let nospace := filter (fun c => negb (is_space c)) strval in
  if existsb (Ascii.eqb ":") nospace then
    match split_on ":" nospace with
    | [name; args] =>
        bindr (foldM (fun d arg => match split_on "=" arg with
                                   | [k; v] => Ok (dict_set k v d)
                                   | _ => Err ValueError
                                   end) (split_on ";" args) [])
          (fun d => Ok (name, d))
    | _ => Err ValueError
    end
  else Ok (nospace, []).

(** ** residual.py *)

(** residual.py 22-25 *)
Definition residual_block (act : R -> R) (l1 l2 : linear) (x : list R) : list R :=
  vadd (map act (linear_fwd l2 (map act (linear_fwd l1 x)))) x.
(** residual.py 30-48 *)
Definition residual_net (act : R -> R) (blocks : list (linear * linear)) (x : list R) : list R :=
  fold_left (fun h b => residual_block act (fst b) (snd b) h) blocks x.
