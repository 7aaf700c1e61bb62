(** Models of the conjugate parameters, the objective function and the
    optimisers: beer/models/parameters.py, beer/inference/objectives.py,
    beer/inference/optimizers.py, and of the training commands
    beer/cli/subcommands/hmm/train.py, accumulate.py and update.py.

    Parameters are identified by natural numbers (their uuid, parameters.py:21,
    42-48: hashing and equality only look at the uuid).  A posterior/prior is
    represented by its vector of natural parameters (that the standard
    parameters carry the same information is C33-C39); numbers are exact
    reals. *)
From Coq Require Import Reals List Arith Bool ZArith.
From Verif Require Import Prelude Vec Edit_Model Dec_Model.
Import ListNotations.
Local Open Scope R_scope.

(** ** Parameters *)

(** parameters.py:17-22,90-99.  [p_cbs]: the set of pairs
    (callback, notify_before_update). *)
Record param : Type := {
  p_prior : list R;
  p_post : list R;
  p_stats : list R;
  p_cbs : list (nat * bool)
}.

Definition set_stats (p : param) (s : list R) : param :=
  {| p_prior := p_prior p; p_post := p_post p; p_stats := s; p_cbs := p_cbs p |}.

Definition set_post (p : param) (v : list R) : param :=
  {| p_prior := p_prior p; p_post := v; p_stats := p_stats p; p_cbs := p_cbs p |}.

Definition cb_eq_dec (x y : nat * bool) : {x = y} + {x <> y}.
Proof. decide equality; [apply bool_dec | apply Nat.eq_dec]. Defined.

(** parameters.py:56-65: set.add *)
Definition register_callback (p : param) (cb : nat) (before : bool) : param :=
  if in_dec cb_eq_dec (cb, before) (p_cbs p) then p
  else {| p_prior := p_prior p; p_post := p_post p; p_stats := p_stats p;
          p_cbs := p_cbs p ++ [(cb, before)] |}.

(** parameters.py:111-113 *)
Definition zero_stats (p : param) : param :=
  set_stats p (vzeros (length (p_stats p))).

(** parameters.py:115-129 (the detach() is the identity on values). *)
Definition store_stats (p : param) (s : list R) : param := set_stats p s.

(** An observer call: which callback, and the posterior it sees. *)
Definition event : Type := (nat * list R)%type.

Section Update.
  (** [eff cb p] is what the callback cb does to the parameter;
      [ord] is the iteration order of the callback set. *)
  Variable eff : nat -> param -> param.
  Variable ord : list (nat * bool) -> list (nat * bool).

  (** parameters.py:50-54 *)
  Definition dispatch_one (before : bool) (st : param * list event) (c : nat * bool)
    : param * list event :=
    if Bool.eqb (snd c) before
    then (eff (fst c) (fst st), snd st ++ [(fst c, p_post (fst st))])
    else st.

  Definition dispatch (before : bool) (st : param * list event) : param * list event :=
    fold_left (dispatch_one before) (ord (p_cbs (fst st))) st.

  (** parameters.py:134-141, the assignment *)
  Definition new_nparams (lrate : R) (p : param) : list R :=
    let natural_grad := vsub (vadd (p_prior p) (p_stats p)) (p_post p) in
    vadd (p_post p) (vscale lrate natural_grad).

  Definition natural_grad_update (lrate : R) (st : param * list event)
    : param * list event :=
    let st1 := dispatch true st in
    let st2 := (set_post (fst st1) (new_nparams lrate (fst st1)), snd st1) in
    dispatch false st2.
End Update.

(** The same for a parameter without observers. *)
Definition ngu (lrate : R) (p : param) : param := set_post p (new_nparams lrate p).

(** ** Conjugate optimiser: optimizers.py:5-31 *)
Definition heap : Type := nat -> param.

Definition hset (h : heap) (k : nat) (p : param) : heap :=
  fun i => if Nat.eq_dec i k then p else h i.

Record optim : Type := {
  o_groups : list (list nat);
  o_lrate : R;
  o_count : nat
}.

(** optimizers.py:8-13 *)
Definition new_optim (groups : list (list nat)) (lrate : R) : optim :=
  {| o_groups := groups; o_lrate := lrate; o_count := 0 |}.

(** optimizers.py:15-16 *)
Definition state_dict (o : optim) : R * nat := (o_lrate o, o_count o).

(** optimizers.py:18-20 *)
Definition load_state_dict (o : optim) (s : R * nat) : optim :=
  {| o_groups := o_groups o; o_lrate := fst s; o_count := snd s |}.

(** optimizers.py:22-25 *)
Definition init_step (o : optim) (h : heap) : heap :=
  fold_left (fun h1 g => fold_left (fun h2 k => hset h2 k (zero_stats (h2 k))) g h1)
            (o_groups o) h.

(** optimizers.py:27-31; the log records the updated parameters. *)
Definition opt_state : Type := (optim * heap * list nat)%type.

Definition upd_param (lrate : R) (hl : heap * list nat) (k : nat) : heap * list nat :=
  (hset (fst hl) k (ngu lrate (fst hl k)), snd hl ++ [k]).

Definition step (s : opt_state) : opt_state :=
  let '(o, h, log) := s in
  let o' := {| o_groups := o_groups o; o_lrate := o_lrate o; o_count := S (o_count o) |} in
  match o_groups o with
  | [] => (o', h, log)
  | _ => let g := nth (o_count o mod length (o_groups o)) (o_groups o) [] in
         let hl := fold_left (upd_param (o_lrate o)) g (h, log) in
         (o', fst hl, snd hl)
  end.

(** What a training program does between two steps. *)
Inductive op : Type :=
| OStep
| OInit
| OStore (k : nat) (s : list R)
| OLrate (r : R)
| OSaveLoad.  (* crash, then a fresh optimiser on the same groups restored from
                 the state_dict *)

Definition do_op (s : opt_state) (a : op) : opt_state :=
  let '(o, h, log) := s in
  match a with
  | OStep => step s
  | OInit => (o, init_step o h, log)
  | OStore k v => (o, hset h k (store_stats (h k) v), log)
  | OLrate r => ({| o_groups := o_groups o; o_lrate := r; o_count := o_count o |}, h, log)
  | OSaveLoad => (load_state_dict (new_optim (o_groups o) 1) (state_dict o), h, log)
  end.

Definition run_ops (ops : list op) (s : opt_state) : opt_state := fold_left do_op ops s.

(** ** Generic optimiser: optimizers.py:34-67.
    The standard optimiser is any state machine; a state_dict is a dictionary
    with the optional entries 'cjg_optim' and 'std_optim'. *)
Section VBOptimizer.
  Variable S : Type.          (* state_dict of the standard optimiser *)

  Record vboptim : Type := {
    vb_cjg : option optim;
    vb_std : option S
  }.

  Definition vb_state_dict (v : vboptim) : option (R * nat) * option S :=
    (option_map state_dict (vb_cjg v), vb_std v).

  (** optimizers.py:51-55: KeyError when the entry is missing. *)
  Definition vb_load_state_dict (v : vboptim) (d : option (R * nat) * option S)
    : result vboptim :=
    bindr (match vb_cjg v with
           | None => Ok None
           | Some o => match fst d with
                       | None => Err KeyError
                       | Some s => Ok (Some (load_state_dict o s))
                       end
           end) (fun c =>
    bindr (match vb_std v with
           | None => Ok None
           | Some _ => match snd d with
                       | None => Err KeyError
                       | Some s => Ok (Some s)
                       end
           end) (fun s => Ok {| vb_cjg := c; vb_std := s |})).

  (** optimizers.py:57-59: pickle is not imported in this module. *)
  Definition vb_load_state (v : vboptim) (path : list nat) : result vboptim :=
    Err NameError.
End VBOptimizer.

(** ** Objective function: objectives.py *)

(** The value is a python float for the empty instance and a tensor
    otherwise (objectives.py:170-171, 180). *)
Inductive value : Type :=
| VFloat (r : R)
| VTensor (r : R).

Definition val_of (v : value) : R := match v with VFloat r | VTensor r => r end.

(** python/torch '+' *)
Definition vplus (a b : value) : value :=
  match a, b with
  | VFloat x, VFloat y => VFloat (x + y)
  | _, _ => VTensor (val_of a + val_of b)
  end.

Definition accs : Type := list (nat * list R).

Record elbo : Type := {
  e_value : value;
  e_acc : accs;
  e_params : list nat;       (* a set *)
  e_mb : nat;
  e_ds : nat
}.

Definition dget_acc (a : accs) (k : nat) : option (list R) := dget Nat.eq_dec a k.

Section Elbo.
  (** [enum s] is the iteration order of a set given as a duplicate-free
      list. *)
  Variable enum : list nat -> list nat.

  Definition kinter (k1 k2 : list nat) : list nat :=
    filter (fun k => inb k k2) k1.
  Definition kdiff (k1 k2 : list nat) : list nat :=
    filter (fun k => negb (inb k k2)) k1.

  (** objectives.py:10-34 *)
  Definition add_acc_stats (a1 a2 : accs) : accs :=
    let k1 := map fst a1 in
    let k2 := map fst a2 in
    let get (a : accs) k := match dget_acc a k with Some v => v | None => [] end in
    let n1 := fold_left (fun d k => dset d k (vadd (get a1 k) (get a2 k)))
                        (enum (kinter k1 k2)) [] in
    let n2 := fold_left (fun d k => dset d k (get a1 k)) (enum (kdiff k1 k2)) n1 in
    fold_left (fun d k => dset d k (get a2 k)) (enum (kdiff k2 k1)) n2.

  Definition set_union (s1 s2 : list nat) : list nat := s1 ++ kdiff s2 s1.

  (** objectives.py:78-90 *)
  Definition elbo_add (e1 e2 : elbo) : result elbo :=
    if Nat.eqb (e_ds e1) (e_ds e2) then
      Ok {| e_value := vplus (e_value e1) (e_value e2);
            e_acc := add_acc_stats (e_acc e1) (e_acc e2);
            e_params := set_union (e_params e1) (e_params e2);
            e_mb := e_mb e1 + e_mb e2;
            e_ds := e_ds e1 |}
    else Err ValueError.

  (** objectives.py:98-107, the loop over the parameters *)
  Definition backward_one (scale : R) (acc : accs) (h : heap) (k : nat) : heap :=
    match dget_acc acc k with
    | Some s => hset h k (store_stats (h k) (vscale scale s))
    | None => h
    end.

  (** objectives.py:92-107.  The gradient of the standard parameters is not
      modelled; a float value has no attribute requires_grad. *)
  Definition backward (std_params : bool) (e : elbo) (h : heap) : result heap :=
    match std_params, e_value e with
    | true, VFloat _ => Err AttributeError
    | _, _ =>
      if Nat.eqb (e_mb e) 0 then Err ZeroDivisionError
      else Ok (fold_left (backward_one (INR (e_ds e) / INR (e_mb e)) (e_acc e))
                         (enum (e_params e)) h)
    end.

  (** objectives.py:109-116 *)
  Definition sync (e : elbo) (model_params : list nat) : elbo :=
    {| e_value := e_value e; e_acc := e_acc e; e_params := nodup Nat.eq_dec model_params;
       e_mb := e_mb e; e_ds := e_ds e |}.

  (** objectives.py:169-171 *)
  Definition empty_elbo (ds : nat) : result elbo :=
    if Nat.ltb 0 ds
    then Ok {| e_value := VFloat 0; e_acc := []; e_params := []; e_mb := 0; e_ds := ds |}
    else Err ValueError.

  (** What the objective needs from a model for one minibatch: the number of
      data points, the expected log-likelihoods, the accumulated statistics. *)
  Record batch : Type := {
    b_llh : list R;           (* one value per data point *)
    b_acc : accs
  }.

  (** objectives.py:176-190.  [kl] is model.kl_div_posterior_prior(). *)
  Definition elbo_of (params : list nat) (kl : R) (ds : Z) (b : batch) : result elbo :=
    let mb := length (b_llh b) in
    let ds' := if (ds <=? 0)%Z then mb else Z.to_nat ds in
    if Nat.eqb mb 0 then Err ZeroDivisionError
    else
      let scale := INR ds' / INR mb in
      Ok {| e_value := VTensor (scale * rsum (b_llh b) - kl);
            e_acc := b_acc b; e_params := nodup Nat.eq_dec params;
            e_mb := mb; e_ds := ds' |}.

  (** ** hmm train: train.py:25-63 *)

  (** The names exported by "import beer": only those of beer/inference matter
      here (beer/__init__.py:8-13, optimizers.py:2, objectives.py:7). *)
  Inductive bname : Type :=
  | N_evidence_lower_bound | N_VBConjugateOptimizer | N_VBOptimizer
  | N_BayesianModelOptimizer.

  Definition beer_names : list bname :=
    [N_evidence_lower_bound; N_VBConjugateOptimizer; N_VBOptimizer].

  Definition bname_eqb (a b : bname) : bool :=
    match a, b with
    | N_evidence_lower_bound, N_evidence_lower_bound
    | N_VBConjugateOptimizer, N_VBConjugateOptimizer
    | N_VBOptimizer, N_VBOptimizer
    | N_BayesianModelOptimizer, N_BayesianModelOptimizer => true
    | _, _ => false
    end.

  Definition getattr_beer (n : bname) : result unit :=
    if existsb (bname_eqb n) beer_names then Ok tt else Err AttributeError.

  (** train.py:37-58, one epoch over n utterances: the numbers of the
      utterances included in each update, and those left at the end.
      python's i % b has the sign of b, as Z.modulo; b = 0 raises. *)
  Fixpoint epoch_loop (b : Z) (utts : list nat) (pending : list nat) (updates : list (list nat))
    : result (list (list nat) * list nat) :=
    match utts with
    | [] => Ok (updates, pending)
    | i :: t =>
      let pending' := pending ++ [i] in
      if (b =? 0)%Z then Err ZeroDivisionError
      else if (Z.of_nat i mod b =? 0)%Z
           then epoch_loop b t [] (updates ++ [pending'])
           else epoch_loop b t pending' updates
    end.

  Definition train_epoch (b : Z) (n : nat) : result (list (list nat) * list nat) :=
    epoch_loop b (seq 1 n) [] [].

  (** train.py:25-69 up to the training loop. *)
  Definition train_main (b : Z) (n : nat) : result (list (list nat) * list nat) :=
    bindr (getattr_beer N_BayesianModelOptimizer) (fun _ => train_epoch b n).

  (** ** hmm accumulate: accumulate.py:28-66.
      [data] is the data set: what each known utterance contributes, for the
      graph chosen by the command; the job reads utterance ids on stdin. *)
  Definition acc_utt (params : list nat) (kl : R) (ds : nat) (data : list (nat * batch))
      (st : option nat * elbo * nat) (u : nat) : result (option nat * elbo * nat) :=
    let '(utt, e, count) := st in
    match dget Nat.eq_dec data u with
    | None => (* the warning reads the variable [utt] *)
      match utt with None => Err NameError | Some _ => Ok (utt, e, count) end
    | Some b =>
      bindr (elbo_of params kl (Z.of_nat ds) b) (fun e1 =>
      bindr (elbo_add e e1) (fun e2 => Ok (Some u, e2, S count)))
    end.

  (** The result is dumped on disk before the final message; the message
      divides by the number of utterances. *)
  Definition accumulate_main (params : list nat) (kl : R) (ds : nat)
      (data : list (nat * batch)) (utts : list nat) : result (elbo * nat) :=
    bindr (empty_elbo ds) (fun e0 =>
    bindr (foldM (acc_utt params kl ds data) utts (None, e0, 0%nat)) (fun st =>
      Ok (snd (fst st), snd st))).

  (** ** hmm update: update.py:21-70 *)
  Definition update_loop (st : option (elbo * nat)) (x : elbo * nat)
    : result (option (elbo * nat)) :=
    match st with
    | None => Ok (Some x)
    | Some (e, n) => bindr (elbo_add e (fst x)) (fun e' => Ok (Some (e', (n + snd x)%nat)))
    end.

  Definition update_main (all_params : list nat) (groups : list (list nat)) (lrate : R)
      (saved : option (R * nat)) (h : heap) (jobs : list (elbo * nat))
    : result (heap * (R * nat)) :=
    let o0 := new_optim groups lrate in
    let o := match saved with None => o0 | Some s => load_state_dict o0 s end in
    let h0 := init_step o h in
    bindr (foldM update_loop jobs None) (fun st =>
    match st with
    | None => Err AttributeError      (* None.sync *)
    | Some (e, n) =>
      bindr (backward true (sync e all_params) h0) (fun h1 =>
      let '(o', h2, _) := step (o, h1, []) in
      Ok (h2, state_dict o'))
    end).
End Elbo.
