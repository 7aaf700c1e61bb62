(** Models of the commands creating phone-loops:
    /repo/beer/cli/subcommands/hmm/{mkphoneloop,mkphoneloopbigram}.py, on top of
    the phone-loops of HMM_Model.

    - Pickling is the identity; loading and compiling the decoding graph are
      left out, the command gets the transition matrix and the start and end
      states of the phones, in the order of the dictionaries.
    - A parameter of the weights is its prior and its posterior; a command line
      option is [None] when it is not given. *)
From Coq Require Import Reals String List Arith Bool.
From Verif Require Import Prelude Vec FB_Model Dist_Model SB_Model Edit_Model Dec_Model Set_Model HMM_Model Df_Model.
Import ListNotations.
Local Open Scope R_scope.

(** SBCategorical: its order, the prior and the posterior of its sticks; the
    concentration of SBCategoricalHyperPrior (prior and posterior are equal
    when it is created). *)
Record sbmodel : Type := {
  sb_ord : list nat;
  sb_prior : list stick;
  sb_post : list stick;
  sb_hyper : option gamma_par
}.

Inductive weights : Type :=
| WCat (prior post : list R)
| WCatSet (prior post : mat)
| WSB (s : sbmodel)
| WSBSet (n : nat) (prior post : list stick) (root : sbmodel).

(** argparse: a value that is given has to be one of the choices (the parser
    exits, OtherError); the default is not checked. *)
Definition parse_choice (choices : list string) (default : string) (given : option string) : result string :=
  match given with
  | None => Ok default
  | Some s => if existsb (String.eqb s) choices then Ok s else Err OtherError
  end.

(** mkphoneloop.py:11-13, categorical.py:15-18 *)
Definition build_categorical (size : nat) (c : R) : weights :=
  let a := categorical_default (uniform_weights size) c in WCat a a.

(** mkphoneloop.py:15-17, mkphoneloopbigram.py:11-13 *)
Definition build_categorical_2g (size : nat) (c : R) : weights :=
  let a := repeat (categorical_default (uniform_weights size) c) size in WCatSet a a.

(** categorical.py:21-26, 96-103 *)
Definition sb_create (size : nat) (c : R) : sbmodel :=
  {| sb_ord := seq 0 size; sb_prior := sb_default size c; sb_post := sb_default size c; sb_hyper := None |}.

(** mkphoneloop.py:19-21 *)
Definition build_sb (size : nat) (c : R) : weights := WSB (sb_create size c).

(** categoricalset.py:167-179 *)
Definition sbset_create (eps : R) (n : nat) (root : sbmodel) (strength : R) : weights :=
  WSBSet n (set_prior n strength (sb_mean eps (sb_ord root) (sb_post root)))
           (concat (repeat (sb_post root) n)) root.

(** mkphoneloop.py:23-27 *)
Definition build_hsb (eps : R) (size : nat) (c : R) : weights := sbset_create eps size (sb_create size c) c.

(** mkphoneloop.py:30-33, categorical.py:181-199 *)
Definition build_sbhp (size : nat) (c : R) : weights :=
  let g := default_rate [1 * c] 1 in
  WSB {| sb_ord := seq 0 size; sb_prior := on_concentration_update g (sb_default size c);
         sb_post := sb_default size c; sb_hyper := Some g |}.

(** mkphoneloop.py:36-44 *)
Definition bigram_prior : list string := ["hierarchical_dirichlet_process"; "dirichlet2"]%string.
Definition prior_names : list string :=
  ["dirichlet"; "dirichlet2"; "dirichlet_process"; "gamma_dirichlet_process";
   "hierarchical_dirichlet_process"]%string.

Definition build (eps : R) (name : string) (size : nat) (c : R) : result weights :=
  if String.eqb name "dirichlet" then Ok (build_categorical size c)
  else if String.eqb name "dirichlet2" then Ok (build_categorical_2g size c)
  else if String.eqb name "dirichlet_process" then Ok (build_sb size c)
  else if String.eqb name "gamma_dirichlet_process" then Ok (build_sbhp size c)
  else if String.eqb name "hierarchical_dirichlet_process" then Ok (build_hsb eps size c)
  else Err KeyError.

(** Expected log-likelihood of the one-hot data (phoneloop.py:57-59, 149-151) *)
Definition unigram_logw (K : nat) (w : weights) : option (list R) :=
  match w with
  | WCat _ post => Some (mixture_log_weights (dir_ess post))
  | WSB s => Some (map (sb_ellh (sb_ord s) (sb_post s)) (Vec.eye K))
  | _ => None
  end.
Definition bigram_logm (K : nat) (w : weights) : option mat :=
  match w with
  | WCatSet _ post => Some (catset_logm (map dir_ess post) K)
  | WSBSet n _ post root =>
      Some (sbset_logm (set_log_prob (sb_ord root) n (length (sb_post root)) post) K)
  | _ => None
  end.

Notation transitions := (nat -> nat -> lp) (only parsing).
Record loop : Type := { lo_bigram : bool; lo_weights : weights; lo_trans : transitions }.

(** phoneloop.py:38-50 and 129-141: the constructors call _on_weights_update.
    A PhoneLoop of a set (or the converse) is not built by the commands. *)
Definition mkloop (bigram : bool) (starts ends : list nat) (trans : transitions) (w : weights) : result loop :=
  match bigram, unigram_logw (length starts) w, bigram_logm (length starts) w with
  | false, Some logw, _ => Ok {| lo_bigram := false; lo_weights := w; lo_trans := on_weights_update logw starts ends trans |}
  | true, _, Some logm => Ok {| lo_bigram := true; lo_weights := w; lo_trans := bigram_on_weights_update logm starts ends trans |}
  | _, _, _ => Err OtherError
  end.

(** mkphoneloop.py:70-72: a concentration of zero is the same as none *)
Definition concentration_of (n : nat) (given : option R) : R :=
  match given with
  | Some c => if Req_EM_T c 0 then INR n / 2 else c
  | None => INR n / 2
  end.

(** mkphoneloop.py:47-77 *)
Definition mkphoneloop (eps : R) (prior : option string) (conc : option R) (starts ends : list nat) (trans : transitions)
  : result loop :=
  bindr (parse_choice prior_names "gamma_dirichlet_process" prior) (fun name =>
  bindr (build eps name (length starts) (concentration_of (length starts) conc)) (fun w =>
  mkloop (existsb (String.eqb name) bigram_prior) starts ends trans w)).

(** mkphoneloopbigram.py:16-24 *)
Definition prior_names_2g : list string := ["dirichlet2"; "hierarchical_dirichlet_process"]%string.

Definition build_2g (eps : R) (name : string) (size : nat) (unigram : weights) : result weights :=
  if String.eqb name "dirichlet2" then Ok (build_categorical_2g size 1)
  else if String.eqb name "hierarchical_dirichlet_process" then
    match unigram with
    | WSB s => Ok (sbset_create eps size s (INR size / 2))
    | _ => Err AttributeError          (* no attribute stickbreaking *)
    end
  else Err KeyError.

(** mkphoneloopbigram.py:27-49; the dictionary is read before
    ploop.categorical, which a bigram phone-loop does not have. *)
Definition mkphoneloopbigram (eps : R) (prior : option string) (ploop : loop) (starts ends : list nat) : result loop :=
  bindr (parse_choice prior_names_2g "gamma_dirichlet_process" prior) (fun name =>
  if negb (existsb (String.eqb name) prior_names_2g) then Err KeyError
  else if lo_bigram ploop then Err AttributeError
  else bindr (build_2g eps name (length starts) (lo_weights ploop)) (fun w =>
       mkloop true starts ends (lo_trans ploop) w)).

(** HMM.__init__ (hmm.py:33-34) wraps ploop.modelset, which is already a
    DynamicallyOrderedModelSet: the inner set is called without order
    (modelset.py:140-154). *)
Definition nested_ellh (m : mset) (order : list nat) (x : list R) : result (list R) :=
  bindr (dyn_ellh m (seq 0 (size m)) x) (fun r =>
  mapM (fun k => if Nat.ltb k (size m) then Ok (nth k r 0) else Err IndexError) order).

Definition nested_accumulate (m : mset) (order : list nat) (stats resps : mat) : sdict :=
  dyn_accumulate m (seq 0 (size m)) stats (map (scatter (size m) order) resps).
