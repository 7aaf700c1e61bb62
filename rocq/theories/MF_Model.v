(** Model of the mean field factorisation of composite models and of the
    methods of beer/models/basemodel.py that walk over the parameters.

    A parameter is identified by its uuid (parameters.py:21,42-48). *)
From Coq Require Import List Arith Bool.
From Verif Require Import Prelude.
Import ListNotations.

(** The models, as far as mean_field_factorization is concerned.

    - [MParams ps]: a model returning the single group of its own parameters:
      Normal (normal.py:136-137), NormalSet (normalset.py:114-115),
      Categorical and SBCategorical (categorical.py:67-68,155-156),
      CategoricalSet and SBCategoricalSet (categoricalset.py:43-44,296-297),
      AffineTransform (gsm.py:169-170), LinearTransform (gsm.py:319-320),
      the [self.means] group of a GSMSet (gsm.py:725), the class means of
      marginalpldaset.py:123.
    - [MHidden ps]: HierarchicalAffineTransform, which returns no group
      although it holds parameters (gsm.py:258-262).
    - [MJoint ms]: JointModelSet (modelset.py:59-66).
    - [MPass m]: RepeatedModelSet, DynamicallyOrderedModelSet
      (modelset.py:134-135,188-189), HMM (hmm.py:67-68), VAE (vae.py:57-58).
    - [MMerge m c]: Mixture (mixture.py:57-65), MixtureSet
      (mixtureset.py:72-80), PhoneLoop and BigramPhoneLoop
      (phoneloop.py:70-78,162-170).
    - [MConcat ms]: GSM, GSMSet, HGSM (gsm.py:589-591,723-728,831-833),
      MarginalPLDASet (marginalpldaset.py:120-125). *)
Inductive model : Type :=
| MParams (ps : list nat)
| MHidden (ps : list nat)
| MJoint (ms : list model)
| MPass (m : model)
| MMerge (m c : model)
| MConcat (ms : list model).

(** mixture.py:60-65, mixtureset.py:75-80, phoneloop.py:73-78,165-170.
    [range(abs(diff))] pads the shorter list; the sign of [diff] is kept by
    comparing the two lengths. *)
Definition pad_merge (l1 l2 : list (list nat)) : list (list nat) :=
  let absdiff := (length l1 - length l2) + (length l2 - length l1) in
  let '(a, b) := if length l2 <? length l1
                 then (l1, l2 ++ repeat [] absdiff)
                 else (l1 ++ repeat [] absdiff, l2) in
  map (fun uv => fst uv ++ snd uv) (combine a b).

(** modelset.py:61-65, one iteration *)
Definition joint_step (param_groups : list nat) (gs : list (list nat))
  : result (list nat) :=
  if 1 <? length gs then Err ValueError
  else match gs with
       | [] => Err IndexError
       | g :: _ => Ok (param_groups ++ g)
       end.

Fixpoint mff (m : model) : result (list (list nat)) :=
  match m with
  | MParams ps => Ok [ps]
  | MHidden _ => Ok []
  | MJoint ms =>
      bindr ((fix go (acc : list nat) (l : list model) : result (list nat) :=
                match l with
                | [] => Ok acc
                | x :: t => bindr (mff x) (fun gs =>
                            bindr (joint_step acc gs) (fun acc' => go acc' t))
                end) [] ms)
            (fun g => Ok [g])
  | MPass m' => mff m'
  | MMerge m' c => bindr (mff m') (fun l1 => bindr (mff c) (fun l2 => Ok (pad_merge l1 l2)))
  | MConcat ms =>
      (fix go (l : list model) : result (list (list nat)) :=
         match l with
         | [] => Ok []
         | x :: t => bindr (mff x) (fun gs => bindr (go t) (fun r => Ok (gs ++ r)))
         end) ms
  end.

(** ** basemodel.py:29-63: bayesian_parameters
    [typ]: is the type test [paramtype is None or type(param) == paramtype];
    [filt]: [paramfilter is None or paramfilter(param)]. *)
Definition yield_params (typ filt : nat -> bool) (group : list nat) : list nat :=
  flat_map (fun p => if typ p then if filt p then [p] else [] else []) group.

(** keepgroups=False *)
Definition bayesian_parameters (typ filt : nat -> bool) (m : model) : result (list nat) :=
  bindr (mff m) (fun gs =>
  Ok (fold_left (fun out g => out ++ yield_params typ filt g) gs [])).

(** keepgroups=True *)
Definition bayesian_groups (typ filt : nat -> bool) (m : model) : result (list (list nat)) :=
  bindr (mff m) (fun gs =>
  Ok (fold_left (fun out g =>
        let group := yield_params typ filt g in
        if 0 <? length group then out ++ [group] else out) gs [])).

(** ** basemodel.py:88-104: replace_parameters

    The torch module tree.  [NParam u]: a Bayesian parameter (a module whose
    equality and hash are those of its uuid, parameters.py:42-48).
    [NMod ismodel cs]: any other module; [ismodel]: isinstance(child, Model)
    -- false for torch containers such as the ModuleList of a JointModelSet
    (modelset.py:53).  [cs]: the ordered dictionary of named children.

    torch's named_children yields each distinct child once ([memo]); a
    parameter registered under two names of the same module is therefore
    visited under its first name only.  A sub-module registered twice is one
    object, so its second occurrence sees what was done to the first: in the
    tree both occurrences are rewritten.  Not modelled: a sub-module shared by
    two different parents is rewritten twice by the code (same result when no
    new parameter is itself a key of the dictionary). *)
Inductive node : Type :=
| NParam (u : nat)
| NMod (ismodel : bool) (cs : list (nat * node)).

(** [rm u = Some v]: the dictionary maps the parameter u to v. *)
Fixpoint replace_params (rm : nat -> option nat) (n : node) : node :=
  match n with
  | NParam u => NParam u
  | NMod b cs =>
      NMod b
        ((fix go (memo : list nat) (l : list (nat * node)) : list (nat * node) :=
            match l with
            | [] => []
            | (name, child) :: t =>
                match child with
                | NParam u =>
                    if in_dec Nat.eq_dec u memo then (name, NParam u) :: go memo t
                    else (name, match rm u with Some v => NParam v | None => NParam u end)
                         :: go (u :: memo) t
                | NMod true _ => (name, replace_params rm child) :: go memo t
                | NMod false _ => (name, child) :: go memo t
                end
            end) [] cs)
  end.
