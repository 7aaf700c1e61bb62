(** What a model set means: a list of emissions.  An emission is either one
    component of a parameter, or a mixture of emissions whose weights are one
    row of a parameter. *)
From Coq Require Import Reals List Arith Bool.
From Verif Require Import Prelude Vec Set_Model.
Import ListNotations.
Local Open Scope R_scope.

Inductive em : Type :=
| EComp (p row : nat) (nf : list R) (c : R)
| EMix (p row : nat) (cf : list R) (subs : list em).

(** Expected log-probabilities of the categories of a categorical with natural
    form (l_1 ... l_{n-1}, l_n): l_j + l_n, and l_n for the last one. *)
Definition cat_logprob (nf : list R) (j : nat) : R :=
  if Nat.eqb (S j) (length nf) then nth j nf 0 else nth j nf 0 + last nf 0.

Definition cat_logprobs (nf : list R) : list R := map (cat_logprob nf) (seq 0 (length nf)).

Definition e0 : em := EComp 0 0 [] 0.

(** The emissions of a set, by position. *)
Fixpoint denote (m : mset) : list em :=
  match m with
  | Leaf p _ nform c => map (fun k => EComp p k (nth k nform []) c) (seq 0 (length nform))
  | Joint l => (fix ds l := match l with [] => [] | m :: t => denote m ++ ds t end) l
  | Rep m r =>
      map (fun k => nth (k mod length (denote m)) (denote m) e0) (seq 0 (length (denote m) * r))
  | Mix p cform m =>
      let n := (length (denote m) / length cform)%nat in
      map (fun i => EMix p i (nth i cform [])
                      (map (fun j => nth (i * n + j) (denote m) e0) (seq 0 n)))
          (seq 0 (length cform))
  end.

(** exp of weight times likelihood of each component of a mixture. *)
Definition joint_probs (cf llhs : list R) : list R :=
  map2 (fun w l => exp (w + l)) (cat_logprobs cf) llhs.

(** Log-likelihood of a frame. *)
Fixpoint em_llh (x : list R) (e : em) : R :=
  match e with
  | EComp _ _ nf c => dot x nf + c
  | EMix _ _ cf subs => ln (rsum (joint_probs cf (map (em_llh x) subs)))
  end.

(** Posterior probabilities of the components of a mixture. *)
Definition em_post (x : list R) (cf : list R) (subs : list em) : list R :=
  let js := joint_probs cf (map (em_llh x) subs) in map (fun j => j / rsum js) js.

(** i-th entry of the statistics that a frame x seen by emission e with
    responsibility r brings to the row q of a parameter. *)
Fixpoint em_acc (q : nat * nat) (x : list R) (i : nat) (e : em) (r : R) : R :=
  match e with
  | EComp p row _ _ => if Nat.eqb p (fst q) && Nat.eqb row (snd q) then r * nth i x 0 else 0
  | EMix p row cf subs =>
      (if Nat.eqb p (fst q) && Nat.eqb row (snd q)
       then r * (if Nat.eqb (S i) (length subs) then 1 else nth i (em_post x cf subs) 0)
       else 0) +
      rsum (map2 (fun pr f => f (r * pr)) (em_post x cf subs) (map (em_acc q x i) subs))
  end.

(** Total over the positions and over the frames. *)
Definition acc_total (q : nat * nat) (i : nat) (es : list em) (stats resps : mat) : R :=
  rsum (map2 (fun x r => rsum (map2 (em_acc q x i) es r)) stats resps).

(** Models whose shapes agree. *)
Fixpoint wf (m : mset) : Prop :=
  match m with
  | Leaf _ d nform _ => Forall (fun w => length w = d) nform
  | Joint l => (fix wfs l := match l with [] => True | m :: t => wf m /\ wfs t end) l
  | Rep m r => wf m /\ (0 < r)%nat
  | Mix _ cform m =>
      wf m /\ (0 < length cform)%nat /\
      exists n, (0 < n)%nat /\ size m = (length cform * n)%nat /\
                Forall (fun w => length w = n) cform
  end.

(** The parameters of a model, and their shape (rows, columns). *)
Fixpoint params (m : mset) : list nat :=
  match m with
  | Leaf p _ _ _ => [p]
  | Joint l => (fix ps l := match l with [] => [] | m :: t => params m ++ ps t end) l
  | Rep m _ => params m
  | Mix p _ m => p :: params m
  end.

Fixpoint shape (m : mset) (p : nat) : option (nat * nat) :=
  match m with
  | Leaf q d nform _ => if Nat.eqb q p then Some (length nform, d) else None
  | Joint l =>
      (fix sh l := match l with
                   | [] => None
                   | m :: t => match shape m p with Some s => Some s | None => sh t end
                   end) l
  | Rep m _ => shape m p
  | Mix q cform m =>
      if Nat.eqb q p then Some (length cform, (length (denote m) / length cform)%nat)
      else shape m p
  end.

(** The dimension of the frames a model accepts. *)
Fixpoint accepts (d : nat) (m : mset) : Prop :=
  match m with
  | Leaf _ d' _ _ => d' = d
  | Joint l => (fix acs l := match l with [] => True | m :: t => accepts d m /\ acs t end) l
  | Rep m _ => accepts d m
  | Mix _ _ m => accepts d m
  end.

(** An emission without the names of the parameters. *)
Fixpoint erase (e : em) : single :=
  match e with
  | EComp _ _ nf c => SComp nf c
  | EMix _ _ cf subs => SMix cf (map erase subs)
  end.
