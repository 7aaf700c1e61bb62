(** Models of the commands that initialize the units of a subspace phone-loop
    from a trained subspace model, and of the pairing of the languages in the
    training command:
    /repo/beer/cli/subcommands/shmm/init.py,
    /repo/beer/cli/subcommands/hshmm/init.py,
    /repo/beer/cli/subcommands/hshmm/train.py:63-150.

    - Pickling and logging are left out.
    - The emissions of the units are a MixtureSet over a NormalSet; the pdf-vectors
      of its two subspace parameters are lists of rows, written through views
      (gsm.py:373-395).  Their order is that of mixtureset.py:69-77: the
      densities come before the weights.
    - The pdf-vectors received are those of expected_pdfvecs (Gs_Model.v). *)
From Coq Require Import Reals String List Arith Bool ZArith.
From Verif Require Import Prelude Vec Gs_Model Gb_Model Sp_Model.
Import ListNotations.
Local Open Scope nat_scope.

(** pdfvecs[idx: idx + totdim].reshape(k, q), gsm.py:444-450 *)
Definition take_rows (k q idx : nat) (v : list R) : result (list (list R)) :=
  let s := gslice idx (idx + k * q) v in
  if Nat.eqb (length s) (k * q) then Ok (groups k q s) else Err RuntimeError.

(** gsm.py:453-456 for the view of unit [fst uv] (shmm/init.py:15-19), [qm] and
    [qw] numbers in a row of the densities and of the weights *)
Definition update_unit (nstates ncpm qm qw : nat) (st : list (list R) * list (list R)) (uv : nat * list R)
  : result (list (list R) * list (list R)) :=
  let '(m, w) := st in
  let a := fst uv * nstates in
  let b := (fst uv + 1) * nstates in
  let km := length (gslice (a * ncpm) (b * ncpm) m) in
  let kw := length (gslice a b w) in
  bindr (take_rows km qm 0 (snd uv)) (fun rm =>
  bindr (take_rows kw qw (km * qm) (snd uv)) (fun rw =>
  Ok (write_rows (a * ncpm) rm m, write_rows a rw w))).

(** shmm/init.py:42-48: zip over the units and the pdf-vectors *)
Definition init_loop (nunits nstates ncpm qm qw : nat) (pdfvecs : list (list R))
    (st : list (list R) * list (list R)) : result (list (list R) * list (list R)) :=
  foldM (update_unit nstates ncpm qm qw) (combine (seq 0 nunits) pdfvecs) st.

(** hshmm/init.py:83-84 *)
Definition maybe_same (same : bool) (pdfvecs : list (list R)) : list (list R) :=
  if same then map (fun _ => hd [] pdfvecs) pdfvecs else pdfvecs.

(** modelsets[i] *)
Definition py_nth {A : Type} (l : list A) (i : Z) : result A :=
  let j := if (i <? 0)%Z then (i + Z.of_nat (length l))%Z else i in
  if (j <? 0)%Z then Err IndexError
  else match nth_error l (Z.to_nat j) with Some a => Ok a | None => Err IndexError end.

(** hshmm/init.py:72-74: index of the group of emissions; [lens]: length of
    each group.  nstates = 0 is a ZeroDivisionError. *)
Definition init_group (lens : list nat) (nstates groupidx : nat) : result Z :=
  bindr (py_nth lens (Z.of_nat groupidx)) (fun n =>
  if Nat.eqb nstates 0 then Err ZeroDivisionError
  else if Nat.ltb (n / nstates) 2 then
    bindr (py_nth lens (1 - Z.of_nat groupidx)) (fun _ => Ok (1 - Z.of_nat groupidx)%Z)
  else Ok (Z.of_nat groupidx)).

(** hshmm/train.py:103-107 and hshmm/mksphoneloop.py:108-111 *)
Definition train_group (lens : list nat) (groupidx : nat) : result nat :=
  match nth_error lens groupidx with
  | None => Err IndexError
  | Some n =>
    Ok (snd (fold_left (fun (best : nat * nat) ik => if Nat.ltb (fst best) (snd ik) then (snd ik, fst ik) else best)
                       (combine (seq 0 (length lens)) lens) (n, groupidx)))
  end.

(** ** The languages *)

(** A language model refers to a root transform; [nat] stands for an object.
    The dictionaries hold addresses of language models. *)
Record lgsm : Type := { lg_root : nat; lg_post : nat }.
Definition gheap : Type := nat -> lgsm.
Definition set_root (h : gheap) (a root : nat) : gheap :=
  fun b => if Nat.eqb a b then {| lg_root := root; lg_post := lg_post (h b) |} else h b.

(** hshmm/init.py:45-60, 78: the model that generates the pdf-vectors and the
    dictionary of languages that is saved *)
Definition hinit_langs (adapt_from init_from : option string) (lang : string) (root : nat)
    (src tgt : list (string * nat)) (h : gheap) : result (nat * list (string * nat) * gheap) :=
  bindr (match adapt_from with
         | None => Ok tgt
         | Some l => bindr (sget l src) (fun g => Ok (sset lang g tgt))
         end) (fun tgt' =>
  bindr (match init_from with
         | Some l => sget l src
         | None => sget lang tgt'
         end) (fun g => Ok (g, tgt', set_root h g root))).

(** hshmm/train.py:70-72 *)
Definition train_roots (root : nat) (langs : list (string * nat)) (h : gheap) : gheap :=
  fold_left (fun h la => set_root h (snd la) root) langs h.

(** hshmm/train.py:127-130, 144-150: the models in the order of their
    dictionary, the posteriors in the order of theirs *)
Definition models_and_submodels {U : Type} (gsms : list (string * nat)) (units : list (string * U))
  : result (list (nat * U)) :=
  mapM (fun lg => bindr (sget (fst lg) units) (fun u => Ok (snd lg, u))) gsms.
Definition all_latent_posts {P : Type} (posts : list (string * P)) : list P := map snd posts.
