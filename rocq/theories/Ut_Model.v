(** Model of beer/utils.py.

    Tensors are lists over exact reals, extended with infinities and NaN for
    [logsumexp]; rounding, underflow and overflow are not modelled.  The GPU
    environment of [reserve_gpu] is a schedule. *)
From Coq Require Import Reals List ZArith Arith Bool String.
From Verif Require Import Prelude Vec Mat.
Import ListNotations.
Local Open Scope R_scope.

(** ** Extended reals as IEEE values *)
Inductive ext : Type := ENaN | ENInf | EFin (r : R) | EPInf.

Definition esub (x y : ext) : ext :=
  match x, y with
  | EFin a, EFin b => EFin (a - b)
  | ENaN, _ | _, ENaN => ENaN
  | EPInf, EPInf | ENInf, ENInf => ENaN
  | EPInf, _ => EPInf
  | ENInf, _ => ENInf
  | EFin _, EPInf => ENInf
  | EFin _, ENInf => EPInf
  end.

Definition eadd (x y : ext) : ext :=
  match x, y with
  | EFin a, EFin b => EFin (a + b)
  | ENaN, _ | _, ENaN => ENaN
  | EPInf, ENInf | ENInf, EPInf => ENaN
  | EPInf, _ | _, EPInf => EPInf
  | ENInf, _ | _, ENInf => ENInf
  end.

Definition eexp (x : ext) : ext :=
  match x with ENaN => ENaN | ENInf => EFin 0 | EFin r => EFin (exp r) | EPInf => EPInf end.

Definition elog (x : ext) : ext :=
  match x with
  | ENaN | ENInf => ENaN
  | EPInf => EPInf
  | EFin r => match total_order_T 0 r with
              | inleft (left _) => EFin (ln r)
              | inleft (right _) => ENInf
              | inright _ => ENaN
              end
  end.

(** torch.max: NaN propagates *)
Definition emax (x y : ext) : ext :=
  match x, y with
  | ENaN, _ | _, ENaN => ENaN
  | EPInf, _ | _, EPInf => EPInf
  | ENInf, z => z
  | z, ENInf => z
  | EFin a, EFin b => EFin (Rmax a b)
  end.

(** ** logsumexp: utils.py 105-123, one slice along [dim] *)

(** line 115; torch.max of an empty slice raises *)
Definition slice_max (l : list ext) : result ext :=
  match l with [] => Err IndexError | x :: r => Ok (fold_left emax r x) end.

(** line 119: the arguments of exp_ *)
Definition lse_args (l : list ext) (tmax : ext) : list ext := map (fun x => esub x tmax) l.

(** lines 116-120; both branches of torch.where are computed *)
Definition logsumexp (l : list ext) : result ext :=
  bindr (slice_max l) (fun tmax =>
    let full := eadd tmax (elog (fold_left eadd (map eexp (lse_args l tmax)) (EFin 0))) in
    Ok (match tmax with ENInf | EPInf => tmax | _ => full end)).

(** lines 115-123 for a matrix of [k] columns: [dim] 0 reduces the rows away,
    [dim] 1 (or -1) the columns *)
Definition column (j : nat) (rows : list (list ext)) : list ext := map (fun r => nth j r ENaN) rows.
Definition logsumexp_mat (dim : nat) (k : nat) (rows : list (list ext)) : result (list ext) :=
  match dim with
  | O => mapM (fun j => logsumexp (column j rows)) (seq 0 k)
  | _ => mapM logsumexp rows
  end.

(** ** onehot: utils.py 84-102 *)
(** Tensor indexing: negative indices count from the end, others raise. *)
Definition tensor_index (n : nat) (i : Z) : result nat :=
  if (0 <=? i)%Z && (i <? Z.of_nat n)%Z then Ok (Z.to_nat i)
  else if (- Z.of_nat n <=? i)%Z && (i <? 0)%Z then Ok (Z.to_nat (Z.of_nat n + i))
  else Err IndexError.
Definition onehot (labels : list Z) (max_label : nat) : result (list (list R)) :=
  mapM (fun l => bindr (tensor_index max_label l) (fun c => Ok (unit_row max_label c))) labels.

(** ** symmetrize_matrix, make_symposdef: utils.py 126-161 *)
Definition symmetrize (A : fm) : fm := fun i j => / 2 * (A i j + A j i).

(** line 156: floored eigenvalues; evals[-1] is the largest *)
Definition floor_evals (n : nat) (thr : R) (evals : fv) : fv :=
  fun i => if Rlt_dec (evals i) (thr * evals (n - 1)%nat) then thr * evals (n - 1)%nat else evals i.
Definition diagm (d : fv) : fm := fun i j => if Nat.eq_dec i j then d i else 0.

(** torch.symeig(eigenvectors=True) is not modelled: [symeig] stands for it,
    theorems assume its documented contract. *)
Definition make_symposdef (symeig : fm -> fv * fm) (n : nat) (thr : R) (A : fm) : fm :=
  let '(evals, evecs) := symeig (symmetrize A) in
  mmul n (mmul n evecs (diagm (floor_evals n thr evals))) (mT evecs).

(** ** sample_from_normals: utils.py 164-183; the noise is an argument
    (one matrix N x D per sample) *)
Definition sample_from_normals (means variances : list (list R)) (noise : list (list (list R)))
  : list (list (list R)) :=
  map (fun z => map2 vadd means (map2 vmul (map (map sqrt) variances) z)) noise.

(** ** jacobians: utils.py 186-206 *)
(** [grads i j]: gradient of output i w.r.t. (flattened) input j, None when
    output i does not depend on input j.  autograd.backward adds it to the
    [.grad] of the input. *)
Definition add_grad (acc : option (list R)) (g : option (list R)) : option (list R) :=
  match acc, g with
  | None, g => g
  | Some a, None => Some a
  | Some a, Some g => Some (vadd a g)
  end.

(** in_tensor.grad.view(-1): None has no view *)
Definition read_grad (g : option (list R)) : result (list R) :=
  match g with Some v => Ok v | None => Err AttributeError end.

(** lines 202-205: i-th pass of the loop; [.grad] is only reset before it *)
Fixpoint jac_loop (grads : nat -> nat -> option (list R)) (inputs : list nat) (rows : list nat)
  (acc : list (option (list R))) : result (list (list (list R))) :=
  match rows with
  | [] => Ok []
  | i :: rows' =>
      let acc' := map2 (fun a j => add_grad a (grads i j)) acc inputs in
      bindr (mapM read_grad acc') (fun row =>
      bindr (jac_loop grads inputs rows' acc') (fun rest => Ok (row :: rest)))
  end.

(** result: for each output (row), for each input, the row of its matrix *)
Definition jacobians (n_out n_in : nat) (grads : nat -> nat -> option (list R))
  : result (list (list (list R))) :=
  jac_loop grads (seq 0 n_in) (seq 0 n_out) (repeat None n_in).

(** ** approximate_hessian: utils.py 209-223, one list of gradients *)
Definition approximate_hessian (rows : nat) (g : fm) : fm :=
  fun i j => bsum rows (fun t => g t i * g t j).

(** ** reserve_gpu: utils.py 39-81 *)
Record gpu_env : Type := {
  gpus : list (string * Z);              (* get_gpus() in dictionary order *)
  active : nat -> list string;           (* get_active_gpus() at poll t *)
  alloc_ok : nat -> Z -> bool            (* the allocation on GPU idx at poll t succeeds *)
}.

Inductive gpu_event : Type :=
| Poll (t : nat) | Attempt (t : nat) (idx : Z) (ok : bool) | Sleep.

Inductive gpu_outcome : Type := Reserved (idx : Z) | NoGPU | Crash (e : exn).

Definition not_in (g : string) (l : list string) : bool := negb (existsb (String.eqb g) l).

(** lines 61-73: [Some (Some i)] reserved, [Some None] loop exhausted, [None] crash *)
Fixpoint gpu_for (env : gpu_env) (logger : bool) (t : nat) (gs : list (string * Z))
  : list gpu_event * option (option Z) :=
  match gs with
  | [] => ([], Some None)
  | (u, i) :: gs' =>
      if not_in u (active env t) then
        if negb logger then ([], None)                       (* line 63: None.debug *)
        else if alloc_ok env t i then ([Attempt t i true], Some (Some i))
        else let '(ev, r) := gpu_for env logger t gs' in (Attempt t i false :: ev, r)
      else gpu_for env logger t gs'
  end.

(** lines 59-77, [fuel] polls left, [t] polls done *)
Fixpoint gpu_while (env : gpu_env) (logger : bool) (fuel t : nat) : list gpu_event * gpu_outcome :=
  match fuel with
  | O => ([], NoGPU)                                          (* line 80 *)
  | S fuel' =>
      let '(ev, r) := gpu_for env logger t (gpus env) in
      match r with
      | None => (Poll t :: ev, Crash AttributeError)
      | Some (Some i) => (Poll t :: ev, Reserved i)
      | Some None =>
          if negb logger then (Poll t :: ev, Crash AttributeError)   (* line 75 *)
          else let '(ev', o) := gpu_while env logger fuel' (S t) in (Poll t :: ev ++ Sleep :: ev', o)
      end
  end.

Definition reserve_gpu (env : gpu_env) (max_retry : nat) (logger : bool) : list gpu_event * gpu_outcome :=
  gpu_while env logger max_retry 0.
