(** Model of beer/models/vae.py and of the functions returning the log-densities
    of all the frames for all the distributions (normaldiag.py, normal.py), with
    the broadcasting rules of torch. *)
From Coq Require Import Reals List Lra Lia Arith Bool.
From Verif Require Import Prelude Vec Dist_Model NW_Model Gs_Model.
Import ListNotations.
Local Open Scope R_scope.

(** ** Tensors with one or two dimensions *)
Inductive tensor : Type :=
| T1 (v : list R)
| T2 (m : list (list R)).

(** missing dimensions are added on the left *)
Definition rows_of (t : tensor) : list (list R) := match t with T1 v => [v] | T2 m => m end.
Definition nrows (t : tensor) : nat := length (rows_of t).
Definition ncols (t : tensor) : nat := length (hd [] (rows_of t)).

(** size of a broadcast dimension *)
Definition bdim (a b : nat) : result nat :=
  if Nat.eqb a b then Ok a else if Nat.eqb a 1 then Ok b else if Nat.eqb b 1 then Ok a else Err RuntimeError.

(** index in a dimension of size n of the index i of the result *)
Definition bidx (n i : nat) : nat := if Nat.eqb n 1 then 0%nat else i.

Definition bget (t : tensor) (i j : nat) : R := nth (bidx (ncols t) j) (nth (bidx (nrows t) i) (rows_of t) []) 0.

Definition tsub (a b : tensor) : result tensor :=
  bindr (bdim (nrows a) (nrows b)) (fun r =>
  bindr (bdim (ncols a) (ncols b)) (fun c =>
  let m := map (fun i => map (fun j => bget a i j - bget b i j) (seq 0 c)) (seq 0 r) in
  Ok (match a, b with
      | T1 _, T1 _ => T1 (hd [] m)
      | _, _ => T2 m
      end))).

Definition tmap (f : R -> R) (t : tensor) : tensor :=
  match t with T1 v => T1 (map f v) | T2 m => T2 (map (map f) m) end.

Definition tsum (t : tensor) : R := match t with T1 v => rsum v | T2 m => rsum (map rsum m) end.

Definition treshape1 (t : tensor) : tensor := match t with T1 v => T1 v | T2 m => T1 (concat m) end.

(** ** Log-densities of N frames for K distributions *)

(** normaldiag.py:87-107 without pdfwise; [single]: the parameters have one
    dimension *)
Definition ndc_lnorm (p : ndc_par) : R :=
  1/2 * (rsum (map ln (nc_cov p)) + rsum (map2 (fun m s => 1 / s * m ^ 2) (nc_mean p) (nc_cov p))).

Definition ndc_forward_all (single : bool) (dim : nat) (ps : list ndc_par) (stats : list (list R)) : result tensor :=
  bindr (tsub (T2 (map (fun p => map (dot (ndc_nat p)) stats) ps)) (T1 (map ndc_lnorm ps))) (fun t =>
  let retval := tmap (fun v => v + - (1/2) * INR dim * ln (2 * PI)) t in
  Ok (if single then treshape1 retval else retval)).

(** normal.py:71-101 without pdfwise: lnorm[:, None] *)
Definition nf_lnorm (p : nf_par) (nparams : list R) : result R :=
  bindr (t_cholesky (nf_cov p)) (fun L =>
  let dim := length (nf_mean p) in
  Ok (1/2 * (logdet_of dim L + dot (firstn dim nparams) (nf_mean p)))).

Definition nf_forward_all (dim : nat) (ps : list nf_par) (stats : list (list R)) : result tensor :=
  bindr (mapM nf_nat ps) (fun nats =>
  bindr (mapM (fun pn => nf_lnorm (fst pn) (snd pn)) (combine ps nats)) (fun lnorms =>
  bindr (tsub (T2 (map (fun n => map (dot n) stats) nats)) (T2 (map (fun l => [l]) lnorms))) (fun t =>
  Ok (tmap (fun v => v + - (1/2) * (INR dim * ln (2 * PI))) t)))).

(** ** VAE *)

(** vae.py:22-25 *)
Definition vae_diag_cov (log_diag_cov : list R) : list R := map (fun v => / 100000 + exp v) log_diag_cov.

(** vae.py:60-89.  [posts]: the distributions returned by posteriors(data);
    [noise]: for each of them, nsamples noise vectors; [psuff], [pllh]: statistics
    and expected log-likelihood of the prior model; [dec]: pdfs, one row at a
    time. *)
Definition vae_samples (posts : list ndc_par) (noise : list (list (list R))) : list (list (list R)) :=
  map2 ndc_sample posts noise.

Definition vae_ellh (posts : list ndc_par) (noise : list (list (list R)))
  (psuff : list R -> list R) (pllh : list (list R) -> tensor) (dec : list R -> ndc_par)
  (data : list (list R)) (nsamples : nat) (llh_weight kl_weight : R) : result tensor :=
  let samples := vae_samples posts noise in
  let ent := T1 (entropy_diag posts samples) in
  let prior_stats := map (fun hs => vmean (map psuff hs)) samples in
  let xent := tmap Ropp (pllh prior_stats) in
  bindr (tsub xent ent) (fun local_kl_div =>
  let r_data := concat (map (fun x => repeat x nsamples) data) in
  let llhs := map2 (fun z x => ndc_forward (dec z) (ndc_suff_stats x)) (concat samples) r_data in
  (* llh.reshape(len(data), nsamples, -1).mean(dim=1): one column *)
  let llh := T2 (map (fun g => [rsum g / INR nsamples]) (groups (length data) nsamples llhs)) in
  tsub (tmap (Rmult llh_weight) llh) (tmap (Rmult kl_weight) local_kl_div)).

(** Expected log-likelihood of a Normal model: stats @ nat.view(1, -1).t(),
    hence one column (normalgamma.py:55-59), and of a model returning one value
    per frame (mixture.py:70-93, hmm.py). *)
Definition normal_prior (p : lprior) (stats : list (list R)) : tensor := T2 (map (fun s => [lp_llh p s]) stats).
Definition vector_prior (f : list R -> R) (stats : list (list R)) : tensor := T1 (map f stats).
