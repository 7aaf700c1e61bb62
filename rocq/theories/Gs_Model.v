(** Model of beer/models/gsm.py: the Generalized Subspace Model.
    Tensors are nested lists (an N x S x D tensor is a list of N lists of S
    vectors of dimension D); random draws are arguments, so that every theorem
    holds for every draw. *)
From Coq Require Import Reals List Lra Lia Arith Bool.
From Verif Require Import Prelude Vec Dist_Model NW_Model.
Import ListNotations.
Local Open Scope R_scope.

(** ** Tensor plumbing (torch semantics, row major storage) *)
Definition gslice {A : Type} (a b : nat) (l : list A) : list A := firstn (b - a) (skipn a l).

(** n consecutive groups of k elements *)
Definition groups {A : Type} (n k : nat) (l : list A) : list (list A) :=
  map (fun i => gslice (i * k) (i * k + k) l) (seq 0 n).

(** flat.reshape(-1, d): the number of elements has to be a multiple of d
    (d = 0 is ambiguous) *)
Definition reshape2 {A : Type} (d : nat) (l : list A) : result (list (list A)) :=
  if Nat.eqb d 0 then Err RuntimeError
  else if Nat.eqb (length l mod d) 0 then Ok (groups (length l / d) d l)
  else Err RuntimeError.

(** rows.reshape(n, -1, q) for a list of rows of dimension q *)
Definition reshape3 {A : Type} (n : nat) (rows : list A) : result (list (list A)) :=
  if Nat.eqb n 0 then Err RuntimeError
  else if Nat.eqb (length rows mod n) 0 then Ok (groups n (length rows / n) rows)
  else Err RuntimeError.

(** torch.cat(blocks, dim=-1): the blocks need the same number of rows *)
Fixpoint hcat {A : Type} (blocks : list (list (list A))) : result (list (list A)) :=
  match blocks with
  | [] => Err RuntimeError
  | [b] => Ok b
  | b :: bs => bindr (hcat bs) (fun r =>
      if Nat.eqb (length b) (length r) then Ok (map2 (@app A) b r) else Err RuntimeError)
  end.

(** rows.mean(dim=0) *)
Definition vmean (rows : list (list R)) : list R :=
  vscale (/ INR (length rows)) (colsum (length (hd [] rows)) rows).

(** ** Parameterization of the posteriors optimized by gradient descent *)

(** gsm.py:45-47 *)
Definition mld_diag_cov (log_diag_cov : list R) : list R :=
  map (fun v => / 10000 + exp v) log_diag_cov.

(** gsm.py:79-96: for one of the components.  The number of off-diagonal
    values has to be the number of indices. *)
Definition mll_factor (dim : nat) (log_diag_L L_offdiag : list R) : lmat :=
  let diag_L := map (fun v => / 1000 + exp v) log_diag_L in
  mk dim (fun i j =>
    if Nat.eqb i j then nth i diag_L 0
    else entry (combine (tril_idxs dim) L_offdiag) i j).

Definition mll_cov (dim : nat) (log_diag_L L_offdiag : list R) : result lmat :=
  if Nat.eqb (length L_offdiag) (length (tril_idxs dim))
  then Ok (gram dim (mll_factor dim log_diag_L L_offdiag))
  else Err RuntimeError.

(** gsm.py:222,550: int(.5 * dim * (dim - 1)) *)
Definition init_offdiag (dim : nat) : nat := (dim * (dim - 1) / 2)%nat.

(** gsm.py:214-230, 541-558: values of a new posterior *)
Definition new_post_diag (dim : nat) : ndc_par :=
  {| nc_mean := vzeros dim;
     nc_cov := mld_diag_cov (map (fun v => v - ln (INR dim)) (vzeros dim)) |}.

Definition new_post_full (dim : nat) : result nf_par :=
  bindr (mll_cov dim (map (fun v => v - ln (INR dim)) (vzeros dim)) (vzeros (init_offdiag dim)))
    (fun c => Ok {| nf_mean := vzeros dim; nf_cov := c |}).

(** ** Samples.  normaldiag.py:152-164 and normal.py:164-177, for one
    distribution; one noise vector for each sample. *)
Definition ndc_sample (p : ndc_par) (noise : list (list R)) : list (list R) :=
  map (fun eps => map2 Rplus (nc_mean p) (map2 (fun s e => sqrt s * e) (nc_cov p) eps)) noise.

Definition nf_sample (p : nf_par) (noise : list (list R)) : result (list (list R)) :=
  bindr (t_cholesky (nf_cov p)) (fun L =>
  let dim := length (nf_mean p) in
  (* noise @ L^T *)
  Ok (map (fun eps => map2 Rplus (nf_mean p)
       (map (fun i => rsum (map (fun k => nth k eps 0 * mget L i k) (seq 0 dim))) (seq 0 dim))) noise)).

(** ** Affine and linear transforms *)

(** x @ W for W with out columns *)
Definition vecmat (out : nat) (x : list R) (W : lmat) : list R :=
  map (fun d => rsum (map2 (fun v row => v * nth d row 0) x W)) (seq 0 out).

(** s_W.reshape(-1, in_dim, out_dim) *)
Definition as_matrices (ind out : nat) (s_W : list (list R)) : result (list lmat) :=
  bindr (reshape2 out (concat s_W)) (fun rows => reshape2 ind rows).

(** res.permute(1, 0, 2) for a P x N x D tensor *)
Definition permute3 (n : nat) (res : list (list (list R))) : list (list (list R)) :=
  map (fun i => map (fun M => nth i M []) res) (seq 0 n).

(** gsm.py:152-164; [s_W], [s_b] samples of the weights and of the bias *)
Definition affine_forward (ind out : nat) (s_W s_b : list (list R)) (X : list (list R))
  : result (list (list (list R))) :=
  bindr (as_matrices ind out s_W) (fun Ws =>
  Ok (permute3 (length X)
       (map2 (fun W b => map (fun x => vadd (vecmat out x W) b) X) Ws s_b))).

(** gsm.py:315-325 *)
Definition linear_forward (ind out : nat) (s_W : list (list R)) (X : list (list R))
  : result (list (list (list R))) :=
  bindr (as_matrices ind out s_W) (fun Ws =>
  Ok (permute3 (length X) (map (fun W => map (fun x => vecmat out x W) X) Ws))).

(** gsm.py:484-488 *)
Definition rvecs_from_samples (transform : list (list R) -> result (list (list (list R))))
  (samples : list (list (list R))) : result (list (list (list R))) :=
  bindr (transform (concat samples)) (fun rvecs =>
  reshape3 (length samples) (concat rvecs)).

(** gsm.py:232-257; [rvec]: the 1 x S x D tensor returned by
    _rvecs_from_samples.  The assertion is on its last dimension. *)
Definition hier_forward (ind out : nat) (rvec : list (list (list R))) (X : list (list R))
  : result (list (list (list R))) :=
  let size := (ind * out)%nat in
  if forallb (fun r => Nat.eqb (length r) ((ind + 1) * out)) (concat rvec) then
    let s_W := map (map (firstn size)) rvec in
    let s_b := map (map (skipn size)) rvec in
    bindr (as_matrices ind out (concat s_W)) (fun Ws =>
    bindr (reshape2 out (concat (concat s_b))) (fun bs =>
    Ok (permute3 (length X)
         (map2 (fun W b => map (fun x => vadd (vecmat out x W) b) X) Ws bs))))
  else Err OtherError.

(** ** Subspace parameters.  A parameter is described by its number of pdfs
    (gsm.py uses len(param)), the dimension of the real vector of one pdf
    (sufficient_statistics_dim(zero_stats=False)), the dimension of its
    statistics (last dimension of param.stats) and pdfvectors_from_rvectors
    for one row. *)
Record sparam : Type :=
  { sp_n : nat; sp_dim : nat; sp_q : nat; sp_pdf : list R -> result (list R) }.

(** gsm.py:421-426 *)
Definition svec_dim (params : list sparam) : nat :=
  fold_right (fun p acc => (sp_dim p * sp_n p + acc)%nat) 0%nat params.

(** gsm.py:429-440 *)
Fixpoint pdfvecs_gen (params : list sparam) (idx : nat) (rvecs : list (list R))
  : result (list (list (list R))) :=
  match params with
  | [] => Ok []
  | p :: ps =>
    let totdim := (sp_dim p * sp_n p)%nat in
    bindr (reshape2 (sp_dim p) (concat (map (gslice idx (idx + totdim)) rvecs))) (fun param_rvecs =>
    bindr (mapM (sp_pdf p) param_rvecs) (fun pdfvec =>
    let q := length (hd [] pdfvec) in
    bindr (reshape2 (sp_n p * q) (concat pdfvec)) (fun rows =>
    bindr (pdfvecs_gen ps (idx + totdim) rvecs) (fun rest =>
    Ok (rows :: rest)))))
  end.

(** gsm.py:492-498 *)
Definition pdfvecs_from_rvecs (params : list sparam) (rvecs : list (list (list R)))
  : result (list (list (list R))) :=
  bindr (pdfvecs_gen params 0 (concat rvecs)) (fun blocks =>
  bindr (hcat blocks) (fun rows => reshape3 (length rvecs) rows)).

(** gsm.py:444-450; a parameter's pdf-vector is a list of sp_n rows *)
Fixpoint update_params (params : list sparam) (idx : nat) (pdfvecs : list R)
  : result (list (list (list R))) :=
  match params with
  | [] => Ok []
  | p :: ps =>
    let totdim := (sp_n p * sp_q p)%nat in
    let s := gslice idx (idx + totdim) pdfvecs in
    if Nat.eqb (length s) totdim then
      bindr (update_params ps (idx + totdim) pdfvecs) (fun rest =>
      Ok (groups (sp_n p) (sp_q p) s :: rest))
    else Err RuntimeError
  end.

(** gsm.py:453-456: models not reached by zip keep their pdf-vectors, they are
    not part of the result.  All the models are copies of the same model
    (new_models). *)
Fixpoint update_models (models : list (list sparam)) (pdfvecs : list (list R))
  : result (list (list (list (list R)))) :=
  match models, pdfvecs with
  | m :: ms, v :: vs =>
    bindr (update_params m 0 v) (fun r => bindr (update_models ms vs) (fun rs => Ok (r :: rs)))
  | _, _ => Ok []
  end.

(** gsm.py:577-588: one row per model; [stats]: for each model, for each
    parameter, one vector per pdf *)
Definition gsm_suff_stats (stats : list (list (list (list R)))) : list (list R) :=
  map (fun m => concat (map (@concat R) m)) stats.

(** ** Objective *)

(** A latent prior whose expected log-likelihood is linear in the statistics
    (Normal, with any covariance type: normal.py:137-139 and __call__ of the
    likelihood functions). *)
Record lprior : Type :=
  { lp_suff : list R -> list R; lp_nat : list R; lp_const : R }.

Definition lp_llh (p : lprior) (stats : list R) : R := dot stats (lp_nat p) + lp_const p.

(** gsm.py:459-465 *)
Definition xentropy (p : lprior) (s_h : list (list (list R))) : list R :=
  map (fun hs => - lp_llh p (vmean (map (lp_suff p) hs))) s_h.

(** gsm.py:468-474: diagonal and full covariance posteriors *)
Definition entropy_diag (posts : list ndc_par) (s_h : list (list (list R))) : list R :=
  map2 (fun q hs => - ndc_forward q (vmean (map ndc_suff_stats hs))) posts s_h.

Definition entropy_full (posts : list nf_par) (s_h : list (list (list R))) : result (list R) :=
  mapM (fun qh => bindr (nf_forward true (fst qh) (vmean (map nf_suff_stats (snd qh))))
                        (fun v => Ok (- v))) (combine posts s_h).

(** gsm.py:590-614 *)
Definition gsm_llh (transform : list (list R) -> result (list (list (list R))))
  (params : list sparam) (prior : lprior) (ent : list R) (s_h : list (list (list R)))
  (stats : list (list R)) : result (list R * list (list R)) :=
  let local_kl := vsub (xentropy prior s_h) ent in
  bindr (rvecs_from_samples transform s_h) (fun rvecs =>
  bindr (pdfvecs_from_rvecs params rvecs) (fun pv =>
  let pdfvecs := map vmean pv in
  Ok (vsub (map2 dot pdfvecs stats) local_kl, pdfvecs))).

(** ** GSMSet *)

(** gsm.py:739-743: rvecs[None] + means_rvecs[:, None] then reshape *)
Definition pair_rvecs (rvecs means_rvecs : list (list (list R))) : list (list (list R)) :=
  flat_map (fun m => map (fun r => map2 vadd r m) rvecs) means_rvecs.

(** gsm.py:712-752; returns (llh - local_kl_div).t() and the cached pdfvecs
    (len(self) x len(latent_posts) x Q); [nposts] = len(latent_posts) *)
Definition gsmset_llh (transform disc_transform : list (list R) -> result (list (list (list R))))
  (params : list sparam) (local_kl : list R) (s_h s_means : list (list (list R)))
  (stats : list (list R)) : result (list (list R) * list (list (list R))) :=
  bindr (rvecs_from_samples transform s_h) (fun rvecs =>
  bindr (rvecs_from_samples disc_transform s_means) (fun means_rvecs =>
  bindr (pdfvecs_from_rvecs params (pair_rvecs rvecs means_rvecs)) (fun pv =>
  bindr (reshape3 (length s_means) (map vmean pv)) (fun pdfvecs =>
  let llh := map (fun rows => vsub (map2 dot rows stats) local_kl) pdfvecs in
  (* transposition of a len(self) x nposts matrix *)
  Ok (map (fun n => map (fun row => nth n row 0) llh) (seq 0 (length s_h)), pdfvecs))))).

(** gsm.py:754-760: (resps.t()[:, :, None] * pdfvecs).sum(dim=0) *)
Definition gsmset_resp_pdfvecs (q : nat) (resps : list (list R)) (pdfvecs : list (list (list R)))
  : list (list R) :=
  map (fun n => colsum q (map (fun c => vscale (nth c (nth n resps []) 0) (nth n (nth c pdfvecs []) []))
                              (seq 0 (length pdfvecs))))
      (seq 0 (length resps)).

(** ** Views of a subspace parameter, gsm.py:329-406, for keys that are slices
    [a:b]; the parameter holds one pdf-vector per row.  A method without a
    return statement returns None. *)
Record spview : Type := { vw_key : nat * nat; vw_pdfvec : list (list R) }.

(** gsm.py:367-368 *)
Definition sp_getitem (pdfvec : list (list R)) (key : nat * nat) : spview :=
  {| vw_key := key; vw_pdfvec := pdfvec |}.

(** gsm.py:388-390 *)
Definition vw_value (v : spview) : list (list R) := gslice (fst (vw_key v)) (snd (vw_key v)) (vw_pdfvec v).

(** gsm.py:392-394: the written rows replace those of the parameter *)
Definition vw_set (v : spview) (rows : list (list R)) : result spview :=
  if Nat.eqb (length rows) (length (vw_value v))
  then Ok {| vw_key := vw_key v;
             vw_pdfvec := firstn (fst (vw_key v)) (vw_pdfvec v) ++ rows ++
                          skipn (fst (vw_key v) + length rows) (vw_pdfvec v) |}
  else Err RuntimeError.

(** gsm.py:405-406 *)
Definition vw_getitem (v : spview) (key : nat * nat) : spview :=
  {| vw_key := key; vw_pdfvec := vw_pdfvec v |}.

(** gsm.py:357-358 and 399-400 *)
Definition sp_natural_form (pdfvec : list (list R)) : option (list (list R)) := Some pdfvec.
Definition vw_natural_form (v : spview) : option (list (list R)) := None.
