(** Models of beer/dists/normalwishart.py (NormalWishart and its conjugate
    likelihood with full covariance) and of beer/dists/normal.py
    (NormalFullCovariance).

    One distribution is modelled (see Dist_Model.v).  torch.inverse and
    torch.cholesky are the exact functions: the inverse by Gauss elimination
    ([minv] of Mat.v) and the Cholesky factor ([chol]); both raise RuntimeError
    when there is none. *)
From Coq Require Import Reals List Arith Bool.
From Verif Require Import Prelude Vec Lgamma Dist_Model Mat.
Import ListNotations.
Local Open Scope R_scope.

(** ** Matrices as lists of rows *)
Definition lmat : Type := list (list R).
Definition mget (M : lmat) (i j : nat) : R := nth j (nth i M []) 0.
Definition mk (n : nat) (f : nat -> nat -> R) : lmat :=
  map (fun i => map (f i) (seq 0 n)) (seq 0 n).
Definition is_mat (n : nat) (M : lmat) : Prop := length M = n /\ Forall (fun r => length r = n) M.

(** v.reshape(n, n) *)
Definition reshape_sq (n : nat) (v : list R) : lmat :=
  map (fun i => firstn n (skipn (i * n) v)) (seq 0 n).

(** v[:, None] * v[None, :] *)
Definition outer (u v : list R) : lmat := map (fun a => map (fun b => a * b) v) u.
Definition lmadd : lmat -> lmat -> lmat := map2 (map2 Rplus).
Definition lmsub : lmat -> lmat -> lmat := map2 (map2 Rminus).
Definition lmscale (c : R) (M : lmat) : lmat := map (map (Rmult c)) M.
Definition lmvm (M : lmat) (x : list R) : list R := map (fun r => dot r x) M.

Definition t_inverse (M : lmat) : result lmat :=
  if forallb (fun r => Nat.eqb (length r) (length M)) M then
    match minv (length M) (mget M) with
    | Some B => Ok (mk (length M) B)
    | None => Err RuntimeError
    end
  else Err RuntimeError.

Definition t_cholesky (M : lmat) : result lmat :=
  if forallb (fun r => Nat.eqb (length r) (length M)) M then
    match chol (length M) (mget M) with
    | Some L => Ok (mk (length M) L)
    | None => Err RuntimeError
    end
  else Err RuntimeError.

(** 2 * log(L[range(dim), range(dim)]).sum() *)
Definition logdet_of (dim : nat) (L : lmat) : R := 2 * rsum (map (fun i => ln (mget L i i)) (seq 0 dim)).

(** normalwishart.py:15-17 *)
Definition trace2 (A B : lmat) : R := rsum (vmul (concat A) (concat B)).

(** D = int(.5 * (-1 + sqrt(1 + 4 * l))); the square root is exact on the
    values used (1 + 4 * (D^2 + D) is a square) *)
Definition dim_of (l : nat) : nat := ((Nat.sqrt (1 + 4 * l) - 1) / 2)%nat.

(** ** NormalWishart *)
Record nw_par : Type := { nw_mean : list R; nw_scale : R; nw_W : lmat; nw_dof : R }.

(** normalwishart.py:242-269 *)
Definition nw_nat (p : nw_par) : result (list R) :=
  let dim := length (nw_mean p) in
  let quad_mean := outer (nw_mean p) (nw_mean p) in
  bindr (t_inverse (nw_W p)) (fun Winv =>
  Ok (vscale (nw_scale p) (nw_mean p) ++
      vscale (- (1/2)) (concat (lmadd Winv (lmscale (nw_scale p) quad_mean))) ++
      [- (1/2) * nw_scale p] ++
      [1/2 * (nw_dof p - INR dim)])).

(** normalwishart.py:109-141 *)
Definition nw_from_nat (n : list R) : result nw_par :=
  let l := (length n - 2)%nat in
  let dim := dim_of l in
  let np1 := firstn dim n in
  let np2 := slice dim (dim * (dim + 1)) n in
  let np3 := from_end 2 n in
  let np4 := from_end 1 n in
  let scale := -2 * np3 in
  let mean := map (fun x => x / scale) np1 in
  let mean_quad := outer mean mean in
  if Nat.eqb (length np2) (dim * dim) then
    bindr (t_inverse (lmsub (lmscale (-2) (reshape_sq dim np2)) (lmscale scale mean_quad)))
      (fun scale_matrix =>
       Ok {| nw_mean := mean; nw_scale := scale; nw_W := scale_matrix;
             nw_dof := 2 * np4 + INR dim |})
  else Err RuntimeError.

(** normalwishart.py:170-210 *)
Definition nw_ess (p : nw_par) : result (list R) :=
  let dim := length (nw_mean p) in
  bindr (t_cholesky (nw_W p)) (fun L =>
  let logdet := logdet_of dim L in
  let mean_quad := outer (nw_mean p) (nw_mean p) in
  let exp_prec := lmscale (nw_dof p) (nw_W p) in
  Ok (lmvm exp_prec (nw_mean p) ++
      concat exp_prec ++
      [INR dim / nw_scale p + trace2 exp_prec mean_quad] ++
      [rsum (map (fun i => digamma (1/2 * (nw_dof p + 1 - INR i))) (seq 1 dim))
       + INR dim * ln 2 + logdet])).

(** normalwishart.py:212-217 *)
Definition nw_mean_precision (p : nw_par) : list R * lmat :=
  (nw_mean p, lmscale (nw_dof p) (nw_W p)).

(** normalwishart.py:219-236 *)
Definition nw_log_norm (p : nw_par) : result R :=
  let dim := length (nw_mean p) in
  bindr (t_cholesky (nw_W p)) (fun L =>
  let logdet := logdet_of dim L in
  Ok (1/2 * nw_dof p * logdet + 1/2 * nw_dof p * INR dim * ln 2
      + 1/4 * INR dim * (INR dim - 1) * ln PI
      + rsum (map (fun i => lgamma (1/2 * (nw_dof p + 1 - INR i))) (seq 1 dim))
      - 1/2 * INR dim * ln (nw_scale p)
      + 1/2 * INR dim * ln (2 * PI))).

(** basedist.py:243-263 *)
Definition nw_kl (p q : nw_par) : result R :=
  bindr (nw_nat p) (fun n1 => bindr (nw_nat q) (fun n2 =>
  bindr (nw_ess p) (fun e => bindr (nw_log_norm p) (fun l1 =>
  bindr (nw_log_norm q) (fun l2 => Ok (kl_div n1 e n2 l1 l2)))))).

(** parameters.py:134-141 *)
Definition nw_update (lrate : R) (prior post : nw_par) (stats : list R) : result nw_par :=
  bindr (nw_nat prior) (fun np => bindr (nw_nat post) (fun nq =>
  nw_from_nat (vadd nq (vscale lrate (vsub (vadd np stats) nq))))).

(** The bound as a function of the posterior, as in Dist_Model.v *)
Definition nw_elbo (prior : nw_par) (stats : list R) (post : nw_par) : result R :=
  bindr (nw_ess post) (fun e => bindr (nw_kl post prior) (fun kl =>
  Ok (dot stats e - kl))).

(** ** NormalLikelihood *)

(** normalwishart.py:24-27 *)
Definition nl_stats_dim (dim : nat) (zero : bool) : nat :=
  (2 * dim + dim * (dim - 1) / 2 + if zero then 2 else 0)%nat.

(** normalwishart.py:29-38 *)
Definition nl_suff_stats (x : list R) : list R :=
  x ++ vscale (- (1/2)) (concat (outer x x)) ++ [- (1/2)] ++ [1/2].

(** normalwishart.py:40-50 *)
Definition nl_params_from_pdfvec (dim : nat) (p : list R) : result (list R * lmat) :=
  let precision := reshape_sq dim (slice dim (dim + dim * dim) p) in
  bindr (t_inverse precision) (fun cov => Ok (lmvm cov (firstn dim p), precision)).

(** normalwishart.py:68-69: arg.tril(diagonal=-1).nonzero(): indices of the
    strictly lower entries in row major order (all values of arg are non-zero) *)
Definition tril_idxs (dim : nat) : list (nat * nat) :=
  filter (fun ij => Nat.ltb (snd ij) (fst ij)) (list_prod (seq 0 dim) (seq 0 dim)).

Definition entry (ix : list ((nat * nat) * R)) (i j : nat) : R :=
  match find (fun e => Nat.eqb (fst (fst e)) i && Nat.eqb (snd (fst e)) j) ix with
  | Some e => snd e
  | None => 0
  end.

(** normalwishart.py:66-74: the triangular factor *)
Definition nl_factor (dim : nat) (r : list R) : lmat :=
  let prec_L_diag := map (fun v => exp (1/2 * v)) (slice dim (2 * dim) r) in
  let prec_L_offdiag := skipn (2 * dim) r in
  mk dim (fun i j =>
    if Nat.eqb i j then nth i prec_L_diag 0
    else entry (combine (tril_idxs dim) prec_L_offdiag) i j).

(** L @ L^T *)
Definition gram (dim : nat) (L : lmat) : lmat := mk dim (fun i j => dot (nth i L []) (nth j L [])).

(** normalwishart.py:52-86; the number of off-diagonal values must be
    dim(dim-1)/2 (torch would also broadcast a single value) *)
Definition nl_pdfvec_from_rvec (dim : nat) (r : list R) : result (list R) :=
  let mean := firstn dim r in
  let log_prec_L_diag := slice dim (2 * dim) r in
  if Nat.eqb (length r) (2 * dim + dim * (dim - 1) / 2) then
    let L := nl_factor dim r in
    let prec := gram dim L in
    let Lm := map (fun i => rsum (map (fun k => mget L k i * nth k mean 0) (seq 0 dim))) (seq 0 dim) in
    Ok (lmvm prec mean ++ concat prec ++ [dot Lm Lm] ++ [rsum log_prec_L_diag])
  else Err RuntimeError.

(** normalwishart.py:88-92 *)
Definition nl_llh (dim : nat) (pdfvec stats : list R) : R :=
  dot stats pdfvec + - (1/2) * INR dim * ln (2 * PI).

(** ** NormalFullCovariance *)
Record nf_par : Type := { nf_mean : list R; nf_cov : lmat }.

(** normal.py:179-204 *)
Definition nf_nat (p : nf_par) : result (list R) :=
  bindr (t_inverse (nf_cov p)) (fun prec => Ok (lmvm prec (nf_mean p) ++ concat prec)).

(** normal.py:25-49 for one distribution: np2 is a 1 x D^2 matrix *)
Definition nf_from_nat (n : list R) : result nf_par :=
  let dim := dim_of (length n) in
  let np1 := firstn dim n in
  let np2 := slice dim (dim * (dim + 1)) n in
  bindr (t_inverse [np2]) (fun cov =>
  Ok {| nf_mean := map2 Rmult (concat cov) np1; nf_cov := cov |}).

(** normal.py:108-143 *)
Definition nf_ess (p : nf_par) : list R :=
  nf_mean p ++ vscale (- (1/2)) (concat (lmadd (nf_cov p) (outer (nf_mean p) (nf_mean p)))).

(** normal.py:148-162 *)
Definition nf_log_norm (p : nf_par) : result R :=
  let dim := length (nf_mean p) in
  bindr (t_cholesky (nf_cov p)) (fun L =>
  bindr (t_inverse (nf_cov p)) (fun prec =>
  Ok (1/2 * (logdet_of dim L + dot (lmvm prec (nf_mean p)) (nf_mean p))
      + 1/2 * INR dim * ln (2 * PI)))).

(** normal.py:103-106 *)
Definition nf_suff_stats (x : list R) : list R := x ++ vscale (- (1/2)) (concat (outer x x)).

(** normal.py:71-101.  [batch]: the parameters hold several distributions
    (three dimensional covariance); for a single distribution [cov] is not
    reshaped and the indexing L[:, range(dim), range(dim)] of a two dimensional
    tensor raises IndexError. *)
Definition nf_forward (batch : bool) (p : nf_par) (stats : list R) : result R :=
  let dim := length (nf_mean p) in
  bindr (nf_nat p) (fun nparams =>
  bindr (t_cholesky (nf_cov p)) (fun L =>
  if batch then
    let mSm := dot (firstn dim nparams) (nf_mean p) in
    let lnorm := 1/2 * (logdet_of dim L + mSm) in
    Ok (dot nparams stats - lnorm + - (1/2) * (INR dim * ln (2 * PI)))
  else Err IndexError)).

Definition nf_kl (p q : nf_par) : result R :=
  bindr (nf_nat p) (fun n1 => bindr (nf_nat q) (fun n2 =>
  bindr (nf_log_norm p) (fun l1 => bindr (nf_log_norm q) (fun l2 =>
  Ok (kl_div n1 (nf_ess p) n2 l1 l2))))).
