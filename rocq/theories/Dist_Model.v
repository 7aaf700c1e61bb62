(** Models of the exponential family distributions of beer/dists: Dirichlet,
    Gamma, NormalGamma, IsotropicNormalGamma, NormalDiagonalCovariance, and of
    their conjugate likelihood functions.

    One distribution is modelled; an object holding several distributions
    applies the same formulas to each row (the reshape/view calls only convert
    between one row and a batch of one row).  Numbers are exact reals;
    torch.lgamma and torch.digamma are [lgamma] and [digamma] of Lgamma.v
    (used on positive arguments only). *)
From Coq Require Import Reals List Arith Bool.
From Verif Require Import Prelude Vec Lgamma.
Import ListNotations.
Local Open Scope R_scope.

(** l[-1] = v *)
Definition set_last (l : list R) (v : R) : list R := removelast l ++ [v].

(** l[-k], k >= 1 *)
Definition from_end (k : nat) (l : list R) : R := nth (length l - k) l 0.

(** l[a:b] *)
Definition slice (a b : nat) (l : list R) : list R := firstn (b - a) (skipn a l).

(** ** basedist.py:243-263: kl_div, from the natural parameters, expected
    statistics and log-normalisers of the two distributions *)
Definition kl_div (nparams1 exp_stats nparams2 : list R) (lnorm1 lnorm2 : R) : R :=
  lnorm2 - lnorm1 - rsum (vmul exp_stats (vsub nparams2 nparams1)).

(** basedist.py:266-271: [nparams1] is not defined *)
Definition entropy (nparams exp_stats : list R) (lnorm : R) : result R := Err NameError.

(** ** Dirichlet *)

(** dirichlet.py:144-159 *)
Definition dir_nat (a : list R) : list R :=
  set_last (map (fun x => x - 1) a) (rsum (map (fun x => x - 1) a)).

(** dirichlet.py:70-81 *)
Definition dir_from_nat (n : list R) : list R :=
  let concentrations := map (fun x => x + 1) n in
  set_last concentrations
    (last n 0 - rsum (removelast (map (fun x => x - 1) concentrations)) + 1).

(** dirichlet.py:106-128 *)
Definition dir_ess (a : list R) : list R :=
  let psi := digamma (last a 0) in
  map (fun x => digamma x - psi) (removelast a) ++ [psi - digamma (rsum a)].

(** dirichlet.py:130-133 *)
Definition dir_mean (a : list R) : list R := map (fun x => x / rsum a) a.

(** dirichlet.py:135-138 *)
Definition dir_log_norm (a : list R) : R := rsum (map lgamma a) - lgamma (rsum a).

(** CategoricalLikelihood.sufficient_statistics, dirichlet.py:18-21, one row *)
Definition cat_suff_stats (data : list R) : list R := set_last data (rsum data).

(** torch.nn.functional.softplus with its default threshold *)
Definition softplus (x : R) : R :=
  if Rle_dec x 20 then ln (1 + exp x) else x.

(** dirichlet.py:23-28; torch.logsumexp of an empty dimension is -inf, whose
    softplus is 0. *)
Definition cat_log_norm (nparams : list R) : R :=
  match nparams with
  | [] => 0
  | _ => softplus (ln (rsum (map exp nparams)))
  end.

(** dirichlet.py:30-41 *)
Definition cat_params_from_pdfvec (p : list R) : list R :=
  let lnorm := cat_log_norm (removelast p) in
  let remainder := exp (- lnorm) in
  map (fun x => exp x * remainder) (removelast p) ++ [remainder].

(** dirichlet.py:43-55 *)
Definition cat_pdfvec_from_rvec (r : list R) : list R := r ++ [- cat_log_norm r].

(** dirichlet.py:57-59 *)
Definition cat_llh (pdfvec stats : list R) : R := dot stats pdfvec.

Definition dir_kl (a b : list R) : R :=
  kl_div (dir_nat a) (dir_ess a) (dir_nat b) (dir_log_norm a) (dir_log_norm b).

(** ** Gamma *)
Record gamma_par : Type := { g_shape : list R; g_rate : list R }.

(** gamma.py:130-140 *)
Definition gamma_nat (p : gamma_par) : list R :=
  map Ropp (g_rate p) ++ map (fun x => x - 1) (g_shape p).

(** gamma.py:67-77 *)
Definition gamma_from_nat (n : list R) : gamma_par :=
  let dim := (length n / 2)%nat in
  {| g_shape := map (fun x => x + 1) (skipn dim n);
     g_rate := map Ropp (firstn dim n) |}.

(** gamma.py:103-117 *)
Definition gamma_ess (p : gamma_par) : list R :=
  map2 Rdiv (g_shape p) (g_rate p) ++
  map2 (fun a b => digamma a - ln b) (g_shape p) (g_rate p).

(** gamma.py:122-124 *)
Definition gamma_log_norm (p : gamma_par) : R :=
  rsum (map2 (fun a b => lgamma a - a * ln b) (g_shape p) (g_rate p)).

(** gamma.py:119-120 *)
Definition gamma_mean (p : gamma_par) : list R := map2 Rdiv (g_shape p) (g_rate p).

(** GammaLikelihood, gamma.py:21-28 *)
Definition gamma_suff_stats (x : list R) : list R :=
  map Ropp x ++ map ln x ++ [1].

(** gamma.py:30-39 *)
Definition gamma_params_from_pdfvec (dim : nat) (p : list R) : gamma_par :=
  {| g_shape := map (fun x => x + 1) (slice dim (2 * dim) p);
     g_rate := map Ropp (firstn dim p) |}.

Definition gamma_eps : R := / 1000000.

(** gamma.py:42-49 *)
Definition gamma_pdfvec_from_rvec (r : list R) : list R :=
  let dim := (length r / 2)%nat in
  let shape := map (fun x => exp (gamma_eps + x)) (firstn dim r) in
  let rate := map (fun x => exp (gamma_eps + x)) (skipn dim r) in
  let lnorm := rsum (map2 (fun a b => lgamma a - a * ln b) shape rate) in
  map Ropp rate ++ map (fun x => x - 1) shape ++ [- lnorm].

(** gamma.py:51-54 *)
Definition gamma_llh (pdfvec stats : list R) : R := dot stats pdfvec.

Definition gamma_kl (p q : gamma_par) : R :=
  kl_div (gamma_nat p) (gamma_ess p) (gamma_nat q) (gamma_log_norm p) (gamma_log_norm q).

(** ** NormalGamma (diagonal covariance) *)
Record ng_par : Type :=
  { ng_mean : list R; ng_scale : R; ng_shape : R; ng_rates : list R }.

(** normalgamma.py:163-180 *)
Definition ng_nat (p : ng_par) : list R :=
  map (fun m => ng_scale p * m) (ng_mean p) ++
  map2 (fun m b => - (1/2) * ng_scale p * m ^ 2 - b) (ng_mean p) (ng_rates p) ++
  [- (1/2) * ng_scale p; ng_shape p - 1/2].

(** normalgamma.py:76-94 *)
Definition ng_from_nat (n : list R) : ng_par :=
  let dim := ((length n - 2) / 2)%nat in
  let np1 := firstn dim n in
  let np2 := slice dim (2 * dim) n in
  let np3 := from_end 2 n in
  let np4 := from_end 1 n in
  let scale := -2 * np3 in
  let mean := map (fun x => x / scale) np1 in
  {| ng_mean := mean; ng_scale := scale; ng_shape := np4 + 1/2;
     ng_rates := map2 (fun x m => - x - 1/2 * scale * m ^ 2) np2 mean |}.

(** normalgamma.py:118-146 *)
Definition ng_ess (p : ng_par) : list R :=
  let prec := map (fun b => ng_shape p / b) (ng_rates p) in
  let quad := rsum (map2 (fun l m => l * m ^ 2) prec (ng_mean p))
              + INR (length (ng_mean p)) / ng_scale p in
  let logdet := rsum (map (fun b => digamma (ng_shape p) - ln b) (ng_rates p)) in
  map2 (fun l m => l * m) prec (ng_mean p) ++ prec ++ [quad; logdet].

(** normalgamma.py:151-157 *)
Definition ng_log_norm (p : ng_par) : R :=
  let dim := INR (length (ng_rates p)) in
  dim * lgamma (ng_shape p) - ng_shape p * rsum (map ln (ng_rates p))
  - 1/2 * dim * ln (ng_scale p).

(** normalgamma.py:148-149 *)
Definition ng_mean_precision (p : ng_par) : list R * list R :=
  (ng_mean p, map (fun b => ng_shape p / b) (ng_rates p)).

(** NormalDiagonalLikelihood, normalgamma.py:19-27 *)
Definition nd_suff_stats (x : list R) : list R :=
  x ++ map (fun v => - (1/2) * v ^ 2) x ++ [- (1/2); 1/2].

(** normalgamma.py:29-38 *)
Definition nd_params_from_pdfvec (dim : nat) (p : list R) : list R * list R :=
  let precision := slice dim (2 * dim) p in
  (map2 Rdiv (firstn dim p) precision, precision).

(** normalgamma.py:41-53 *)
Definition nd_pdfvec_from_rvec (r : list R) : list R :=
  let dim := (length r / 2)%nat in
  let mean := firstn dim r in
  let log_precision := slice dim (2 * dim) r in
  let precision := map exp log_precision in
  map2 Rmult precision mean ++ precision ++
  [rsum (map2 (fun l m => l * m ^ 2) precision mean); rsum log_precision].

(** normalgamma.py:55-59 *)
Definition nd_llh (dim : nat) (pdfvec stats : list R) : R :=
  dot stats pdfvec + - (1/2) * INR dim * ln (2 * PI).

Definition ng_kl (p q : ng_par) : R :=
  kl_div (ng_nat p) (ng_ess p) (ng_nat q) (ng_log_norm p) (ng_log_norm q).

(** ** IsotropicNormalGamma *)
Record ing_par : Type :=
  { ig_mean : list R; ig_scale : R; ig_shape : R; ig_rate : R }.

Definition sqnorm (m : list R) : R := rsum (map (fun x => x ^ 2) m).

(** isonormalgamma.py:174-192 *)
Definition ig_nat (p : ing_par) : list R :=
  map (fun m => ig_scale p * m) (ig_mean p) ++
  [- (1/2) * ig_scale p * sqnorm (ig_mean p) - ig_rate p;
   - (1/2) * ig_scale p;
   ig_shape p - 1 + 1/2 * INR (length (ig_mean p))].

(** isonormalgamma.py:77-95 *)
Definition ig_from_nat (n : list R) : ing_par :=
  let dim := (length n - 3)%nat in
  let np1 := firstn dim n in
  let np2 := nth dim n 0 in
  let np3 := from_end 2 n in
  let np4 := from_end 1 n in
  let scale := -2 * np3 in
  let mean := map (fun x => x / scale) np1 in
  {| ig_mean := mean; ig_scale := scale;
     ig_shape := np4 + 1 - 1/2 * INR dim;
     ig_rate := - np2 - 1/2 * scale * rsum (map (fun m => m * m) mean) |}.

(** isonormalgamma.py:119-157 *)
Definition ig_ess (p : ing_par) : list R :=
  let precision := ig_shape p / ig_rate p in
  map (fun m => precision * m) (ig_mean p) ++
  [precision;
   precision * sqnorm (ig_mean p) + INR (length (ig_mean p)) / ig_scale p;
   digamma (ig_shape p) - ln (ig_rate p)].

(** isonormalgamma.py:163-168 *)
Definition ig_log_norm (p : ing_par) : R :=
  lgamma (ig_shape p) - ig_shape p * ln (ig_rate p)
  - 1/2 * INR (length (ig_mean p)) * ln (ig_scale p).

(** isonormalgamma.py:159-161 *)
Definition ig_mean_precision (p : ing_par) : list R * R :=
  (ig_mean p, ig_shape p / ig_rate p).

(** IsotropicNormalLikelihood, isonormalgamma.py:20-31 *)
Definition in_suff_stats (x : list R) : list R :=
  x ++ [- (1/2) * sqnorm x; - (1/2); 1/2 * INR (length x)].

(** isonormalgamma.py:32-43: [rvecs[:, -2:-1]] *)
Definition in_pdfvec_from_rvec (r : list R) : list R :=
  let dim := (length r - 1)%nat in
  let mean := firstn dim r in
  let log_precision := from_end 2 r in
  let precision := exp log_precision in
  map (fun m => precision * m) mean ++
  [precision; rsum (map (fun m => precision * m ^ 2) mean); log_precision].

(** isonormalgamma.py:45-54, for one vector (with a batch of vectors the last
    line raises NameError: [dim] is not defined) *)
Definition in_params_from_pdfvec (p : list R) : list R * R :=
  let precision := from_end 3 p in
  (map (fun x => x / precision) (firstn (length p - 3) p), precision).

Definition in_params_from_pdfvecs (ps : list (list R)) : result (list R * R) := Err NameError.

(** isonormalgamma.py:56-60 *)
Definition in_llh (dim : nat) (pdfvec stats : list R) : R :=
  dot stats pdfvec + - (1/2) * INR dim * ln (2 * PI).

Definition ig_kl (p q : ing_par) : R :=
  kl_div (ig_nat p) (ig_ess p) (ig_nat q) (ig_log_norm p) (ig_log_norm q).

(** ** NormalDiagonalCovariance *)
Record ndc_par : Type := { nc_mean : list R; nc_cov : list R }.

(** normaldiag.py:166-189 *)
Definition ndc_nat (p : ndc_par) : list R :=
  map2 (fun m s => 1 / s * m) (nc_mean p) (nc_cov p) ++
  map (fun s => 1 / s) (nc_cov p).

(** normaldiag.py:58-65 *)
Definition ndc_from_nat (n : list R) : ndc_par :=
  let dim := (length n / 2)%nat in
  let np1 := firstn dim n in
  let np2 := slice dim (2 * dim) n in
  let diag_cov := map (fun x => 1 / (-2 * x)) np2 in
  {| nc_mean := map2 Rmult diag_cov np1; nc_cov := diag_cov |}.

(** normaldiag.py:112-137 *)
Definition ndc_ess (p : ndc_par) : list R :=
  nc_mean p ++ map2 (fun m s => - (1/2) * (s + m ^ 2)) (nc_mean p) (nc_cov p).

(** normaldiag.py:142-150 *)
Definition ndc_log_norm (p : ndc_par) : R :=
  1/2 * rsum (map2 (fun m s => 1 / s * m ^ 2) (nc_mean p) (nc_cov p))
  + 1/2 * rsum (map ln (nc_cov p))
  + 1/2 * INR (length (nc_mean p)) * ln (2 * PI).

(** normaldiag.py:109-110 *)
Definition ndc_suff_stats (x : list R) : list R :=
  x ++ map (fun v => - (1/2) * v ^ 2) x.

(** normaldiag.py:87-107 *)
Definition ndc_forward (p : ndc_par) (stats : list R) : R :=
  let logdets := rsum (map ln (nc_cov p)) in
  let mSm := rsum (map2 (fun m s => 1 / s * m ^ 2) (nc_mean p) (nc_cov p)) in
  let lnorm := 1/2 * (logdets + mSm) in
  rsum (vmul (ndc_nat p) stats) - lnorm + - (1/2) * INR (length (nc_mean p)) * ln (2 * PI).

(** NormalFixedDiagonalCovarianceLikelihood, normaldiag.py:20-29,34-41 *)
Definition nfd_suff_stats (x : list R) : list R := x ++ map (fun _ => - (1/2) * 1) x.
Definition nfd_pdfvec_from_rvec (r : list R) : list R := r ++ map (fun x => x ^ 2) r.
Definition nfd_llh (dim : nat) (pdfvec stats : list R) : R :=
  dot stats pdfvec + - (1/2) * INR dim * ln (2 * PI).

Definition ndc_kl (p q : ndc_par) : R :=
  kl_div (ndc_nat p) (ndc_ess p) (ndc_nat q) (ndc_log_norm p) (ndc_log_norm q).

(** ** Dimensions announced by the likelihood functions
    (dirichlet.py:14-16, gamma.py:17-19, normalgamma.py:15-17,
    isonormalgamma.py:16-18, normaldiag.py:16-18) *)
Definition cat_stats_dim (dim : nat) (zero : bool) : nat := (dim - 1 + if zero then 1 else 0)%nat.
Definition gamma_stats_dim (dim : nat) (zero : bool) : nat := (2 * dim + if zero then 1 else 0)%nat.
Definition nd_stats_dim (dim : nat) (zero : bool) : nat := (2 * dim + if zero then 2 else 0)%nat.
Definition in_stats_dim (dim : nat) (zero : bool) : nat := (dim + 1 + if zero then 2 else 0)%nat.
Definition nfd_stats_dim (dim : nat) (zero : bool) : nat := (dim + if zero then 1 else 0)%nat.

(** ** parameters.py:134-141: natural gradient step of a posterior stored in
    its standard parameters *)
Definition std_update {P : Type} (nat_of : P -> list R) (from_nat : list R -> P)
  (lrate : R) (prior post : P) (stats : list R) : P :=
  let natural_grad := vsub (vadd (nat_of prior) stats) (nat_of post) in
  from_nat (vadd (nat_of post) (vscale lrate natural_grad)).

(** Part of the evidence lower bound that depends on this posterior: the
    expected log-likelihood is linear in the expected statistics with the
    accumulated statistics as coefficients (objectives.py:182-184,
    parameters.py:131-132), minus the KL divergence to the prior. *)
Definition elbo_of {P : Type} (nat_of ess : P -> list R) (log_norm : P -> R)
  (prior : P) (stats : list R) (post : P) : R :=
  dot stats (ess post)
  - kl_div (nat_of post) (ess post) (nat_of prior) (log_norm post) (log_norm prior).
