(** Model of the default parameters built by the [create] methods of
    beer/models/normal.py, normalset.py, gamma.py, categorical.py and
    mixture.py, and of the Gamma model.

    Tensors of zero, one or two dimensions are [targ]; random draws (the noise
    added to the posterior means of a NormalSet) are arguments.  A division by
    zero of a tensor gives inf or nan in torch: here it is the total division
    of Coq, and no theorem relies on it. *)
From Coq Require Import Reals String List Arith Bool.
From Verif Require Import Prelude Vec Lgamma Dist_Model Mat NW_Model SB_Model Set_Model.
Import ListNotations.
Local Open Scope R_scope.

Inductive targ : Type := T0 (c : R) | T1 (v : list R) | T2 (m : lmat).

Definition eye (n : nat) : lmat := mk n idm.
Definition diagm (v : list R) : lmat :=
  mk (length v) (fun i j => if Nat.eqb i j then nth i v 0 else 0).

(** tensor.inverse(), tensor.diag() of a matrix; other ranks are refused
    (diag of a vector builds a matrix, it is only used in [full_cov]) *)
Definition t_inv (t : targ) : result lmat :=
  match t with T2 m => t_inverse m | _ => Err RuntimeError end.
Definition t_diag (t : targ) : result (list R) :=
  match t with
  | T2 m => Ok (map (fun i => mget m i i) (seq 0 (length m)))
  | _ => Err RuntimeError
  end.

(** normal.py:23-28 *)
Definition full_cov (cov : targ) (dim : nat) : targ :=
  match cov with
  | T1 [c] => T2 (lmscale c (eye dim))
  | T1 v => T2 (diagm v)
  | t => t
  end.

(** ConjugateBayesianParameter(prior, posterior) *)
Record bparam (P : Type) : Type := { bp_prior : P; bp_post : P }.
Arguments bp_prior {P}. Arguments bp_post {P}.

Inductive nparam : Type :=
| Pfull (b : bparam nw_par) | Pdiag (b : bparam ng_par) | Piso (b : bparam ing_par).

(** normal.py:30-38 *)
Definition default_full (mean : list R) (cov : targ) (s : R) : result nparam :=
  let cov := full_cov cov (length mean) in
  let dof := s + INR (length mean) - 1 in
  bindr (t_inv cov) (fun icov =>
  let p := {| nw_mean := mean; nw_scale := s; nw_W := lmscale (/ dof) icov; nw_dof := dof |} in
  Ok (Pfull {| bp_prior := p; bp_post := p |})).

(** normal.py:40-48 *)
Definition default_diag (mean : list R) (cov : targ) (s : R) : result nparam :=
  let cov := full_cov cov (length mean) in
  bindr (t_diag cov) (fun variance =>
  let p := {| ng_mean := mean; ng_scale := s; ng_shape := s; ng_rates := map (Rmult s) variance |} in
  Ok (Pdiag {| bp_prior := p; bp_post := p |})).

(** normal.py:50-60; the maximum of an empty tensor raises RuntimeError *)
Definition t_max (v : list R) : result R :=
  match v with [] => Err RuntimeError | _ => Ok (lmax v) end.

Definition default_iso (mean : list R) (cov : targ) (s : R) : result nparam :=
  let cov := full_cov cov (length mean) in
  bindr (t_diag cov) (fun d => bindr (t_max d) (fun variance =>
  let p := {| ig_mean := mean; ig_scale := s; ig_shape := s; ig_rate := s * variance |} in
  Ok (Piso {| bp_prior := p; bp_post := p |}))).

(** Python's [a in b] on strings: a occurs in b *)
Definition str_in (a b : string) : bool :=
  match index 0 a b with Some _ => true | None => false end.

(** normal.py:62-66, 76-106.  UnknownCovarianceType is [OtherError]. *)
Definition normal_create (mean : list R) (cov : targ) (s : R) (cov_type : string) : result nparam :=
  if negb (str_in cov_type cov_type) then Err OtherError
  else if String.eqb cov_type "full" then default_full mean cov s
  else if String.eqb cov_type "diagonal" then default_diag mean cov s
  else if String.eqb cov_type "isotropic" then default_iso mean cov s
  else Err KeyError.

(** parameters.py value(): expected value of the posterior *)
Definition np_value (p : nparam) : list R * targ :=
  match p with
  | Pfull b => let v := nw_mean_precision (bp_post b) in (fst v, T2 (snd v))
  | Pdiag b => let v := ng_mean_precision (bp_post b) in (fst v, T1 (snd v))
  | Piso b => let v := ig_mean_precision (bp_post b) in (fst v, T0 (snd v))
  end.

(** normal.py:113-115 *)
Definition normal_mean (p : nparam) : list R := fst (np_value p).

(** normal.py:117-130 *)
Definition normal_cov (p : nparam) : result lmat :=
  let dim := length (normal_mean p) in
  match snd (np_value p) with
  | T2 m => t_inverse m
  | T1 [] => Ok (lmscale 0 (eye dim))
  | T1 [c] => Ok (lmscale (1 / c) (eye dim))
  | T1 v => Ok (diagm (map (fun x => 1 / x) v))
  | T0 c => Ok (lmscale (1 / c) (eye dim))
  end.

(** parameters.py kl_div_posterior_prior *)
Definition np_kl (p : nparam) : result R :=
  match p with
  | Pfull b => nw_kl (bp_post b) (bp_prior b)
  | Pdiag b => Ok (ng_kl (bp_post b) (bp_prior b))
  | Piso b => Ok (ig_kl (bp_post b) (bp_prior b))
  end.

(** ** NormalSet *)

(** normalset.py:29-75: one row of parameters per component, [noise] the
    matrix of draws of torch.randn(size, len(mean)) *)
Definition noisy_mean (noise_std : R) (d mean eps : list R) : list R :=
  vadd mean (map2 (fun e v => e * noise_std * sqrt v) eps d).

Definition with_mean (p : nparam) (m : list R) : nparam :=
  match p with
  | Pfull b => Pfull {| bp_prior := bp_prior b;
                        bp_post := {| nw_mean := m; nw_scale := nw_scale (bp_post b);
                                      nw_W := nw_W (bp_post b); nw_dof := nw_dof (bp_post b) |} |}
  | Pdiag b => Pdiag {| bp_prior := bp_prior b;
                        bp_post := {| ng_mean := m; ng_scale := ng_scale (bp_post b);
                                      ng_shape := ng_shape (bp_post b); ng_rates := ng_rates (bp_post b) |} |}
  | Piso b => Piso {| bp_prior := bp_prior b;
                      bp_post := {| ig_mean := m; ig_scale := ig_scale (bp_post b);
                                    ig_shape := ig_shape (bp_post b); ig_rate := ig_rate (bp_post b) |} |}
  end.

(** normalset.py:29-75: the parameters of a component are those of
    normal.py (same formulas, repeated [size] times), with the noise added to
    the mean of the posterior.  Every component is a row of the tensors. *)
Definition set_default (mk_one : list R -> targ -> R -> result nparam) (mean : list R) (cov : targ)
  (noise : list (list R)) (s noise_std : R) : result (list nparam) :=
  bindr (t_diag (full_cov cov (length mean))) (fun d =>
  mapM (fun eps => bindr (mk_one mean cov s) (fun p => Ok (with_mean p (noisy_mean noise_std d mean eps)))) noise).

(** normalset.py:80-108 *)
Definition normalset_create (mean : list R) (cov : targ) (noise : list (list R)) (s noise_std : R)
  (cov_type : string) : result (list nparam) :=
  if negb (str_in cov_type cov_type) then Err OtherError
  else if String.eqb cov_type "full" then set_default default_full mean cov noise s noise_std
  else if String.eqb cov_type "diagonal" then set_default default_diag mean cov noise s noise_std
  else if String.eqb cov_type "isotropic" then set_default default_iso mean cov noise s noise_std
  else Err KeyError.

(** ** Gamma model (models/gamma.py) *)
Record gmodel : Type := { gm_shape : list R; gm_prior : gamma_par; gm_post : gamma_par }.

(** gamma.py:14-20 (also categorical.py:30-35) *)
Definition default_rate (mean : list R) (s : R) : gamma_par :=
  {| g_shape := map (fun _ => s) mean; g_rate := map (fun m => s / m) mean |}.

(** gamma.py:27-45 *)
Definition gamma_create (mean shape : list R) (s : R) : gmodel :=
  let p := default_rate (map2 Rdiv shape mean) s in
  {| gm_shape := shape; gm_prior := p; gm_post := p |}.

(** gamma.py:56-58 *)
Definition gm_mean (m : gmodel) : list R := map2 Rdiv (gm_shape m) (gamma_mean (gm_post m)).

(** element-wise operation of two vectors with torch broadcasting *)
Definition bcast (f : R -> R -> R) (u v : list R) : result (list R) :=
  if Nat.eqb (length u) (length v) then Ok (map2 f u v)
  else match u, v with
       | [a], _ => Ok (map (f a) v)
       | _, [b] => Ok (map (fun a => f a b) u)
       | _, _ => Err RuntimeError
       end.

(** stats @ pdfvecs.t(), one row *)
Definition gl_call (pdfvec stats : list R) : result R :=
  if Nat.eqb (length stats) (length pdfvec) then Ok (dot stats pdfvec) else Err RuntimeError.

(** gamma.py:68-80.  [final_nparams] is computed and not used. *)
Definition gm_ellh (m : gmodel) (stats : list R) : result R :=
  let nparams := gamma_ess (gm_post m) in
  let dim := length nparams in
  let rate := firstn dim nparams in
  let log_rate := skipn dim nparams in
  bindr (bcast Rmult (gm_shape m) log_rate) (fun sl =>
  bindr (bcast Rminus (map lgamma (gm_shape m)) sl) (fun lnorm =>
  let lnorm := rsum lnorm in
  let final_nparams := map Ropp rate ++ map (fun a => a - 1) (gm_shape m) ++ [- lnorm] in
  gl_call nparams stats)).

(** gamma.py:82-88: statistics of one frame, and their sum *)
Definition gm_frame_stats (m : gmodel) (stats : list R) : list R :=
  let dim := (length stats / 2)%nat in
  map Ropp (firstn dim stats) ++ gm_shape m.
Definition gm_accumulate (m : gmodel) (stats : list (list R)) : list R :=
  colsum (2 * length (gm_shape m)) (map (gm_frame_stats m) stats).

(** natural gradient step on the rate parameter *)
Definition gm_update (lrate : R) (m : gmodel) (stats : list R) : gamma_par :=
  std_update gamma_nat gamma_from_nat lrate (gm_prior m) (gm_post m) stats.

(** ** Categorical, SBCategorical, Mixture *)

(** categorical.py:15-18 *)
Definition categorical_default (weights : list R) (s : R) : list R := map (fun w => w * s) weights.

(** categorical.py:21-26 *)
Definition sb_default (truncation : nat) (s : R) : list stick := repeat (1, s) truncation.

(** mixture.py:33-36, phoneloop.py:38-40 *)
Definition uniform_weights (n : nat) : list R := map (fun x => x / INR n) (repeat 1 n).
