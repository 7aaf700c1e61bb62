(** Models of /repo/beer/models/linearreg.py and /repo/beer/models/lds.py.

    These modules are not imported by the package (they need a module
    bayesmodel and a package priors that do not exist any more); they are read
    with the interface they expect:
    - [expected_natural_parameters] of the weights is the pair of E[W W^T] and
      E[W], of the precision the pair of E[lambda] and E[ln lambda];
      [expected_value] of the precision is E[lambda];
    - the reshaping of vectors into matrices is left out: E[W W^T] is a vector
      and E[W] a matrix given by its rows (one per regressor);
    - shapes agree. *)
From Coq Require Import Reals List Arith Bool.
From Verif Require Import Prelude Vec.
Import ListNotations.
Local Open Scope R_scope.

Definition at2 (m : list (list R)) (i j : nat) : R := nth j (nth i m []) 0.

Record linreg : Type := {
  l_quad : list R;            (* E[W W^T], row by row *)
  l_weights : list (list R);  (* E[W] *)
  l_prec : R;
  l_logprec : R;
  l_prec_value : R            (* precision.expected_value() *)
}.

(** linearreg.py:66-74, one frame *)
Definition lr_stats (x : list R) : list R :=
  [-(1/2) * rsum (map (fun v => v ^ 2) x)] ++ x ++ [-(1/2); 1/2 * INR (length x)].

(** linearreg.py:77 and 104: stats[1:-2] *)
Definition lr_data (stats : list R) : list R := firstn (length stats - 3) (skipn 1 stats).

(** linearreg.py:83-84 *)
Definition outer (phi : list R) : list R := flat_map (fun a => map (fun b => a * b) phi) phi.

(** linearreg.py:85; d columns *)
Definition lr_mean (d : nat) (phi : list R) (w : list (list R)) : list R :=
  map (fun j => sumf (fun i => nth i phi 0 * at2 w i j) (seq 0 (length phi))) (seq 0 d).

(** linearreg.py:88-93 *)
Definition lr_nparams (m : linreg) (d : nat) (phi : list R) : list R :=
  [l_prec m * 1] ++ vscale (l_prec m) (lr_mean d phi (l_weights m)) ++
  [l_prec m * dot (outer phi) (l_quad m)] ++ [l_logprec m].

(** linearreg.py:76-101 *)
Definition lr_ellh (m : linreg) (stats phi : list R) : R :=
  let d := length (lr_data stats) in
  dot stats (lr_nparams m d phi) - 1/2 * INR d * ln PI.

(** linearreg.py:96-98, 106: the cached natural parameters lack the last
    column, as stats[:, :-1] does *)
Definition lr_delta (m : linreg) (sp : list R * list R) : R :=
  let '(stats, phi) := sp in
  dot (removelast stats) (map (fun v => v / l_prec_value m) (removelast (lr_nparams m (length (lr_data stats)) phi))).

(** linearreg.py:103-120: the statistics of the precision and of the weights
    (the quadratic part row by row and the linear part as a matrix); r
    regressors, d dimensions *)
Record lr_acc : Type := { a_prec : list R; a_quad : list R; a_lin : list (list R) }.
Definition lr_accumulate (m : linreg) (r d : nat) (data : list (list R * list R)) : lr_acc :=
  {| a_prec := [sumf (lr_delta m) data; sumf (fun sp => last (fst sp) 0) data];
     a_quad := vscale (l_prec_value m)
       (flat_map (fun i => map (fun j =>
          sumf (fun sp => nth (length (fst sp) - 2) (fst sp) 0 * (nth i (snd sp) 0 * nth j (snd sp) 0)) data) (seq 0 r)) (seq 0 r));
     a_lin := map (fun i => vscale (l_prec_value m)
       (map (fun j => sumf (fun sp => nth i (snd sp) 0 * nth j (lr_data (fst sp)) 0) data) (seq 0 d))) (seq 0 r) |}.

(** linearreg.py:170-175 *)
Definition lrset_ellh (ms : list linreg) (stats phi : list R) : list R := map (fun m => lr_ellh m stats phi) ms.

(** linearreg.py:177-182; data: statistics, regressors and responsibilities *)
Definition lrset_accumulate (ms : list linreg) (r d : nat) (data : list (list R * list R * list R)) : list lr_acc :=
  map (fun im => lr_accumulate (snd im) r d
         (map (fun x => (vscale (nth (fst im) (snd x) 0) (fst (fst x)), snd (fst x))) data))
      (combine (seq 0 (length ms)) ms).

(** ** lds.py *)

(** lds.py:12-16: entry (j, k); the division by ndim raises for 0 *)
Definition dct_base (ndim j k : nat) : R := cos (PI / INR ndim * (INR j + 1/2) * INR k).
Definition dct_bases (ndim n : nat) : result (list (list R)) :=
  if (n =? 0)%nat then Ok (repeat [] ndim)
  else if (ndim =? 0)%nat then Err ZeroDivisionError
  else Ok (map (fun j => map (dct_base ndim j) (seq 0 n)) (seq 0 ndim)).

(** lds.py:63-68; d: dimension of the frames.  unfold raises when there are
    fewer rows than the size of the windows *)
Definition lds_regressors (memory n : nat) (bases : list (list R)) (d : nat) (frames : list (list R)) : result (list (list R)) :=
  let padded := repeat (vzeros d) memory ++ frames in
  let rows := removelast padded in
  if (length rows <? memory)%nat then Err RuntimeError
  else
    let windows := map (fun t => firstn memory (skipn t rows)) (seq 0 (length rows - memory + 1)) in
    Ok (map (fun w => flat_map (fun i => map (fun k =>
          sumf (fun j => at2 w j i * at2 bases j k) (seq 0 memory)) (seq 0 n)) (seq 0 d)) windows).

(** lds.py:60-70 *)
Definition lds_ellh (ms : list linreg) (memory n : nat) (bases : list (list R)) (d : nat) (stats : list (list R))
  : result (list (list R)) :=
  bindr (lds_regressors memory n bases d (map lr_data stats)) (fun phis =>
  Ok (map2 (lrset_ellh ms) stats phis)).
