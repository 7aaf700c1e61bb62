(** Models of the commands that build and train subspace phone-loops:
    /repo/beer/cli/subcommands/shmm/{mksphoneloop,setprior,train}.py (the
    helpers of /repo/beer/cli/subcommands/hshmm/mksphoneloop.py are the same).

    - File reading, pickling and logging are left out; a text file is the list
      of its lines, a line the list of its tokens.
    - The emissions of the group are a MixtureSet over a NormalSet (the loop of
      mksphoneloop.py accesses unit.categoricalset and unit.modelset, other
      sets raise AttributeError).
    - A parameter with one row for each density is a list of rows; writes
      through a view (gsm.py:378-383) replace the rows of the parameter. *)
From Coq Require Import Reals String List Arith Bool ZArith.
From Verif Require Import Prelude Vec Edit_Model Dec_Model Set_Model Graph_Model Dist_Model Opt_Model
  LMat Gs_Model Gb_Model.
Import ListNotations.
Local Open Scope R_scope.

(** ** Units *)

(** mksphoneloop.py:87-91: end_id - 1 is not positive for the ids 0 and 1, the
    truncated difference gives the same maximum. *)
Definition nstates_of (t : topology) : nat :=
  fold_left (fun n arc => Nat.max n (snd (fst arc) - 1)) t O.

(** mksphoneloop.py:101 *)
Definition nunits_of (len nstates : nat) : result nat :=
  if Nat.eqb nstates 0 then Err ZeroDivisionError else Ok (len / nstates)%nat.

(** mksphoneloop.py:15-18 *)
Definition iterate_units (m : mset) (nunits nstates : nat) : result (list item) :=
  mapM (fun idx => getitem m (KSlice (Some (Z.of_nat (idx * nstates)))
                                     (Some (Z.of_nat ((idx + 1) * nstates))) None))
       (seq 0 nunits).

(** ** Statistics *)

(** mksphoneloop.py:22-24 *)
Definition param_stats (p : param) : list R := vsub (p_post p) (p_prior p).

(** mksphoneloop.py:29-36 *)
Definition init_weights_stats (stats : mat) : mat :=
  let counts := rsum (map (fun r => last r 0) stats) in
  let ncomps := length (hd [] stats) in
  map (fun _ => set_last (repeat (counts / (3 * INR ncomps)) ncomps) (counts / 3)) stats.

(** mksphoneloop.py:41-47; the normalized weights (line 44) are not used.
    [pdfvec]: rows of the view of the weights. *)
Definition init_means_precisions_stats (stats pdfvec : mat) : result mat :=
  let pi := concat (map cat_params_from_pdfvec pdfvec) in
  if Nat.eqb (length pi) (length stats) then
    let row := colsum (length (hd [] stats)) (map2 vscale pi stats) in
    Ok (map (fun _ => row) stats)
  else Err RuntimeError.

(** param.stats[a:b] = rows *)
Definition write_rows (a : nat) (rows m : mat) : mat :=
  firstn a m ++ rows ++ skipn (a + length rows) m.

(** mksphoneloop.py:148-153, 70-75 of gsm.py for the views: unit [idx];
    [ncpm] components for each mixture.  The state is (weights.stats,
    means_precisions.stats). *)
Definition init_unit (nstates ncpm : nat) (wpdf : mat) (st : mat * mat) (idx : nat)
  : result (mat * mat) :=
  let '(w, m) := st in
  let a := (idx * nstates)%nat in
  let b := ((idx + 1) * nstates)%nat in
  let w' := write_rows a (init_weights_stats (gslice a b w)) w in
  bindr (init_means_precisions_stats (gslice (a * ncpm) (b * ncpm) m) (gslice a b wpdf))
    (fun rows => Ok (w', write_rows (a * ncpm) rows m)).

(** mksphoneloop.py:143-153: the subspace parameters are created with the
    statistics of the parameters they replace and pdf-vectors that are zero
    (gsm.py:336-348). *)
Definition init_units (nunits nstates ncpm : nat) (w m : mat) : result (mat * mat) :=
  let wpdf := map (fun r => vzeros (length r)) w in
  foldM (init_unit nstates ncpm wpdf) (seq 0 nunits) (w, m).

(** ** Classes *)

(** sorted() of ASCII strings *)
Fixpoint insert_str (s : string) (l : list string) : list string :=
  match l with
  | [] => [s]
  | x :: t => if String.leb s x then s :: l else x :: insert_str s t
  end.
Definition sort_str (l : list string) : list string := fold_right insert_str [] l.

(** mksphoneloop.py:116-121: unit2class and class2unit *)
Definition read_classes (lines : list (list string))
  : result (list (string * string) * list (string * string)) :=
  foldM (fun st toks => match toks with
         | [unit; uclass] => Ok (sset unit uclass (fst st), sset uclass unit (snd st))
         | _ => Err ValueError
         end) lines ([], []).

(** mksphoneloop.py:122-124 *)
Definition class2idx (class2unit : list (string * string)) : list (string * nat) :=
  fold_left (fun d ic => sset (snd ic) (fst ic) d)
    (combine (seq 0 (length class2unit)) (sort_str (map fst class2unit))) [].

Fixpoint upd {A : Type} (k : nat) (v : A) (l : list A) : list A :=
  match l, k with
  | [], _ => []
  | _ :: t, O => v :: t
  | a :: t, S k => a :: upd k v t
  end.

(** mksphoneloop.py:125-130; [start_pdf]: the keys of the dictionary *)
Definition unit_labels (lines : list (list string)) (start_pdf : list string) (nunits : nat)
  : result (list nat * nat) :=
  bindr (read_classes lines) (fun uc =>
  let c2i := class2idx (snd uc) in
  bindr (foldM (fun st unit =>
           let '(labels, unit_idx) := st in
           match sget unit (fst uc) with
           | Err _ => Ok (labels, unit_idx)
           | Ok uclass =>
             bindr (sget uclass c2i) (fun k =>
             if Nat.ltb unit_idx nunits then Ok (upd unit_idx k labels, S unit_idx)
             else Err IndexError)
           end) start_pdf (repeat O nunits, O)) (fun st =>
  Ok (fst st, length (snd uc)))).

(** ** setprior.py *)

(** Parameters of a NormalDiagonalCovariance optimized by gradient descent
    (gsm.py:29-47); [mp_distr]: the distribution. *)
Record mld_par : Type := { ml_mean : list R; ml_logcov : list R }.
Definition mld_distr (p : mld_par) : ndc_par :=
  {| nc_mean := ml_mean p; nc_cov := mld_diag_cov (ml_logcov p) |}.

Record trans_par : Type := { tp_prior : mld_par; tp_post : mld_par }.

(** setprior.py:62-74, 77-87 for the weights or for the bias; math.log raises
    ValueError when the variance is not positive. *)
Definition set_prior_par (var : R) (p init : trans_par) : result trans_par :=
  if Rlt_dec 0 var then
    let prior := {| ml_mean := ml_mean (tp_post init);
                    ml_logcov := map (fun _ => 0 + ln var) (ml_logcov (tp_post p)) |} in
    Ok {| tp_prior := prior; tp_post := prior |}
  else Err ValueError.

(** setprior.py:90-103: the posteriors of the units; [pmean], [pvar]: mean and
    diagonal of the covariance of the latent prior of gsm_init, [noise]: the
    random rows. *)
Definition set_latent_posts (posts init : list mld_par) (pmean pvar : list R) (noise : mat)
  : list mld_par :=
  let min_d := Nat.min (length posts) (length init) in
  let new_means := map (fun eps => map2 Rplus pmean (map2 (fun e v => e * sqrt v) eps pvar)) noise in
  firstn min_d init ++
  map2 (fun p m => {| ml_mean := m; ml_logcov := ml_logcov p |}) (skipn min_d posts) new_means.

(** ** train.py:107-120: the epochs; [epoch_step] runs one epoch and returns
    the new state and the value of the objective.  The last line reads the
    variables of the loop. *)
Definition train_epochs {S : Type} (epoch_step : S -> S * R) (epochs : nat) (s : S)
  : result (S * (nat * R)) :=
  let r := fold_left (fun (st : S * option (nat * R)) epoch =>
             let '(s', elbo) := epoch_step (fst st) in (s', Some (epoch, elbo)))
             (seq 1 epochs) (s, None) in
  match snd r with
  | None => Err NameError
  | Some v => Ok (fst r, v)
  end.

(** mksphoneloop.py:77-82: for ... else; the index of the first group of that
    name. *)
Fixpoint find_group {A : Type} (name : string) (conf : list (string * A)) : result nat :=
  match conf with
  | [] => Err ValueError
  | gc :: t => if String.eqb (fst gc) name then Ok O
               else bindr (find_group name t) (fun i => Ok (S i))
  end.
