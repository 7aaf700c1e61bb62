(** Model sets of beer: sets of densities with a linear likelihood, joint,
    repeated and mixture sets, and the dynamic re-ordering used by HMMs.

    A batch of frames is a list of rows.  Every operation of these classes acts
    on each frame independently (tensor dimension 0 is never mixed with the
    others by the reshapes), except the final sum over the frames.  torch
    raises on operands of incompatible shapes: [wf] below is the set of models
    whose shapes agree. *)
From Coq Require Import Reals List Arith Bool ZArith.
From Verif Require Import Prelude Vec Edit_Model Dec_Model.
Import ListNotations.
Local Open Scope R_scope.

Definition mat : Type := list (list R).

(** A natural parameter matrix applied to one frame,
    beer/dists/dirichlet.py:57-59, normalgamma.py, ...: stats @ pdfvecs.t() *)
Definition lin (pdf : mat) (x : list R) : list R := map (dot x) pdf.

(** beer/dists/dirichlet.py:18-21 *)
Definition cat_stats (row : list R) : list R := removelast row ++ [rsum row].

(** torch .t() of a matrix with n columns *)
Definition transpose (n : nat) (m : mat) : mat :=
  map (fun j => map (fun row => nth j row 0) m) (seq 0 n).

(** row.reshape(c, w) *)
Definition blocks {A} (c w : nat) (l : list A) : list (list A) :=
  map (fun i => firstn w (skipn (i * w) l)) (seq 0 c).

(** resps.t() @ stats with K columns in resps and d in stats *)
Definition resps_t_stats (K d : nat) (resps stats : mat) : mat :=
  map (fun k => colsum d (map2 (fun r x => vscale (nth k r 0) x) resps stats)) (seq 0 K).

(** largest value of a non-empty list (torch.max) *)
Definition lmax (l : list R) : R :=
  match l with [] => 0 | a :: t => fold_left Rmax t a end.

(** beer/utils.py:105-123 on finite values *)
Definition logsumexp (l : list R) : R :=
  let tmax := lmax l in tmax + ln (rsum (map (fun v => exp (v - tmax)) l)).

(** ** The sets *)

(** [Leaf p d nform c] : NormalSet or CategoricalSet whose parameter is p, with
    sufficient statistics of dimension d, natural form nform (one row per
    component) and likelihood stats @ nform.t() + c.
    [Joint], [Rep], [Mix] : JointModelSet, RepeatedModelSet and MixtureSet, the
    latter with the parameter and the natural form of its CategoricalSet. *)
Inductive mset : Type :=
| Leaf (p d : nat) (nform : mat) (c : R)
| Joint (sets : list mset)
| Rep (m : mset) (repeat : nat)
| Mix (p : nat) (cform : mat) (m : mset).

(** __len__: normalset.py:128, modelset.py:105-109,210-211, mixtureset.py:117 *)
Fixpoint size (m : mset) : nat :=
  match m with
  | Leaf _ _ nform _ => length nform
  | Joint l => (fix sizes l := match l with [] => 0 | m :: t => size m + sizes t end)%nat l
  | Rep m r => size m * r
  | Mix _ cform _ => length cform
  end.

(** mixtureset.py:58-61 *)
Definition ncpm (cform : mat) (m : mset) : nat := (size m / length cform)%nat.

(** mixtureset.py:64-67 *)
Definition log_weights (n : nat) (cform : mat) : mat :=
  transpose (length cform) (map (lin cform) (map cat_stats (eye n))).

(** mixtureset.py:85-98 for one frame: per-mixture weighted likelihoods *)
Definition weighted (n : nat) (cform : mat) (llhs : list R) : mat :=
  map2 vadd (blocks (length cform) n llhs) (log_weights n cform).

Definition mix_resps (w : mat) : mat :=
  map (fun row => map (fun v => exp (v - logsumexp row)) row) w.

(** expected_log_likelihood on one frame: normalset.py:117-119,
    modelset.py:71-75, 194-197, mixtureset.py:85-98 *)
Fixpoint ellh (m : mset) (x : list R) : list R :=
  match m with
  | Leaf _ _ nform c => map (fun v => v + c) (lin nform x)
  | Joint l => (fix ellhs l := match l with [] => [] | m :: t => ellh m x ++ ellhs t end) l
  | Rep m r => concat (repeat (ellh m x) r)
  | Mix _ cform m' => map logsumexp (weighted (ncpm cform m') cform (ellh m' x))
  end.

(** ** Accumulation.  The statistics are dictionaries parameter -> matrix (one
    row of statistics per component). *)
Definition sdict : Type := list (nat * mat).

(** d.update(e), also { **d, **e } *)
Definition dupdate (d e : sdict) : sdict :=
  fold_left (fun d kv => dset d (fst kv) (snd kv)) e d.

(** resps[:, start: start + length] *)
Definition columns (start len : nat) (resps : mat) : mat :=
  map (fun r => firstn len (skipn start r)) resps.

(** mixtureset.py:100-103: the cached within-mixture responsibilities (of the
    same frames) times the responsibilities of the mixtures *)
Definition joint_resps (cform : mat) (m : mset) (x r : list R) : mat :=
  map2 vscale r (mix_resps (weighted (ncpm cform m) cform (ellh m x))).

(** accumulate: normalset.py:121-123, modelset.py:77-85, 199-201,
    mixtureset.py:100-112 *)
Fixpoint accumulate (m : mset) (stats resps : mat) : sdict :=
  match m with
  | Leaf p d nform _ => [(p, resps_t_stats (length nform) d resps stats)]
  | Joint l =>
      (fix accs l start acc :=
         match l with
         | [] => acc
         | m :: t =>
             accs t (start + size m)%nat
               (dupdate acc (accumulate m stats (columns start (size m) resps)))
         end) l 0%nat []
  | Rep m r =>
      accumulate m stats
        (map (fun row => colsum (size m) (blocks r (length row / r) row)) resps)
  | Mix p cform m' =>
      let joint := map2 (joint_resps cform m') stats resps in
      let cstats := map (map cat_stats) joint in
      dupdate
        [(p, map (fun i => colsum (ncpm cform m') (map (fun j => nth i j []) cstats))
                 (seq 0 (length cform)))]
        (accumulate m' stats (map (@concat R) joint))
  end.

(** ** Indexing *)
Inductive key : Type :=
| KInt (k : Z)
| KSlice (start stop step : option Z).

(** A single density returned by indexing: a component with its natural form,
    or a mixture with its weights. *)
Inductive single : Type :=
| SComp (nf : list R) (c : R)
| SMix (cf : list R) (m : list single).

Inductive item : Type := ISingle (s : single) | ISet (m : mset).

(** python indexing of a tensor or list with an integer *)
Definition py_nth {A} (l : list A) (k : Z) (d : A) : result A :=
  let n := Z.of_nat (length l) in
  if (k <? - n)%Z || (n <=? k)%Z then Err IndexError
  else Ok (nth (Z.to_nat (if (k <? 0)%Z then k + n else k)) l d).

(** python slice bounds for a positive step *)
Definition py_bound (n : nat) (b : option Z) (default : nat) : nat :=
  match b with
  | None => default
  | Some z =>
      let z' := if (z <? 0)%Z then (z + Z.of_nat n)%Z else z in
      Nat.min n (Z.to_nat z')
  end.

Fixpoint every {A} (k wait : nat) (l : list A) : list A :=
  match l with
  | [] => []
  | a :: t => match wait with
              | O => a :: every k (k - 1) t
              | S w => every k w t
              end
  end.

(** l[start:stop:step]; torch rejects non-positive steps *)
Definition py_slice {A} (l : list A) (start stop step : option Z) : result (list A) :=
  let n := length l in
  let s := match step with None => 1%Z | Some s => s end in
  if (s <=? 0)%Z then Err ValueError
  else
    let a := py_bound n start 0 in
    let b := py_bound n stop n in
    Ok (every (Z.to_nat s) 0 (firstn (b - a) (skipn a l))).

(** the densities of a set, read as single densities, when used as the
    components of a Mixture object *)
Fixpoint singles (m : mset) : list single :=
  match m with
  | Leaf _ _ nform c => map (fun nf => SComp nf c) nform
  | Joint l => (fix ss l := match l with [] => [] | m :: t => singles m ++ ss t end) l
  | Rep m r => concat (repeat (singles m) r)
  | Mix _ cform m' => map2 SMix cform (blocks (length cform) (ncpm cform m') (singles m'))
  end.

(** __getitem__: normalset.py:131-134, modelset.py:91-103, 207-208,
    mixtureset.py:120-132.  The parameters of the returned objects are new
    objects (parameters.py:105-109): their names are not those of the set, the
    name 0 is used. *)
Fixpoint getitem (m : mset) (k : key) : result item :=
  match m with
  | Leaf _ d nform c =>
      match k with
      | KInt z => bindr (py_nth nform z []) (fun nf => Ok (ISingle (SComp nf c)))
      | KSlice a b s => bindr (py_slice nform a b s) (fun nf => Ok (ISet (Leaf 0 d nf c)))
      end
  | Joint l =>
      match k with
      | KSlice _ _ _ => Err TypeError           (* key < 0 *)
      | KInt z =>
          if (z <? 0)%Z then Err ValueError
          else
            (fix look l (total : Z) :=
               match l with
               | [] => Err IndexError
               | m :: t =>
                   if (z <? total + Z.of_nat (size m))%Z then getitem m (KInt (z - total))
                   else look t (total + Z.of_nat (size m))%Z
               end) l 0%Z
      end
  | Rep m' r =>
      match k with
      | KSlice _ _ _ => Err TypeError           (* key % len *)
      | KInt z =>
          if Nat.eqb (size m') 0 then Err ZeroDivisionError
          else getitem m' (KInt (z mod Z.of_nat (size m')))
      end
  | Mix _ cform m' =>
      let n := Z.of_nat (ncpm cform m') in
      match k with
      | KInt z =>
          bindr (py_nth cform z [])
            (fun cf =>
          bindr (getitem m' (KSlice (Some (z * n)%Z) (Some ((z + 1) * n)%Z) None))
            (fun it =>
               match it with
               | ISet s => Ok (ISingle (SMix cf (singles s)))
               | ISingle _ => Err TypeError
               end))
      | KSlice a b s =>
          let start := match a with None => 0%Z | Some a => (a * n)%Z end in
          let stop := match b with None => Z.of_nat (length cform) | Some b => (b * n)%Z end in
          let step := match s with None => 1%Z | Some s => (s * n)%Z end in
          bindr (py_slice cform a b s)
            (fun cf =>
          bindr (getitem m' (KSlice (Some start) (Some stop) (Some step)))
            (fun it =>
               match it with
               | ISet sub => Ok (ISet (Mix 0 cf sub))
               | ISingle _ => Err TypeError
               end))
      end
  end.

(** ** DynamicallyOrderedModelSet, modelset.py:112-154 *)

(** modelset.py:140-146: pc_exp_llh[:, order] *)
Definition dyn_ellh (m : mset) (order : list nat) (x : list R) : result (list R) :=
  mapM (fun k => if Nat.ltb k (size m) then Ok (nth k (ellh m x) 0) else Err IndexError) order.

Fixpoint add_at (k : nat) (v : R) (l : list R) : list R :=
  match l, k with
  | [], _ => []
  | a :: t, O => (a + v) :: t
  | a :: t, S k => a :: add_at k v t
  end.

(** modelset.py:148-153: for one frame, new_resps[order[i]] += resps[i] *)
Definition scatter (K : nat) (order : list nat) (r : list R) : list R :=
  fold_left (fun acc ov => add_at (fst ov) (snd ov) acc) (combine order r) (vzeros K).

Definition dyn_accumulate (m : mset) (order : list nat) (stats resps : mat) : sdict :=
  accumulate m stats (map (scatter (size m) order) resps).
