(** Model of the emissions created by mkphones
    (/repo/beer/cli/subcommands/hmm/mkphones.py:49-61, 87-113) from the mean and
    the variance of the features: one mixture of Normals per emitting state.

    - The configuration of a group has its name, its topology and the fields
      used by create_pdfs ([shared_cov] is ignored by NormalSet.create).
    - The draws of torch.randn are an argument: [draw i r c] is the entry (r, c)
      of the matrix drawn for the i-th group.
    - The emissions are created after the HMMs of the units (the script creates
      the emissions of a group right after the HMMs of the group).
    - The parameters of the i-th group are 2i (Normals) and 2i+1 (weights). *)
From Coq Require Import Reals String List Arith Bool.
From Verif Require Import Prelude Vec MF_Model Graph_Model Gb_Model Edit_Model Dec_Model Set_Model HMM_Model
  Dist_Model Mat NW_Model Df_Model Vt_Model.
Import ListNotations.
Local Open Scope R_scope.

Record emconf : Type := { ec_n : nat; ec_strength : R; ec_noise : R; ec_cov : string }.

Definition phconf : Type := list (string * (list (nat * nat * R) * emconf)).

(** The topologies, and mkphones.py:78 for the other fields *)
Definition topologies (conf : phconf) : list (string * list (nat * nat * R)) :=
  map (fun g => (fst g, fst (snd g))) conf.
Definition emconfs (conf : phconf) : list (string * emconf) :=
  fold_left (fun d g => sset (fst g) (snd (snd g)) d) conf [].

(** torch.randn(size, dim), normalset.py:36 *)
Definition randn (draw : nat -> nat -> R) (size dim : nat) : list (list R) :=
  map (fun r => map (draw r) (seq 0 dim)) (seq 0 size).

(** ConjugateBayesianParameter of the Normals: one row *)
Definition normal_cell (p : nparam) : cell :=
  match p with
  | Pfull b => CFull (bp_prior b) (bp_post b)
  | Pdiag b => CDiag (bp_prior b) (bp_post b)
  | Piso b => CIso (bp_prior b) (bp_post b)
  end.

(** Size and value of the sufficient statistics of a covariance type
    (normalgamma.py:27-53, isonormalgamma.py:27-54, normalwishart.py:42-86) *)
Definition cov_dim (cov_type : string) (dim : nat) : nat :=
  if String.eqb cov_type "full" then (dim + (dim * dim + 2))%nat
  else if String.eqb cov_type "diagonal" then (2 * dim + 2)%nat
  else (dim + 3)%nat.
Definition cov_stats (cov_type : string) : list R -> list R :=
  if String.eqb cov_type "full" then nl_suff_stats
  else if String.eqb cov_type "diagonal" then nd_suff_stats
  else in_suff_stats.

(** The emissions of a group: the set and the values of its two parameters *)
Record pdfs : Type := { pd_set : mset; pd_normals : list cell; pd_weights : list cell }.

(** mkphones.py:49-61 with normalset.py:84-102, mixtureset.py:30-50 and
    categorical.py:15-18 (one row of weights per mixture) *)
Definition create_pdfs (i : nat) (mean var : list R) (draw : nat -> nat -> R) (tot : nat) (gc : emconf) : result pdfs :=
  let size := (tot * ec_n gc)%nat in
  bindr (normalset_create mean (T1 var) (randn draw size (length mean)) (ec_strength gc) (ec_noise gc) (ec_cov gc)) (fun nps =>
  if Nat.eqb tot 0 then Err ZeroDivisionError else
  let ncomp := (length nps / tot)%nat in
  let w := categorical_default (uniform_weights ncomp) (ec_strength gc) in
  let normals := map normal_cell nps in
  let weights := repeat (CWeights w w) tot in
  Ok {| pd_set := Mix (2 * i + 1) (map cell_form weights)
                    (Leaf (2 * i) (cov_dim (ec_cov gc) (length mean)) (map cell_form normals)
                       (- (1 / 2) * INR (length mean) * ln (2 * PI)));
        pd_normals := normals; pd_weights := weights |}).

(** mkphones.py:102-112: the sets of the groups *)
Fixpoint create_all (i : nat) (mean var : list R) (draw : nat -> nat -> nat -> R) (tots : list nat) (gcs : list emconf)
  : result (list pdfs) :=
  match tots, gcs with
  | tot :: tots, gc :: gcs =>
      bindr (create_pdfs i mean var (draw i) tot gc) (fun p =>
      bindr (create_all (S i) mean var draw tots gcs) (fun ps => Ok (p :: ps)))
  | _, _ => Ok []
  end.

(** mkphones.py:74-117 *)
Definition mkphones_all (mean var : list R) (draw : nat -> nat -> nat -> R) (conf : phconf) (lines : list (list string))
  : result (list (string * graph) * list nat * list pdfs) :=
  bindr (mkphones (topologies conf) lines) (fun ut =>
  bindr (create_all 0 mean var draw (snd ut) (map snd (emconfs conf))) (fun ps =>
  Ok (fst ut, snd ut, ps))).

(** mkphones.py:113: the emissions, the values of their parameters and their
    groups (modelset.py:59-66, mixtureset.py:72-80) *)
Definition em_set (ps : list pdfs) : mset := Joint (map pd_set ps).
Definition em_state (ps : list pdfs) : state := fun p =>
  match nth_error ps (p / 2) with
  | Some g => if Nat.even p then pd_normals g else pd_weights g
  | None => []
  end.
Definition em_groups (ps : list pdfs) : result (list (list nat)) :=
  mff (MJoint (map (fun i => MMerge (MParams [2 * i]) (MParams [2 * i + 1])) (seq 0 (length ps))))%nat.

(** modelset.py:68-69: the statistics are those of the first set *)
Definition em_stats (gcs : list emconf) (x : list R) : result (list R) :=
  match gcs with
  | [] => Err IndexError
  | gc :: _ => Ok (cov_stats (ec_cov gc) x)
  end.

(** expected_log_likelihood on one frame: modelset.py:71-75, mixtureset.py:85-98,
    normalset.py:117-119; stats @ pdfvecs.t() raises RuntimeError when the sizes
    differ (normalgamma.py:55-59 and the other families). *)
Fixpoint score (m : mset) (x : list R) : result (list R) :=
  match m with
  | Leaf _ d _ _ => if Nat.eqb (length x) d then Ok (ellh m x) else Err RuntimeError
  | Joint l => (fix go l := match l with
                            | [] => Ok []
                            | m :: t => bindr (score m x) (fun u => bindr (go t) (fun v => Ok (u ++ v)))
                            end) l
  | Rep m r => bindr (score m x) (fun u => Ok (concat (repeat u r)))
  | Mix _ cform m' => bindr (score m' x) (fun u => Ok (map logsumexp (weighted (ncpm cform m') cform u)))
  end.

(** /repo/recipes/aud/conf/hmm.yml and hmm_*g.yml: 10 Normals per state of a
    non-speech unit, [n] per state of a speech unit *)
Definition aud_emconf (n : nat) (noise : R) : emconf :=
  {| ec_n := n; ec_strength := 1; ec_noise := noise; ec_cov := "diagonal" |}.
Definition aud_phconf (nonspeech speech : list (nat * nat * R)) (n : nat) (noise : R) : phconf :=
  [("non-speech-unit", (nonspeech, aud_emconf 10 noise)); ("speech-unit", (speech, aud_emconf n noise))]%string.
