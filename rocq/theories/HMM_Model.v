(** Mixture, HMM, PhoneLoop and BigramPhoneLoop models of beer. *)
From Coq Require Import Reals List Arith Bool.
From Verif Require Import Prelude Vec FB_Model Edit_Model Dec_Model Set_Model.
Import ListNotations.
Local Open Scope R_scope.

(** ** Mixture, /repo/beer/models/mixture.py *)

(** mixture.py:45-48 with a Categorical of natural form cf (one row) *)
Definition mixture_log_weights (cf : list R) : list R :=
  map (fun d => dot (cat_stats d) cf) (eye (length cf)).

(** torch.logsumexp on finite values *)
Definition tlse (l : list R) : R := ln (rsum (map exp l)).

(** utils.py:84-102 for one label *)
Definition onehot (n s : nat) : result (list R) :=
  if Nat.ltb s n then Ok (unit_row n s) else Err IndexError.

(** mixture.py:76-81: log-responsibilities of one frame *)
Definition mixture_log_resps (llhs logw : list R) : list R :=
  let w := vadd llhs logw in map (fun v => v - tlse w) w.

(** mixture.py:50-52 *)
Definition local_kl (log_resps logw : list R) : R :=
  rsum (map2 (fun lr w => exp lr * (lr - w)) log_resps logw).

(** mixture.py:70-93 for one frame: value and cached responsibilities *)
Definition mixture_ellh (llhs logw : list R) (label : option nat) : result (R * list R) :=
  match label with
  | None =>
      let lr := mixture_log_resps llhs logw in
      let resps := map exp lr in
      Ok (rsum (map2 Rmult llhs resps) - local_kl lr logw, resps)
  | Some s =>
      bindr (onehot (length llhs) s) (fun resps =>
      Ok (rsum (map2 Rmult llhs resps) - 0, resps))
  end.

(** mixture.py:95-102 with p the parameter of the weights, given the cached
    responsibilities: { **categorical.accumulate, **modelset.accumulate } *)
Definition mixture_accumulate (p : nat) (m : mset) (stats resps : mat) : sdict :=
  dupdate [(p, [colsum (size m) (map cat_stats resps)])] (accumulate m stats resps).

(** ** HMM, /repo/beer/models/hmm.py *)

(** hmm.py:36-38, 79: scaled likelihoods, one row per frame *)
Definition pc_llhs (m : mset) (order : list nat) (scale : R) (stats : mat) : result mat :=
  mapM (fun x => bindr (dyn_ellh m order x) (fun r => Ok (vscale scale r))) stats.

Definition as_rows (M : mat) : list row := map (fun r => (fun j => Fin (nth j r 0)) : row) M.

Inductive infer : Type :=
| Soft
| Viterbi
| Aligned (path : list nat).

Definition unit_num (s : nat) : nat -> num := fun j => Num (if Nat.eqb j s then 1 else 0).

(** hmm.py:49-53 *)
Definition hard_trans (path : list nat) : list (nat -> nat -> num) :=
  map (fun sd => fun i j => Num (if Nat.eqb i (fst sd) && Nat.eqb j (snd sd) then 1 else 0))
      (combine path (tl path)).

Section Inference.
  Variable amax : nat -> (nat -> lp) -> nat.

  (** hmm.py:40-62.  pc_llhs[path] (line 58) indexes the frames by the states
      of the path.  A path shorter or longer than the utterance makes the
      product of line 88 fail (RuntimeError; the broadcast of a path of length
      one is not modelled). *)
  Definition inference (g : cgraph) (llhs : mat) (mode : infer) (trans : bool)
    : result (list (nat -> num) * option (list (nat -> nat -> num))) :=
    let hard path :=
      if existsb (fun s => Nat.leb (cg_n g) s) path then Err IndexError
      else if existsb (fun s => Nat.leb (length llhs) s) path then Err IndexError
      else if negb (Nat.eqb (length path) (length llhs)) then Err RuntimeError
      else Ok (map unit_num path, if trans then Some (hard_trans path) else None) in
    match mode with
    | Viterbi => bindr (best_path amax g (as_rows llhs)) hard
    | Aligned path => hard path
    | Soft =>
        bindr (posteriors g (as_rows llhs)) (fun pl =>
        Ok (fst pl, if trans then Some (trans_posteriors g (as_rows llhs)) else None))
    end.
End Inference.

(** A row of posteriors as numbers, when none is NaN (or infinite). *)
Definition num_ok (x : num) : bool := match x with Num _ => true | _ => false end.
Definition num_val (x : num) : R := match x with Num r => r | _ => 0 end.
Definition nums (n : nat) (p : nat -> num) : option (list R) :=
  let l := map p (seq 0 n) in
  if forallb num_ok l then Some (map num_val l) else None.

Record hmm_cache : Type := {
  c_resps : list (nat -> num);
  c_trans : option (list (nat -> nat -> num));
  c_scale : R
}.

(** hmm.py:88: (pc_llhs * resps).sum(dim=-1); None is NaN *)
Definition frame_value (n : nat) (llh : list R) (p : nat -> num) : option R :=
  match nums n p with Some r => Some (rsum (map2 Rmult llh r)) | None => None end.

(** hmm.py:73-92.  [own] : no inference graph was given, g is self.graph. *)
Definition hmm_ellh (amax : nat -> (nat -> lp) -> nat) (m : mset) (g : cgraph)
  (order : list nat) (own : bool) (mode : infer) (scale : R) (stats : mat)
  : result (list (option R) * hmm_cache) :=
  bindr (pc_llhs m order scale stats) (fun llhs =>
  bindr (inference amax g llhs mode own) (fun rt =>
  Ok (map2 (frame_value (cg_n g)) llhs (fst rt),
      {| c_resps := fst rt; c_trans := snd rt; c_scale := scale |}))).

Fixpoint all_some {A} (l : list (option A)) : option (list A) :=
  match l with
  | [] => Some []
  | Some a :: t => match all_some t with Some r => Some (a :: r) | None => None end
  | None :: _ => None
  end.

(** hmm.py:94-100; None when a responsibility is NaN (the statistics are NaN) *)
Definition hmm_accumulate (m : mset) (n : nat) (order : list nat) (c : hmm_cache) (stats : mat)
  : option sdict :=
  match all_some (map (nums n) (c_resps c)) with
  | Some resps => Some (dyn_accumulate m order stats (map (vscale (c_scale c)) resps))
  | None => None
  end.

(** hmm.py:105-114 *)
Definition hmm_decode (amax : nat -> (nat -> lp) -> nat) (m : mset) (g : cgraph)
  (order : list nat) (scale : R) (stats : mat) : result (list nat) :=
  bindr (pc_llhs m order scale stats) (fun llhs =>
  bindr (best_path amax g (as_rows llhs)) (fun path =>
  Ok (map (fun s => nth s order 0%nat) path))).

(** hmm.py:116-121 *)
Definition hmm_posteriors (amax : nat -> (nat -> lp) -> nat) (m : mset) (g : cgraph)
  (order : list nat) (scale : R) (stats : mat) : result (list (nat -> num)) :=
  bindr (pc_llhs m order 1 (map (vscale scale) stats)) (fun llhs =>
  bindr (inference amax g llhs Soft false) (fun rt => Ok (fst rt))).

(** ** PhoneLoop, /repo/beer/models/phoneloop.py *)

(** torch.log on [0, 1] *)
Definition lnp (x : R) : lp := if Rlt_dec 0 x then Fin (ln x) else NInf.

(** trans[e, starts] = vals *)
Definition row_set (r : nat -> lp) (sv : list (nat * lp)) : nat -> lp :=
  fold_left (fun r sv => fun j => if Nat.eqb j (fst sv) then snd sv else r j) sv r.

(** phoneloop.py:60-65: one iteration, with the log-weights of that iteration *)
Definition update_end (starts : list nat) (trans : nat -> nat -> lp) (ew : nat * list R)
  : nat -> nat -> lp :=
  let (e, logw) := ew in
  let residual := lnp (1 - ex (trans e e)) in
  fun i => if Nat.eqb i e
           then row_set (trans e) (combine starts (map (fun w => ladd residual (Fin w)) logw))
           else trans i.

(** phoneloop.py:53-65; logw : expected log-likelihood of the one-hot data *)
Definition on_weights_update (logw : list R) (starts ends : list nat)
  (trans : nat -> nat -> lp) : nat -> nat -> lp :=
  fold_left (update_end starts) (map (fun e => (e, logw)) ends) trans.

(** phoneloop.py:145-157; logm : expected log-likelihood of the one-hot data,
    one row per datum *)
Definition bigram_on_weights_update (logm : mat) (starts ends : list nat)
  (trans : nat -> nat -> lp) : nat -> nat -> lp :=
  fold_left (update_end starts)
    (map (fun ie => (snd ie, nth (fst ie) logm [])) (combine (seq 0 (length ends)) ends)) trans.

(** categoricalset.py:45-47 on torch.eye: stats @ pdfvecs.t() *)
Definition catset_logm (cforms : mat) (K : nat) : mat := map (lin cforms) (map cat_stats (eye K)).

(** categoricalset.py:300-302 (SBCategoricalSet): eye @ log_prob *)
Definition sbset_logm (logp : mat) (K : nat) : mat :=
  map (fun d => map (fun j => dot d (map (fun row => nth j row 0) logp)) (seq 0 K)) (eye (length logp)).

(** phoneloop.py:89-94: counts of the phones *)
Definition phone_counts (starts ends : list nat) (trans : list (nat -> nat -> num))
  (first : nat -> num) : list R :=
  map (fun s => sumf (fun e => sumf (fun xi => num_val (xi e s)) trans) ends + num_val (first s)) starts.

(** phoneloop.py:83-101; p is the parameter of the weights *)
Definition phoneloop_accumulate (p : nat) (m : mset) (n : nat) (order starts ends : list nat)
  (c : hmm_cache) (stats : mat) : option sdict :=
  match hmm_accumulate m n order c stats with
  | None => None
  | Some d =>
      match c_trans c with
      | Some trans =>
          Some (dset d p [cat_stats (phone_counts starts ends trans (hd (fun _ => NaN) (c_resps c)))])
      | None => Some (dset d p [vzeros (length starts)])
      end
  end.

(** phoneloop.py:174-191.  With alignments, CategoricalSet.accumulate is called
    with one argument instead of two. *)
Definition bigram_accumulate (p : nat) (m : mset) (n : nat) (order starts ends : list nat)
  (c : hmm_cache) (stats : mat) : result (option sdict) :=
  match c_trans c with
  | Some trans =>
      match hmm_accumulate m n order c stats with
      | None => Ok None
      | Some d =>
          Ok (Some (dset d p
            (map (fun e => colsum (length starts)
                    (map (fun xi => cat_stats (map (fun s => num_val (xi e s)) starts)) trans)) ends)))
      end
  | None => Err TypeError
  end.
