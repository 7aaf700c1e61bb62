(** Training with numbers that can be NaN: what `beer hmm accumulate` and
    `beer hmm update` compute of an utterance for which the graph has no path.
    The same operations as in Set_Model.v, HMM_Model.v, Pw_Model.v, Bg_Model.v,
    Dl_Model.v and Db_Model.v, which are about the other utterances.

    - None is NaN; infinities are not modelled (the posteriors are never infinite:
      Na_Proofs.no_inf).
    - The statistics of the frames and the parameters of the model are numbers:
      these definitions are about the round in which NaN appears.
    - The objectives of the jobs are added up without their dictionaries: all the
      utterances have the same parameters (Opt_Model.add_acc_stats has them). *)
From Coq Require Import Reals List Arith Bool.
From Verif Require Import Prelude Vec FB_Model Edit_Model Dec_Model Set_Model HMM_Model Dist_Model SB_Model Vt_Model Vl_Model
  Mx_Model Pw_Model Bg_Model.
Import ListNotations.
Local Open Scope R_scope.

(** ** Numbers *)
Definition nr : Type := option R.

(** torch + - and *: NaN if one of the operands is NaN *)
Definition nop (f : R -> R -> R) (a b : nr) : nr :=
  match a, b with Some x, Some y => Some (f x y) | _, _ => None end.
Definition nadd : nr -> nr -> nr := nop Rplus.
Definition nsub : nr -> nr -> nr := nop Rminus.
Definition nmul : nr -> nr -> nr := nop Rmult.

Definition nvadd : list nr -> list nr -> list nr := map2 nadd.
Definition nzeros (n : nat) : list nr := repeat (Some 0) n.
Definition nsum (l : list nr) : nr := fold_right nadd (Some 0) l.
Definition ncolsum (n : nat) (rows : list (list nr)) : list nr := fold_right nvadd (nzeros n) rows.

(** A number that is NaN times a tensor of numbers *)
Definition nscale (a : nr) (v : list R) : list nr := map (fun x => nmul a (Some x)) v.

Definition nval (x : num) : nr := match x with Num r => Some r | _ => None end.

(** ** Statistics of the sets, Set_Model.accumulate *)
Definition nmat : Type := list (list nr).
Definition nsdict : Type := list (nat * nmat).

(** dirichlet.py:18-21 *)
Definition ncat_stats (row : list nr) : list nr := removelast row ++ [nsum row].

Definition ndupdate (d e : nsdict) : nsdict := fold_left (fun d kv => dset d (fst kv) (snd kv)) e d.

(** resps.t() @ stats *)
Definition nresps_t_stats (K d : nat) (resps : nmat) (stats : mat) : nmat :=
  map (fun k => ncolsum d (map2 (fun r x => nscale (nth k r (Some 0)) x) resps stats)) (seq 0 K).

(** normalset.py:121-123, modelset.py:77-85, 199-201, mixtureset.py:100-112 *)
Fixpoint naccumulate (m : mset) (stats : mat) (resps : nmat) : nsdict :=
  match m with
  | Leaf p d nform _ => [(p, nresps_t_stats (length nform) d resps stats)]
  | Joint l =>
      (fix accs l start acc :=
         match l with
         | [] => acc
         | m :: t =>
             accs t (start + size m)%nat
               (ndupdate acc (naccumulate m stats (map (fun r => firstn (size m) (skipn start r)) resps)))
         end) l 0%nat []
  | Rep m r =>
      naccumulate m stats
        (map (fun row => ncolsum (size m) (blocks r (length row / r) row)) resps)
  | Mix p cform m' =>
      let joint := map2 (fun x r => map2 nscale r (mix_resps (weighted (ncpm cform m') cform (ellh m' x)))) stats resps in
      let cstats := map (map ncat_stats) joint in
      ndupdate
        [(p, map (fun i => ncolsum (ncpm cform m') (map (fun j => nth i j []) cstats))
                 (seq 0 (length cform)))]
        (naccumulate m' stats (map (@concat nr) joint))
  end.

Fixpoint nadd_at (k : nat) (v : nr) (l : list nr) : list nr :=
  match l, k with
  | [], _ => []
  | a :: t, O => nadd a v :: t
  | a :: t, S k => a :: nadd_at k v t
  end.

(** modelset.py:148-153 *)
Definition nscatter (K : nat) (order : list nat) (r : list nr) : list nr :=
  fold_left (fun acc ov => nadd_at (fst ov) (snd ov) acc) (combine order r) (nzeros K).

(** ** HMM: the posteriors of a frame, hmm.py:88 and 94-100 *)
Definition nresps (n : nat) (c : hmm_cache) : nmat := map (fun p => map (fun j => nval (p j)) (seq 0 n)) (c_resps c).

Definition nframe_value (llh : list R) (r : list nr) : nr := nsum (map2 (fun l x => nmul (Some l) x) llh r).

Definition nhmm_accumulate (m : mset) (n : nat) (order : list nat) (c : hmm_cache) (stats : mat) : nsdict :=
  naccumulate m stats (map (nscatter (size m) order) (map (map (nmul (Some (c_scale c)))) (nresps n c))).

(** ** Phone-loops *)

(** phoneloop.py:88-99.  The posteriors of the transitions have no NaN
    (graph.py:319-321). *)
Definition nphone_counts (starts ends : list nat) (trans : list (nat -> nat -> num)) (first : nat -> num) : list nr :=
  map (fun s => nadd (nsum (map (fun e => nsum (map (fun xi => nval (xi e s)) trans)) ends)) (nval (first s))) starts.

Definition npw_row (starts ends : list nat) (w : wpar) (c : hmm_cache) : list nr :=
  match c_trans c with
  | Some trans =>
      let counts := nphone_counts starts ends trans (hd (fun _ => NaN) (c_resps c)) in
      match w with WDir _ _ => ncat_stats counts | _ => counts end
  | None => nzeros (length starts)
  end.

(** phoneloop.py:178-186 *)
Definition nbg_rows (starts ends : list nat) (b : bset) (trans : list (nat -> nat -> num)) : nmat :=
  map (fun e => ncolsum (length starts)
    (map (fun xi => let row := map (fun s => nval (xi e s)) starts in
                    match b with BCat _ _ => ncat_stats row | BStick _ _ _ _ => row end) trans)) ends.

Record nbatch : Type := { nb_llh : list nr; nb_acc : list (nat * list nr) }.

Definition nflat (d : nsdict) : list (nat * list nr) := map (fun pm => (fst pm, concat (snd pm))) d.

(** One utterance, on the graph of the loop or on an alignment graph:
    objectives.py:176-190, hmm.py:73-100, phoneloop.py:83-101 *)
Definition nloop_batch (amax : nat -> (nat -> lp) -> nat) (scale : R) (l : ploop) (m : mset) (wid : nat) (w : wpar)
  (tr : nat -> nat -> lp) (x : lutt) : result nbatch :=
  let u := lu_utt l tr x in
  let n := cg_n (u_graph u) in
  bindr (pc_llhs m (u_order u) scale (u_stats u)) (fun llhs =>
  bindr (hmm_ellh amax m (u_graph u) (u_order u) (u_own u) Soft scale (u_stats u)) (fun vc =>
  Ok {| nb_llh := map2 nframe_value llhs (nresps n (snd vc));
        nb_acc := nflat (nhmm_accumulate m n (u_order u) (snd vc) (u_stats u)) ++
                  [(wid, npw_row (pl_starts l) (pl_ends l) w (snd vc))] |})).

(** phoneloop.py:174-191 *)
Definition nbg_batch (amax : nat -> (nat -> lp) -> nat) (scale : R) (l : ploop) (m : mset) (wid : nat) (b : bset)
  (tr : nat -> nat -> lp) (x : lutt) : result nbatch :=
  let u := lu_utt l tr x in
  let n := cg_n (u_graph u) in
  bindr (pc_llhs m (u_order u) scale (u_stats u)) (fun llhs =>
  bindr (hmm_ellh amax m (u_graph u) (u_order u) (u_own u) Soft scale (u_stats u)) (fun vc =>
  match c_trans (snd vc), b with
  | Some trans, _ =>
      Ok {| nb_llh := map2 nframe_value llhs (nresps n (snd vc));
            nb_acc := nflat (nhmm_accumulate m n (u_order u) (snd vc) (u_stats u)) ++
                      [(wid, concat (nbg_rows (pl_starts l) (pl_ends l) b trans))] |}
  | None, BCat _ _ => Err TypeError
  | None, BStick _ _ _ _ => Err RuntimeError
  end)).

(** ** The objective and the update *)

(** objectives.py:176-190: the value of an utterance *)
Definition nvalue (ds : nat) (kl : R) (b : nbatch) : nr :=
  nsub (nmul (Some (INR ds / INR (length (nb_llh b)))) (nsum (nb_llh b))) (Some kl).

Definition nget (p : nat) (b : nbatch) : list nr :=
  match dget Nat.eq_dec (nb_acc b) p with Some v => v | None => [] end.

(** objectives.py:10-34, 78-107: what the parameter p gets; [K] numbers *)
Definition nstats (ds K p : nat) (bs : list nbatch) : list nr :=
  let frames := list_sum (map (fun b => length (nb_llh b)) bs) in
  map (nmul (Some (INR ds / INR frames))) (ncolsum K (map (nget p) bs)).

(** parameters.py:134-141 *)
Definition nnew (lrate : R) (prior post : list R) (stats : list nr) : list nr :=
  map2 (fun q d => nadd (Some q) (nmul (Some lrate) d)) post
    (map2 (fun a q => nsub a (Some q)) (map2 (fun a s => nadd (Some a) s) prior stats) post).

(** update.py:69, accumulate.py:65: the printed value *)
Definition nmessage (ds : nat) (kl : R) (bs : list nbatch) : nr :=
  nmul (nsum (map (nvalue ds kl) bs)) (Some (/ INR (length bs * ds))).
