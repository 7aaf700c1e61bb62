(** C204: the posteriors computed by jobs and put in one archive. *)
From Coq Require Import String List Arith Lia Bool Ascii Permutation.
From Verif Require Import Fe_Model Jb_Model Jb_Props Zp_Model Zp_Proofs.
Import ListNotations.
Local Open Scope nat_scope.

(** Killed any number of times, anywhere, each run with its own number of jobs
    and schedule: the last run ends with an archive that holds the posteriors
    of every utterance that has data, once, and nothing else. *)
Theorem C204_archive {B : Type} (comp : str -> outcome B) (lines : list str) (killed : list (zopts * nat)) (o : zopts) :
  (forall u, In u lines -> comp u <> Crash) ->
  (exists u b, In u lines /\ comp u = Val b) ->
  Forall (fun ok => zok (fst ok)) killed -> zok o ->
  let s := zruns comp lines killed zfresh in
  exists K, forall k, K <= k ->
    fst (zrun comp o lines k s) = ZDone true /\
    exists a, z_npz (snd (zrun comp o lines k s)) = Some a /\ NoDup (map fst a) /\
      forall u b, In (u, b) a <-> In u lines /\ comp u = Val b.
Proof.
  intros Hc Hs HF Ho s.
  assert (W0 : wf comp lines zfresh).
  { split; [constructor|]. split; [intros m w u []|exact I]. }
  assert (W : wf comp lines s) by (apply wf_runs; assumption).
  exists (zmeasure lines o (zstart s)). intros k Hk. unfold zrun.
  assert (Z := zinv_steps comp lines Hc Hs o k (zstart s) Ho (zinv_start comp lines s W)).
  destruct (zends comp lines o k (zstart s) Hk) as [b Eb].
  destruct (zsteps comp o lines k (zstart s)) as [p s']. cbn [fst snd] in *. subst p.
  destruct Z as [(_ & _ & W3) [-> Hnpz]]. cbn [fst snd] in *. split; [reflexivity|].
  destruct (z_npz s') as [a|]; [|congruence]. exists a. split; [reflexivity|exact W3].
Qed.

(** Once there is an archive no run changes it *)
Theorem C204_skips {B : Type} (comp : str -> outcome B) (lines : list str) (s : zdir B) (l : list (zopts * nat)) :
  z_npz s <> None -> zruns comp lines l s = s.
Proof.
  intros H. assert (K : forall o k, snd (zrun comp o lines k s) = s).
  { intros o k. unfold zrun, zstart. destruct (z_npz s) as [a|]; [|congruence].
    assert (E : zsteps comp o lines k (ZDone true, s) = (ZDone true, s)).
    { induction k as [|k IH]; [reflexivity|].
      change (zsteps comp o lines (S k) (ZDone true, s)) with (zmicro comp o lines (zsteps comp o lines k (ZDone true, s))).
      rewrite IH. reflexivity. }
    now rewrite E. }
  induction l as [|[o k] l IH]; [reflexivity|]. cbn [zruns fold_left fst snd]. rewrite K. exact IH.
Qed.

Definition zx_opts (n : nat) : zopts := {| z_njobs := n; z_cut := gnu_cut n ex_utts; z_sched := fun l => rev l |}.
Definition zx_comp (bad : str -> bool) (u : str) : outcome nat := if bad u then Crash else Val (length u).
Definition zx_is (t : string) (u : str) : bool := str_eq u (list_ascii_of_string t).
Definition zx_keys (s : zdir nat) : option (list nat) :=
  option_map (fun a => map (fun u => length (filter (fun x => str_eq (fst x) u) a)) ex_utts) (z_npz s).

(** The program fails once at an utterance: those after it in its job are
    missing, the recipe ends with success, and the later runs, in which the
    program works, leave the archive as it is *)
Theorem C204_failure_refuted : forall l,
  let r := zrun (zx_comp (zx_is "u02")) (zx_opts 2) ex_utts 100 zfresh in
  fst r = ZDone true /\
  zx_keys (zruns (zx_comp (fun _ => false)) ex_utts l (snd r)) = Some [1; 0; 0; 0; 0; 0; 1; 1; 1; 1; 1; 1].
Proof.
  intros l. cbv zeta. split; [vm_compute; reflexivity|]. rewrite C204_skips; [vm_compute; reflexivity|].
  vm_compute. congruence.
Qed.

(** Killed in the jobs with 4 jobs, with 10 jobs, then run with 2: the files left
    in the split directory do not matter *)
Example C204_ex :
  let s := zruns (zx_comp (fun _ => false)) ex_utts [(zx_opts 4, 9); (zx_opts 10, 15); (zx_opts 4, 1)] zfresh in
  z_npz s = None /\ length (z_split s) = 14 /\
  let r := zrun (zx_comp (fun _ => false)) (zx_opts 2) ex_utts 200 s in
  fst r = ZDone true /\ zx_keys (snd r) = Some [1; 1; 1; 1; 1; 1; 1; 1; 1; 1; 1; 1].
Proof. vm_compute. repeat split. Qed.

(** The options of the example are among those of the theorem *)
Lemma zx_ok n : 0 < n -> zok (zx_opts n).
Proof.
  intros Hn. destruct (gnu_cut_ok n ex_utts Hn) as [H1 H2]. split; [exact H1|]. split; [exact H2|].
  intros l. cbn. symmetry. apply Permutation_rev.
Qed.

Print Assumptions C204_archive.
Print Assumptions C204_skips.
Print Assumptions C204_failure_refuted.
