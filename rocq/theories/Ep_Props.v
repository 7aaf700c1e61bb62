(** C194: a recipe killed and started again trains the same models. *)
From Coq Require Import String List Arith Bool Ascii Lia Permutation.
From Verif Require Import Prelude Fe_Model Jb_Model Jb_Props Ep_Model Ep_Spec Ep_Proofs.
Import ListNotations.
Local Open Scope nat_scope.

(** Runs of the same recipe with the same number of jobs and of epochs, each
    killed at any point, then a run left alone: it ends, successfully, with the
    models of the successive rounds, whatever the order of the tasks and of the
    files. *)
Theorem C194_resume : forall (M A : Type) (acc : M -> list str -> option A) (upd : M -> list A -> option M)
    (ord : nat -> list A -> list A) cut N E lines m0 (killed : list (run_opts * nat)) o,
  (forall a b, a <= b -> cut a <= cut b) -> (forall a, cut a < N) ->
  (forall e l, Permutation (ord e l) l) ->
  let rounds := after_rounds acc upd (map (chunk cut lines) (seq 0 N)) m0 in
  (forall e m l l', e < E -> rounds e = Some m ->
     map (acc m) (map (chunk cut lines) (seq 0 N)) = map Some l -> Permutation l l' -> upd m l' = upd m l) ->
  (forall e, e <= E -> rounds e <> None) ->
  Forall (fun ok => ok_opts cut N E (fst ok)) killed -> ok_opts cut N E o ->
  let s := runs acc upd ord lines killed (fresh m0) in
  exists K s', (forall k, K <= k -> steps acc upd ord o lines k (start o s, s) = (PDone true, s')) /\
    final s' = rounds E /\ (forall e, e <= E -> getn (models s') e = rounds e) /\
    (forall e, E < e -> getn (models s') e = None).
Proof.
  intros M A acc upd ord cut N E lines m0 killed o Hm Hc Ho rounds Hu Hok HF Hopt s.
  destruct (runs_Inv acc upd ord cut N E lines m0 Hm Hc Ho Hu Hok killed 0 (fresh m0) HF) as (last & HI).
  { now apply fresh_Inv. }
  fold s in HI.
  assert (HP : PI acc upd cut N E lines m0 (start o s, s)) by (now apply (start_PI acc upd cut N E lines m0 Hok o last)).
  destruct (steps_end acc upd ord cut N E lines m0 Hm Hc Ho Hu Hok o (measure N E (start o s)) Hopt (start o s, s) HP (Nat.le_refl _)) as (s' & Hs).
  exists (measure N E (start o s)), s'. split; [exact Hs|].
  assert (HP' := steps_PI acc upd ord cut N E lines m0 Hm Hc Ho Hu Hok o (measure N E (start o s)) (start o s, s) Hopt HP).
  rewrite Hs in HP' by lia. destruct HP' as (_ & HI' & Hf). cbn [snd] in HI', Hf. split; [exact Hf|]. split; [apply (i_get _ _ _ _ _ _ _ _ _ HI')|].
  intros e He. destruct (getn (models s') e) as [m|] eqn:Eg; [|reflexivity]. apply getn_in in Eg.
  apply (i_keys _ _ _ _ _ _ _ _ _ HI') in Eg. lia.
Qed.

(** ** Where the loop goes wrong *)
(** A toy training: the statistics are the utterances, the model counts the
    rounds and has the utterances of the last one. *)
Definition toy_acc (bad : str) (m : nat * list str) (l : list str) : option (list str) :=
  if existsb (str_eq bad) l then None else Some l.
Definition toy_upd (m : nat * list str) (l : list (list str)) : option (nat * list str) := Some (S (fst m), concat l).
Definition toy_opts (N E : nat) : run_opts := {| njobs := N; cuts := gnu_cut N ex_utts; sched := fun _ l => l; epochs := E |}.
Definition utt (s : string) : str := list_ascii_of_string s.
Definition toy_run (bad : string) (l : list (run_opts * nat)) : outdir (nat * list str) (list str) :=
  runs (toy_acc (utt bad)) toy_upd (fun _ l => l) ex_utts l (fresh (0, [])).

Definition toy_fresh : outdir (nat * list str) (list str) := fresh (0, []).

(** A job fails: the recipe succeeds, trained without the utterances of the job. *)
Theorem C194_failure_refuted :
  steps (toy_acc (utt "u05")) toy_upd (fun _ l => l) (toy_opts 4 1) ex_utts 8 (start (toy_opts 4 1) toy_fresh, toy_fresh) =
    (PDone true, toy_run "u05" [(toy_opts 4 1, 8)]) /\
  final (toy_run "u05" [(toy_opts 4 1, 8)]) =
    Some (1, map utt ["u01"; "u02"; "u03"; "u07"; "u08"; "u09"; "u10"; "u11"; "u12"]%string).
Proof. split; vm_compute; reflexivity. Qed.

(** Killed before the first update, then started again with fewer jobs: half
    of the utterances count twice. *)
Theorem C194_njobs_refuted :
  let s := toy_run "" [(toy_opts 4 1, 6); (toy_opts 2 1, 100)] in
  match final s with
  | Some (n, l) => n = 1 /\ map (fun u => length (filter (str_eq u) l)) ex_utts = [1; 1; 1; 1; 1; 1; 2; 2; 2; 2; 2; 2]
  | None => False
  end.
Proof. vm_compute. split; reflexivity. Qed.

(** Trained with 1 epoch, then with 2 epochs, killed just before the copy: the
    recipe finds nothing more to do and the final model is that of 1 epoch. *)
Theorem C194_more_epochs_refuted : forall k,
  let s := toy_run "" [(toy_opts 2 1, 100); (toy_opts 2 2, 5)] in
  option_map fst (getn (models s) 2) = Some 2 /\
  option_map fst (final s) = Some 1 /\ start (toy_opts 2 2) s = PDone true /\
  run (toy_acc (utt "")) toy_upd (fun _ l => l) (toy_opts 2 2) ex_utts k s = s.
Proof.
  intros k s. split; [vm_compute; reflexivity|]. split; [vm_compute; reflexivity|].
  assert (E : start (toy_opts 2 2) s = PDone true) by (vm_compute; reflexivity). split; [exact E|].
  unfold run. rewrite E. now rewrite steps_done.
Qed.

(** Two epochs with 4 jobs, killed after 1, 5 and 9 operations. *)
Example C194_ex :
  let o := toy_opts 4 2 in let s := toy_run "" [(o, 1); (o, 5); (o, 9); (o, 100)] in
  start o s = PDone true /\ final s = Some (2, ex_utts) /\
  final s = after_rounds (toy_acc (utt "")) toy_upd (map (chunk (gnu_cut 4 ex_utts) ex_utts) (seq 0 4)) (0, []) 2 /\
  getn (models s) 1 = Some (1, ex_utts) /\ map fst (models s) = [0; 1; 2].
Proof. vm_compute. repeat split. Qed.

Print Assumptions C194_resume.
Print Assumptions C194_failure_refuted.
Print Assumptions C194_njobs_refuted.
Print Assumptions C194_more_epochs_refuted.
