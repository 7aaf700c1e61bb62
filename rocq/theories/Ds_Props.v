(** C196 and C197: the decoding and the scoring steps of the recipe for acoustic
    unit discovery. *)
From Coq Require Import String List Arith Bool Ascii Lia Permutation.
From Verif Require Import Prelude Fe_Model Jb_Model Jb_Props Ep_Model Ep_Proofs Ep_Props Ds_Model Ds_Proofs.
Import ListNotations.
Local Open Scope nat_scope.

(** ** decode.sh *)
(** Killed any number of times, but not while the file trans is being written, and
    started again: the last run ends and trans has the line of every utterance,
    once. *)
Theorem C196_decode : forall (dec : str -> option str) (srt : list str -> list str) cut N lines txt (killed : list (dopts * nat)) o,
  (forall a b, a <= b -> cut a <= cut b) -> (forall a, cut a < N) ->
  (forall l, Permutation (srt l) l) -> (forall l l', Permutation l l' -> srt l = srt l') ->
  (forall u, In u lines -> dec u = Some (txt u)) ->
  Forall (fun ok => dok cut N (fst ok)) killed -> dok cut N o ->
  (forall a ok b, killed = a ++ ok :: b -> fst (drun dec srt (fst ok) lines (snd ok) (druns dec srt lines a dfresh)) <> DWrite) ->
  let s := druns dec srt lines killed dfresh in
  exists K s', (forall k, K <= k -> drun dec srt o lines k s = (DDone, s')) /\
    d_trans s' = Some (srt (map txt lines)) /\ Permutation (srt (map txt lines)) (map txt lines).
Proof.
  intros dec srt cut N lines txt killed o Hm Hc Hp Hs Hd HF Ho Hw s.
  assert (HB : between srt N lines txt s).
  { unfold s. clear s Ho o. induction killed as [|[o k] a IH] using rev_ind.
    - split; [|now left]. constructor; cbn; [split; constructor|constructor|intros ? []].
    - apply Forall_app in HF. destruct HF as [HF1 HF2]. inversion HF2 as [|? ? Ho _]; subst. cbn [fst] in Ho.
      unfold druns. rewrite fold_left_app. cbn [fold_left fst snd].
      change (fold_left _ a dfresh) with (druns dec srt lines a dfresh).
      apply (DI_between srt cut N lines txt); [|apply (Hw a (o, k) []); reflexivity].
      apply dsteps_DI; auto. apply dstart_DI. apply IH; [exact HF1|]. intros a' ok b Eq. apply (Hw a' ok (b ++ [(o, k)])).
      rewrite Eq, <- app_assoc. reflexivity. }
  destruct (dstart_ends dec srt lines o s) as (K & s' & HK). exists K, s'. split; [exact HK|]. split; [|apply Hp].
  assert (HD := dsteps_DI dec srt cut N lines txt Hm Hc Hs Hd o K _ Ho (dstart_DI srt cut N lines txt s HB)).
  rewrite (HK K (Nat.le_refl _)) in HD. destruct HD as [_ HD]. exact HD.
Qed.

(** *** Where it goes wrong *)
(** A toy decoder; the lines are already sorted. *)
Definition dx_dec (bad : string) (u : str) : option str :=
  if str_eq u (utt bad) then None else Some (u ++ utt " a b").
Definition dx_opts (N : nat) : dopts := {| d_njobs := N; d_cut := gnu_cut N ex_utts; d_sched := fun l => l |}.
Fixpoint ins (x : str) (l : list str) : list str :=
  match l with [] => [x] | y :: t => if String.leb (string_of_list_ascii x) (string_of_list_ascii y) then x :: l else y :: ins x t end.
Definition isort (l : list str) : list str := fold_right ins [] l.
Definition dx_run (bad : string) (l : list (dopts * nat)) : ddir := druns (dx_dec bad) isort ex_utts l dfresh.
Definition seen (s : ddir) : option (list nat) :=
  option_map (fun t => map (fun u => length (filter (fun l => str_eq (firstn 3 l) u) t)) ex_utts) (d_trans s).

(** Killed while sort reads its input: the file trans is empty and is never
    written again. *)
Theorem C196_killed_refuted : forall k,
  let s := dx_run "" [(dx_opts 2, 19)] in
  fst (drun (dx_dec "") isort (dx_opts 2) ex_utts 19 dfresh) = DWrite /\
  d_trans s = Some [] /\ drun (dx_dec "") isort (dx_opts 2) ex_utts k s = (DDone, s).
Proof.
  intros k s. split; [vm_compute; reflexivity|]. assert (E : d_trans s = Some []) by (vm_compute; reflexivity).
  split; [exact E|]. unfold drun, dstart. rewrite E. apply dsteps_done.
Qed.

(** A job fails at an utterance: those after it are missing and the recipe
    ends as usual. *)
Theorem C196_failure_refuted :
  let r := drun (dx_dec "u02") isort (dx_opts 2) ex_utts 100 dfresh in
  fst r = DDone /\ seen (snd r) = Some [1; 0; 0; 0; 0; 0; 1; 1; 1; 1; 1; 1].
Proof. split; vm_compute; reflexivity. Qed.

(** Killed, then started again with fewer jobs: utterances appear twice. *)
Theorem C196_njobs_refuted :
  let s := dx_run "" [(dx_opts 4, 20)] in
  let r := drun (dx_dec "") isort (dx_opts 2) ex_utts 100 s in
  d_trans s = None /\ fst r = DDone /\ seen (snd r) = Some [1; 1; 1; 1; 1; 1; 2; 2; 2; 2; 2; 2].
Proof. split; [|split]; vm_compute; reflexivity. Qed.

Example C196_ex :
  let s := dx_run "" [(dx_opts 2, 1); (dx_opts 2, 9); (dx_opts 2, 18); (dx_opts 2, 100)] in
  seen s = Some (repeat 1 12) /\ d_trans s = Some (map (fun u => u ++ utt " a b") ex_utts) /\ dstart s = DDone.
Proof. split; [|split]; vm_compute; reflexivity. Qed.

(** ** score_aud.sh *)
(** In a new directory the results are those of the alignments that were given,
    with the mapping made from them. *)
Theorem C197_fresh : forall (A P C X : Type) counts_of mapping_of map_trans per nmi entropy boundaries o (ref hyp : A),
  exists s : @sfiles C X,
    score counts_of mapping_of map_trans per nmi entropy boundaries false o ref hyp no_files =
    Some (per ref (map_trans (mapping_of ref hyp : P) hyp), nmi (counts_of ref hyp), entropy hyp, boundaries ref hyp, s) /\
    score counts_of mapping_of map_trans per nmi entropy boundaries false o ref hyp s =
    Some (per ref (map_trans (mapping_of ref hyp) hyp), nmi (counts_of ref hyp), entropy hyp, boundaries ref hyp, s).
Proof. intros. eexists. split; reflexivity. Qed.

(** A toy: alignments are lists of labels, mappings are functions, the error rate
    is the number of differences. *)
Definition sx_per (a b : list nat) : nat := length (filter (fun p => negb (fst p =? snd p)) (combine a b)).
Definition sx_map (a b : list nat) (l : nat) : nat :=
  match filter (fun p => snd p =? l) (combine a b) with p :: _ => fst p | [] => 0 end.
Definition sx_score (o : option (nat -> nat)) (ref hyp : list nat) (s : sfiles) :=
  score (fun a b => combine a b) sx_map (fun m h => map m h) sx_per (@length _) (@length nat) sx_per false o ref hyp s.
Definition sx_user (l : nat) : nat := if l =? 5 then 2 else 1.

(** The option --au-mapping has no effect: whatever the directory, the results
    are the same without it.  With the mapping of the user there are 3 errors, the
    script says 1. *)
Theorem C197_mapping_refuted :
  (forall (A P C X : Type) counts_of mapping_of map_trans per nmi entropy boundaries o (ref hyp : A) (s : @sfiles C X),
     score (P := P) counts_of mapping_of map_trans per nmi entropy boundaries false o ref hyp s =
     score counts_of mapping_of map_trans per nmi entropy boundaries false None ref hyp s) /\
  sx_per [1; 1; 2; 2] (map sx_user [5; 5; 5; 6]) = 3 /\
  option_map (fun r => fst (fst (fst (fst r)))) (sx_score (Some sx_user) [1; 1; 2; 2] [5; 5; 5; 6] no_files) = Some 1.
Proof. split; [reflexivity|]. split; reflexivity. Qed.

(** In a directory that has results, the results are the old ones whatever the
    alignments. *)
Theorem C197_stale_refuted :
  (forall (A P C X : Type) counts_of mapping_of map_trans per nmi entropy boundaries o o' (ref hyp ref' hyp' : A) r1 r2 r3 r4 (s s1 : @sfiles C X),
     score (P := P) counts_of mapping_of map_trans per nmi entropy boundaries false o ref hyp s = Some (r1, r2, r3, r4, s1) ->
     exists s2, score counts_of mapping_of map_trans per nmi entropy boundaries false o' ref' hyp' s1 = Some (r1, r2, r3, r4, s2)) /\
  sx_per [1; 1; 2; 2] (map (sx_map [1; 1; 2; 2] [5; 5; 6; 6]) [5; 5; 6; 6]) = 0.
Proof.
  split; [|reflexivity]. intros A P C X counts_of mapping_of map_trans per nmi entropy boundaries o o' ref hyp ref' hyp' r1 r2 r3 r4 s s1 H.
  unfold score in H. injection H as <- <- <- <- <-. eexists. reflexivity.
Qed.

Example C197_ex : exists s, sx_score None [1; 1; 2; 2] [5; 5; 5; 6] no_files = Some (1, 4, 4, 4, s) /\
  exists s', sx_score None [1; 1; 2; 2] [5; 5; 6; 6] s = Some (1, 4, 4, 4, s').
Proof. eexists. split; [reflexivity|]. eexists. reflexivity. Qed.

Print Assumptions C196_decode.
Print Assumptions C196_killed_refuted.
Print Assumptions C196_failure_refuted.
Print Assumptions C196_njobs_refuted.
Print Assumptions C197_fresh.
Print Assumptions C197_mapping_refuted.
Print Assumptions C197_stale_refuted.
