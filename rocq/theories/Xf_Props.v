(** C205: the features extracted by jobs and put in one archive. *)
From Coq Require Import String List Arith Lia Bool Ascii Permutation.
From Verif Require Import Fe_Model Jb_Model Jb_Props Zp_Model Zp_Proofs Zp_Props Xf_Model Xf_Proofs.
Import ListNotations.
Local Open Scope nat_scope.

(** Killed any number of times, but never while the archive is written, each run
    with its own number of jobs and schedule: the last run ends with a whole
    archive that holds the features of every utterance, once, and nothing else. *)
Theorem C205_archive {B : Type} (key : str -> str) (fea : str -> option B) (lines : list str)
    (killed : list (zopts * nat)) (o : zopts) :
  (forall l, In l lines -> fea l <> None) ->
  (forall l l', In l lines -> In l' lines -> key l = key l' -> l = l') ->
  Forall (fun ok => zok (fst ok)) killed -> zok o ->
  outside_archive key fea lines killed xfresh ->
  let s := xruns key fea lines killed xfresh in
  exists K, forall k, K <= k ->
    fst (xrun key fea o lines k s) = XDone /\
    exists a, x_npz (snd (xrun key fea o lines k s)) = Some (a, true) /\ NoDup (map fst a) /\
      forall u x, In (u, x) a <-> exists l, In l lines /\ key l = u /\ fea l = x.
Proof.
  intros Hc Hk HF Ho HO s.
  assert (W0 : xbetween key fea lines xfresh).
  { split; [|now left]. split; [constructor|]. split; [intros m w u []|apply xsound_nil]. }
  assert (W : xbetween key fea lines s) by (apply xbetween_runs; assumption).
  exists (xmeasure lines o (xstart s, s)). intros k Hle. unfold xrun.
  assert (Z := xinv_steps key fea lines Hc Hk o k (xstart s, s) Ho (xinv_start key fea lines s W)).
  assert (E := xends key fea lines o k (xstart s, s) Hle).
  destruct (xsteps key fea o lines k (xstart s, s)) as [p s']. cbn [fst snd] in *. subst p.
  destruct Z as [_ (a & Ea & Ha)]. cbn [snd] in Ea. split; [reflexivity|]. exists a. split; [exact Ea|exact Ha].
Qed.

(** Once there is an archive, whole or not, no run changes anything *)
Theorem C205_skips {B : Type} (key : str -> str) (fea : str -> option B) (lines : list str) (s : xdir B)
    (l : list (zopts * nat)) :
  x_npz s <> None -> xruns key fea lines l s = s.
Proof.
  intros H. assert (K : forall o k, snd (xrun key fea o lines k s) = s).
  { intros o k. unfold xrun, xstart. destruct (x_npz s) as [a|]; [|congruence].
    assert (E : xsteps key fea o lines k (XDone, s) = (XDone, s)).
    { induction k as [|k IH]; [reflexivity|].
      change (xsteps key fea o lines (S k) (XDone, s)) with (xmicro key fea o lines (xsteps key fea o lines k (XDone, s))).
      rewrite IH. reflexivity. }
    now rewrite E. }
  induction l as [|[o k] l IH]; [reflexivity|]. cbn [xruns fold_left fst snd]. rewrite K. exact IH.
Qed.

Definition xx_key (u : str) : str := firstn 3 u.
Definition xx_fea (bad : str -> bool) (u : str) : option nat := if bad u then None else Some (length u).
Definition xx_ok : str -> option nat := xx_fea (fun _ => false).
Definition xx_keys (s : xdir nat) : option (list nat * bool) :=
  option_map (fun a => (map (fun u => length (filter (fun x => str_eq (fst x) u && match snd x with Some _ => true | None => false end) (fst a))) ex_utts, snd a)) (x_npz s).

(** Killed while the archive is written: it is never completed *)
Theorem C205_kill_refuted : exists k, forall l,
  let s := snd (xrun xx_key xx_ok (zx_opts 2) ex_utts k xfresh) in
  length (x_tmp s) = 12 /\ x_npz (xruns xx_key xx_ok ex_utts l s) = Some ([], false).
Proof.
  exists 31. intros l. cbv zeta. split; [vm_compute; reflexivity|].
  rewrite C205_skips; [vm_compute; reflexivity|]. vm_compute. congruence.
Qed.

(** Killed in the jobs, then an utterance is taken out of the list: the archive of
    the new list holds it *)
Theorem C205_list_refuted : exists k,
  let s := snd (xrun xx_key xx_ok (zx_opts 2) ex_utts k xfresh) in
  let r := xrun xx_key xx_ok (zx_opts 2) (removelast ex_utts) 200 s in
  fst r = XDone /\ xx_keys (snd r) = Some ([1; 1; 1; 1; 1; 1; 1; 1; 1; 1; 1; 1], true) /\
  forallb (fun u => negb (str_eq u (last ex_utts []))) (removelast ex_utts) = true.
Proof. exists 17. vm_compute. repeat split. Qed.

(** The program fails once at an utterance: those after it in its job are
    missing, also after all the later runs, in which the program works *)
Theorem C205_failure_refuted : forall l,
  let r := xrun xx_key (xx_fea (zx_is "u02")) (zx_opts 2) ex_utts 100 xfresh in
  fst r = XDone /\
  xx_keys (xruns xx_key xx_ok ex_utts l (snd r)) = Some ([1; 0; 0; 0; 0; 0; 1; 1; 1; 1; 1; 1], true).
Proof.
  intros l. cbv zeta. split; [vm_compute; reflexivity|]. rewrite C205_skips; [vm_compute; reflexivity|].
  vm_compute. congruence.
Qed.

(** Two lines with the same utterance: one of them is lost *)
Theorem C205_key_refuted :
  let lines := map list_ascii_of_string ["u01 a"; "u01 bb"; "u02 c"]%string in
  let o := {| z_njobs := 1; z_cut := gnu_cut 1 lines; z_sched := fun l => l |} in
  let r := xrun xx_key xx_ok o lines 100 xfresh in
  fst r = XDone /\ option_map (fun a => map snd (fst a)) (x_npz (snd r)) = Some [Some 6; Some 5].
Proof. vm_compute. repeat split. Qed.

(** Killed in a file with 4 jobs, then with 10 jobs, then run with 2 *)
Example C205_ex :
  let killed := [(zx_opts 4, 9); (zx_opts 10, 15); (zx_opts 4, 1)] in
  let s := xruns xx_key xx_ok ex_utts killed xfresh in
  outside_archive xx_key xx_ok ex_utts killed xfresh /\
  x_npz s = None /\ map (fun x => match snd x with None => 0 | _ => 1 end) (x_tmp s) = [1; 1; 0] /\
  let r := xrun xx_key xx_ok (zx_opts 2) ex_utts 200 s in
  fst r = XDone /\ xx_keys (snd r) = Some ([1; 1; 1; 1; 1; 1; 1; 1; 1; 1; 1; 1], true).
Proof. vm_compute. repeat split; congruence. Qed.

Print Assumptions C205_archive.
Print Assumptions C205_skips.
Print Assumptions C205_kill_refuted.
Print Assumptions C205_list_refuted.
Print Assumptions C205_failure_refuted.
Print Assumptions C205_key_refuted.
