(** C206: the archive of features when the list changes. *)
From Coq Require Import String List Arith Lia Bool Ascii Permutation.
From Verif Require Import Fe_Model Jb_Model Jb_Props Zp_Model Zp_Proofs Zp_Props Xf_Model Xf_Proofs Xf_Props Xl_Proofs.
Import ListNotations.
Local Open Scope nat_scope.

(** Killed runs, each with its own list *)
Definition lruns {B : Type} (key : str -> str) (fea : str -> option B) (l : list (list str * (zopts * nat))) (s : xdir B) : xdir B :=
  fold_left (fun s r => snd (xrun key fea (fst (snd r)) (fst r) (snd (snd r)) s)) l s.
Definition older (l : list (list str * (zopts * nat))) : list str := concat (map fst l).

Lemma lruns_none {B : Type} (key : str -> str) (fea : str -> option B) l s : x_npz s <> None -> lruns key fea l s = s.
Proof.
  intros H. induction l as [|[lines [o k]] l IH]; [reflexivity|]. cbn [lruns fold_left fst snd].
  assert (E := C205_skips key fea lines s [(o, k)] H). cbn [xruns fold_left fst snd] in E. rewrite E. exact IH.
Qed.

Lemma lruns_wf {B : Type} (key : str -> str) (fea : str -> option B) (all : list str) l s :
  (forall u, In u all -> fea u <> None) ->
  (forall u v, In u all -> In v all -> key u = key v -> u = v) ->
  Forall (fun r => zok (fst (snd r)) /\ incl (fst r) all) l ->
  xwf key fea all s -> x_npz (lruns key fea l s) = None -> xwf key fea all (lruns key fea l s).
Proof.
  intros Hf Hk. revert s. induction l as [|[lines [o k]] l IH]; intros s HF HW HN; [exact HW|].
  inversion HF as [|? ? [Ho Hi] HF']; subst. cbn [fst snd] in *. cbn [lruns fold_left fst snd] in *.
  apply IH; [exact HF'| |exact HN].
  assert (Es : x_npz s = None).
  { destruct (x_npz s) as [a|] eqn:E; [|reflexivity]. exfalso.
    assert (G := lruns_none key fea ((lines, (o, k)) :: l) s). cbn [lruns fold_left fst snd] in G.
    rewrite G in HN; congruence. }
  exact (proj1 (linv_steps key fea all Hf Hk lines o k (xstart s, s) Hi Ho (linv_start key fea all lines s HW Es))).
Qed.

(** Runs killed before the archive, each with its own list, then a run with another
    list: its archive holds the features of every utterance of this list, each
    once, and files of utterances of the older lists, which may be partial *)
Theorem C206_lists {B : Type} (key : str -> str) (fea : str -> option B) (killed : list (list str * (zopts * nat)))
    (lines : list str) (o : zopts) :
  let all := lines ++ older killed in
  (forall l, In l all -> fea l <> None) ->
  (forall l l', In l all -> In l' all -> key l = key l' -> l = l') ->
  Forall (fun r => zok (fst (snd r))) killed -> zok o ->
  let s := lruns key fea killed xfresh in
  x_npz s = None ->
  exists K, forall k, K <= k ->
    fst (xrun key fea o lines k s) = XDone /\
    exists a, x_npz (snd (xrun key fea o lines k s)) = Some (a, true) /\ NoDup (map fst a) /\
      (forall l, In l lines -> In (key l, fea l) a) /\
      (forall u x, In (u, x) a -> exists l, In l all /\ key l = u /\ (x = fea l \/ x = None /\ ~ In l lines)).
Proof.
  intros all Hf Hk HF Ho s Hs.
  assert (W0 : xwf key fea all xfresh).
  { split; [constructor|]. split; [intros m w u []|apply xsound_nil]. }
  assert (HF' : Forall (fun r => zok (fst (snd r)) /\ incl (fst r) all) killed).
  { rewrite Forall_forall in *. intros r Hr. split; [now apply HF|]. intros u Hu. apply in_or_app. right.
    unfold older. apply in_concat. exists (fst r). split; [now apply in_map|exact Hu]. }
  assert (W := lruns_wf key fea all killed xfresh Hf Hk HF' W0 Hs). fold s in W.
  exists (xmeasure lines o (xstart s, s)). intros k Hle. unfold xrun.
  assert (Hi : incl lines all) by (intros u Hu; apply in_or_app; now left).
  assert (Z := linv_steps key fea all Hf Hk lines o k (xstart s, s) Hi Ho (linv_start key fea all lines s W Hs)).
  assert (E := xends key fea lines o k (xstart s, s) Hle).
  destruct (xsteps key fea o lines k (xstart s, s)) as [p s']. cbn [fst snd] in *. subst p.
  destruct Z as [_ (a & Ea & [H1 H2] & H3)]. cbn [snd] in Ea. split; [reflexivity|]. exists a.
  split; [exact Ea|]. split; [exact H1|]. split; [exact H3|].
  intros u x Hu. destruct (H2 u x Hu) as (l & Hl & <- & Hx). exists l. split; [exact Hl|]. split; [reflexivity|].
  destruct Hx as [-> | -> ]; [now left|].
  destruct (in_dec (list_eq_dec ascii_dec) l lines) as [Hin|Hin]; [|now right].
  left. exact (file_unique _ _ _ _ H1 Hu (H3 l Hin)).
Qed.

(** The list only grows: nothing else is in the archive *)
Theorem C206_grows {B : Type} (key : str -> str) (fea : str -> option B) (killed : list (list str * (zopts * nat)))
    (lines : list str) (o : zopts) :
  (forall l, In l lines -> fea l <> None) ->
  (forall l l', In l lines -> In l' lines -> key l = key l' -> l = l') ->
  Forall (fun r => zok (fst (snd r)) /\ incl (fst r) lines) killed -> zok o ->
  let s := lruns key fea killed xfresh in
  x_npz s = None ->
  exists K, forall k, K <= k ->
    fst (xrun key fea o lines k s) = XDone /\
    exists a, x_npz (snd (xrun key fea o lines k s)) = Some (a, true) /\ NoDup (map fst a) /\
      forall u x, In (u, x) a <-> exists l, In l lines /\ key l = u /\ fea l = x.
Proof.
  intros Hf Hk HF Ho s Hs.
  assert (HA : forall l, In l (lines ++ older killed) -> In l lines).
  { intros l Hl. apply in_app_or in Hl. destruct Hl as [Hl|Hl]; [exact Hl|]. unfold older in Hl. apply in_concat in Hl.
    destruct Hl as (x & Hx & Hl). apply in_map_iff in Hx. destruct Hx as (r & <- & Hr).
    rewrite Forall_forall in HF. exact (proj2 (HF r Hr) l Hl). }
  destruct (C206_lists key fea killed lines o) as [K HK]; try assumption.
  - auto.
  - auto.
  - eapply Forall_impl; [|exact HF]. intros r Hr. exact (proj1 Hr).
  - exists K. intros k Hle. destruct (HK k Hle) as (E & a & Ea & Hn & H1 & H2). split; [exact E|].
    exists a. split; [exact Ea|]. split; [exact Hn|]. intros u x. split.
    + intros Hu. destruct (H2 u x Hu) as (l & Hl & Ek & R). exists l. split; [now apply HA|]. split; [exact Ek|].
      destruct R as [->|[_ R]]; [reflexivity|]. now destruct (R (HA l Hl)).
    + intros (l & Hl & <- & <-). now apply H1.
Qed.

(** The list grows after the archive: the new utterance is never in it *)
Theorem C206_archived_refuted : forall l : list (zopts * nat),
  let s := snd (xrun xx_key xx_ok (zx_opts 2) (removelast ex_utts) 100 xfresh) in
  xx_keys (xruns xx_key xx_ok ex_utts l s) = Some ([1; 1; 1; 1; 1; 1; 1; 1; 1; 1; 1; 0], true).
Proof.
  intros l. cbv zeta. rewrite C205_skips; [vm_compute; reflexivity|]. vm_compute. congruence.
Qed.

(** Killed in the file of an utterance that is then taken out of the list: the
    archive holds the partial file *)
Theorem C206_partial_refuted : exists k,
  let s := snd (xrun xx_key xx_ok (zx_opts 2) ex_utts k xfresh) in
  let r := xrun xx_key xx_ok (zx_opts 2) (removelast ex_utts) 200 s in
  fst r = XDone /\
  option_map (fun a => (filter (fun x => match snd x with None => true | _ => false end) (fst a), snd a)) (x_npz (snd r)) =
    Some ([(last ex_utts [], None)], true).
Proof. exists 13. vm_compute. repeat split. Qed.

(** Killed with 4 jobs on the first 7 utterances, with 10 jobs on the last 8, then
    run with 2 jobs on the first 5; the others come from the older lists.  Then
    with a list that grows *)
Example C206_ex :
  let killed := [(firstn 7 ex_utts, (zx_opts 4, 10)); (skipn 4 ex_utts, (zx_opts 10, 12))] in
  let s := lruns xx_key xx_ok killed xfresh in
  x_npz s = None /\
  xx_keys (snd (xrun xx_key xx_ok (zx_opts 2) (firstn 5 ex_utts) 200 s)) =
    Some ([1; 1; 1; 1; 1; 1; 1; 1; 1; 1; 1; 1], true) /\
  let s' := lruns xx_key xx_ok [(firstn 4 ex_utts, (zx_opts 4, 11)); (firstn 6 ex_utts, (zx_opts 3, 8))] xfresh in
  x_npz s' = None /\ map snd (x_tmp s') = [Some 3; None; Some 3] /\
  xx_keys (snd (xrun xx_key xx_ok (zx_opts 2) (firstn 9 ex_utts) 200 s')) =
    Some ([1; 1; 1; 1; 1; 1; 1; 1; 1; 0; 0; 0], true).
Proof. vm_compute. repeat split. Qed.

Print Assumptions C206_lists.
Print Assumptions C206_grows.
Print Assumptions C206_archived_refuted.
Print Assumptions C206_partial_refuted.
