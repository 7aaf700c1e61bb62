(** Invariant of extract_features.sh when the list changes between the runs. *)
From Coq Require Import String List Arith Lia Bool Ascii Permutation.
From Verif Require Import Fe_Model Jb_Model Jb_Props Zp_Model Zp_Proofs Xf_Model Xf_Proofs.
Import ListNotations.
Local Open Scope nat_scope.

Lemma within_more l l' d : incl l l' -> within l d -> within l' d.
Proof. intros H W m w u Hm Hu. apply H. exact (W m w u Hm Hu). Qed.

(** split_any with the lines of older lists in the directory *)
Lemma split_older cut N lines all d : incl lines all -> NoDup (map fst d) -> within all d ->
  within all (split_sh cut N lines d).
Proof.
  intros Hi Hn Hw. unfold split_sh. set (nm := list_ascii_of_string "list").
  destruct (splits_spec cut N lines (put d nm lines) (put_nodup d nm lines Hn) N (Nat.le_refl N)) as [I1 I2].
  set (d2 := fold_left _ _ _) in *.
  intros m w u H Hu. unfold del in H. apply filter_In in H. destruct H as [H Hne].
  apply I2 in H. destruct H as [(i & _ & _ & ->)|[_ H]]; [apply Hi; now apply chunk_in in Hu|].
  apply put_in in H; [|exact Hn]. destruct H as [[-> ->]|[_ H]]; [now apply Hi|]. exact (Hw m w u H Hu).
Qed.

(** split_any whatever is in the directory *)
Lemma split_any_gen cut N lines d : NoDup (map fst d) ->
  (forall a b, a <= b -> cut a <= cut b) -> (forall a, cut a < N) ->
  let d' := split_sh cut N lines d in
  NoDup (map fst d') /\ forall u, In u lines -> exists id, In id (tasks d') /\ In u (task_input d' id).
Proof.
  intros Hn Hm Hc. cbv zeta. unfold split_sh. set (nm := list_ascii_of_string "list").
  destruct (splits_spec cut N lines (put d nm lines) (put_nodup d nm lines Hn) N (Nat.le_refl N)) as [I1 I2].
  set (d2 := fold_left _ _ _) in *.
  assert (Hx : forall i, xname N i <> nm) by (intros i; discriminate).
  assert (HD := del_nodup d2 nm I1).
  assert (HX : forall i, 1 <= i <= N -> In (xname N i, chunk cut lines (i - 1)) (del d2 nm)).
  { intros i Hi. unfold del. apply filter_In. split; [apply I2; left; exists i; auto|]. cbn [fst].
    destruct (str_eq (xname N i) nm) eqn:E; [|reflexivity]. apply str_eq_spec in E. now destruct (Hx i). }
  split; [exact HD|].
    intros u Hu. assert (E := chunks_lines cut N lines Hm Hc). rewrite <- E in Hu.
    apply in_concat in Hu. destruct Hu as (c & H1 & H2). apply in_map_iff in H1. destruct H1 as (k & <- & Hk). apply in_seq in Hk.
    exists (S k). split.
    + unfold tasks. apply in_seq. split; [lia|].
      assert (L : N <= length (del d2 nm)); [|lia].
      rewrite <- (map_length fst (del d2 nm)), <- (seq_length N 1), <- (map_length (xname N) (seq 1 N)). apply NoDup_incl_length.
      * apply FinFun.Injective_map_NoDup; [intros i j; apply xname_inj|apply seq_NoDup].
      * intros m Hm'. apply in_map_iff in Hm'. destruct Hm' as (i & <- & Hi). apply in_seq in Hi.
        apply in_map_iff. exists (xname N i, chunk cut lines (i - 1)). split; [reflexivity|]. apply HX. lia.
    + unfold task_input. apply in_concat. exists (chunk cut lines k). split; [|exact H2].
      apply in_map_iff. exists (xname N (S k), chunk cut lines (S k - 1)). split; [cbn [snd]; f_equal; lia|].
      apply filter_In. split; [apply HX; lia|]. cbn [fst]. now apply matches_xname.
Qed.

Section Inv.
  Context {B : Type}.
  Variables (key : str -> str) (fea : str -> option B).
  Variable all : list str.
  Hypothesis Hfea : forall l, In l all -> fea l <> None.
  Hypothesis Hkey : forall l l', In l all -> In l' all -> key l = key l' -> l = l'.

  Definition lfull (lines : list str) (a : list (str * option B)) : Prop :=
    xsound key fea all a /\ forall l, In l lines -> In (key l, fea l) a.

  Definition linv (lines : list str) (ps : xpc B * xdir B) : Prop :=
    let s := snd ps in
    xwf key fea all s /\
    match fst ps with
    | XSplit => x_npz s = None
    | XTasks rest => x_npz s = None /\ xcov key fea lines s [] rest
    | XTask todo rest => x_npz s = None /\ xcov key fea lines s todo rest /\ forall l, In l todo -> In l all
    | XSave l b todo rest =>
        x_npz s = None /\ fea l = Some b /\ xcov key fea lines s (l :: todo) rest /\ forall v, In v (l :: todo) -> In v all
    | XOpen => x_npz s = None /\ xcov key fea lines s [] []
    | XWrite => xcov key fea lines s [] []
    | XRm | XDone => exists a, x_npz s = Some (a, true) /\ lfull lines a
    end.

  Lemma linv_micro lines o ps : incl lines all -> zok o -> linv lines ps -> linv lines (xmicro key fea o lines ps).
  Proof.
    intros Hi (O1 & O2 & O3). destruct ps as [p s]. intros [HW H]. cbn [fst snd] in *.
    destruct p as [|[|id rest]|[|l todo] rest|l b todo rest| | | |]; cbn [xmicro].
    - destruct HW as (W1 & W2 & W3). destruct (split_any_gen (z_cut o) (z_njobs o) lines (x_split s) W1 O1 O2) as (D1 & D3).
      split; cbn [fst snd].
      + split; [exact D1|]. split; [now apply split_older|exact W3].
      + split; [exact H|]. intros l Hl. right. right. destruct (D3 l Hl) as (id & Hid & Hin). exists id. split; [|exact Hin].
        eapply Permutation_in; [symmetry; apply O3|exact Hid].
    - split; [exact HW|exact H].
    - destruct H as [HS HC]. split; [exact HW|]. cbn [fst snd]. split; [exact HS|]. split.
      + intros l Hl. destruct (HC l Hl) as [K|[[]|(i & [<-|Hin] & K)]].
        * now left.
        * right. left. exact K.
        * right. right. exists i. auto.
      + intros l Hl. destruct HW as (_ & W2 & _). exact (task_within all _ id l W2 Hl).
    - destruct H as (HS & HC & _). split; [exact HW|]. exact (conj HS HC).
    - destruct H as (HS & HC & HT). assert (Hl := HT l (or_introl eq_refl)).
      destruct (fea l) as [b0|] eqn:Ef; [|now destruct (Hfea l Hl)].
      destruct HW as (W1 & W2 & W3 & W4). split; cbn [fst snd].
      + split; [exact W1|]. split; [exact W2|]. cbn [x_tmp]. split; [now apply puts_nodup|].
        intros u x Hu. apply puts_in in Hu; [|exact W3]. destruct Hu as [[-> ->]|[_ Hu]]; [exists l; auto|now apply W4].
      + split; [exact HS|]. split; [exact Ef|]. split; [|exact HT].
        intros v Hv. cbn [x_tmp x_split]. destruct (HC v Hv) as [K|K]; auto.
        destruct (str_eq (key v) (key l)) eqn:Ek.
        * apply str_eq_spec in Ek. right. left. left. symmetry. apply Hkey; auto.
        * left. apply puts_in; [exact W3|]. right. split; [|exact K]. intros Hk.
          rewrite (proj2 (str_eq_spec _ _) Hk) in Ek. discriminate.
    - destruct H as (HS & Ef & HC & HT). assert (Hl := HT l (or_introl eq_refl)).
      destruct HW as (W1 & W2 & W3 & W4). split; cbn [fst snd].
      + split; [exact W1|]. split; [exact W2|]. cbn [x_tmp]. split; [now apply puts_nodup|].
        intros u x Hu. apply puts_in in Hu; [|exact W3]. destruct Hu as [[-> ->]|[_ Hu]]; [exists l; auto|now apply W4].
      + split; [exact HS|]. split; [|intros v Hv; apply HT; now right].
        intros v Hv. cbn [x_tmp x_split].
        assert (G : v = l -> In (key v, fea v) (puts (x_tmp s) (key l) (Some b))).
        { intros ->. apply puts_in; [exact W3|]. left. split; [reflexivity|exact Ef]. }
        destruct (HC v Hv) as [K|[[K|K]|K]]; auto.
        left. destruct (str_eq (key v) (key l)) eqn:Ek.
        * apply str_eq_spec in Ek. apply G. apply Hkey; auto.
        * apply puts_in; [exact W3|]. right. split; [|exact K]. intros Hk.
          rewrite (proj2 (str_eq_spec _ _) Hk) in Ek. discriminate.
    - split; [exact HW|exact (proj2 H)].
    - split; [exact HW|]. cbn [fst snd x_npz]. exists (x_tmp s). split; [reflexivity|].
      destruct HW as (W1 & W2 & W3). split; [exact W3|]. intros l Hl.
      destruct (H l Hl) as [K|[[]|(i & [] & _)]]. exact K.
    - destruct HW as (W1 & W2 & W3). split; cbn [fst snd]; [|exact H].
      split; [exact W1|]. split; [exact W2|apply xsound_nil].
    - split; [exact HW|exact H].
  Qed.

  Lemma linv_steps lines o k ps : incl lines all -> zok o -> linv lines ps -> linv lines (xsteps key fea o lines k ps).
  Proof.
    intros Hi Ho H. induction k as [|k IH]; [exact H|].
    change (xsteps key fea o lines (S k) ps) with (xmicro key fea o lines (xsteps key fea o lines k ps)). now apply linv_micro.
  Qed.

  Lemma linv_start lines s : xwf key fea all s -> x_npz s = None -> linv lines (xstart s, s).
  Proof. intros HW E. unfold xstart. rewrite E. split; [exact HW|exact E]. Qed.
End Inv.
