(** Invariant of extract_features.sh. *)
From Coq Require Import String List Arith Lia Bool Ascii Permutation.
From Verif Require Import Fe_Model Jb_Model Jb_Props Zp_Model Zp_Proofs Xf_Model.
Import ListNotations.
Local Open Scope nat_scope.

Lemma file_unique {A C : Type} (a : list (A * C)) u x y : NoDup (map fst a) -> In (u, x) a -> In (u, y) a -> x = y.
Proof.
  induction a as [|[v z] a IH]; [intros _ []|]. cbn [map fst]. intros H Hx Hy. inversion H as [|? ? H1 H2]; subst.
  destruct Hx as [Ex|Hx], Hy as [Ey|Hy].
  - congruence.
  - injection Ex as -> ->. destruct H1. apply in_map_iff. exists (u, y). auto.
  - injection Ey as -> ->. destruct H1. apply in_map_iff. exists (u, x). auto.
  - now apply IH.
Qed.

Section Inv.
  Context {B : Type}.
  Variables (key : str -> str) (fea : str -> option B).
  Variable lines : list str.
  Hypothesis Hfea : forall l, In l lines -> fea l <> None.
  Hypothesis Hkey : forall l l', In l lines -> In l' lines -> key l = key l' -> l = l'.

  (** The archive that is wanted *)
  Definition xcomplete (a : list (str * option B)) : Prop :=
    NoDup (map fst a) /\ forall u x, In (u, x) a <-> exists l, In l lines /\ key l = u /\ fea l = x.
  Definition xsound (a : list (str * option B)) : Prop :=
    NoDup (map fst a) /\ forall u x, In (u, x) a -> exists l, In l lines /\ key l = u /\ (x = fea l \/ x = None).
  Definition xcov (s : xdir B) (todo : list str) (rest : list nat) : Prop :=
    forall l, In l lines -> In (key l, fea l) (x_tmp s) \/ In l todo \/
      exists id, In id rest /\ In l (task_input (x_split s) id).

  Definition xwf (s : xdir B) : Prop :=
    NoDup (map fst (x_split s)) /\ within lines (x_split s) /\ xsound (x_tmp s).
  Definition xbetween (s : xdir B) : Prop :=
    xwf s /\ (x_npz s = None \/ exists a, x_npz s = Some (a, true) /\ xcomplete a).

  Definition xinv (ps : xpc B * xdir B) : Prop :=
    let s := snd ps in
    xwf s /\
    match fst ps with
    | XSplit => x_npz s = None
    | XTasks rest => x_npz s = None /\ xcov s [] rest
    | XTask todo rest => x_npz s = None /\ xcov s todo rest /\ forall l, In l todo -> In l lines
    | XSave l b todo rest => x_npz s = None /\ fea l = Some b /\ xcov s (l :: todo) rest /\ forall v, In v (l :: todo) -> In v lines
    | XOpen => x_npz s = None /\ xcov s [] []
    | XWrite => xcov s [] []
    | XRm | XDone => exists a, x_npz s = Some (a, true) /\ xcomplete a
    end.

  Lemma xsound_nil : xsound [].
  Proof. split; [constructor|intros u b []]. Qed.

  Lemma xinv_micro o ps : zok o -> xinv ps -> xinv (xmicro key fea o lines ps).
  Proof.
    intros (O1 & O2 & O3). destruct ps as [p s]. intros [HW H]. cbn [fst snd] in *.
    destruct p as [|[|id rest]|[|l todo] rest|l b todo rest| | | |]; cbn [xmicro].
    - destruct HW as (W1 & W2 & W3). destruct (split_any (z_cut o) (z_njobs o) lines (x_split s) W1 W2 O1 O2) as (D1 & D2 & D3).
      split; cbn [fst snd].
      + split; [exact D1|]. split; [exact D2|exact W3].
      + split; [exact H|]. intros l Hl. right. right. destruct (D3 l Hl) as (id & Hid & Hin). exists id. split; [|exact Hin].
        eapply Permutation_in; [symmetry; apply O3|exact Hid].
    - split; [exact HW|exact H].
    - destruct H as [HS HC]. split; [exact HW|]. cbn [fst snd]. split; [exact HS|]. split.
      + intros l Hl. destruct (HC l Hl) as [K|[[]|(i & [<-|Hi] & K)]].
        * now left.
        * right. left. exact K.
        * right. right. exists i. auto.
      + intros l Hl. destruct HW as (_ & W2 & _). exact (task_within lines _ id l W2 Hl).
    - destruct H as (HS & HC & _). split; [exact HW|]. exact (conj HS HC).
    - destruct H as (HS & HC & HT). assert (Hl := HT l (or_introl eq_refl)).
      destruct (fea l) as [b0|] eqn:Ef; [|now destruct (Hfea l Hl)].
      destruct HW as (W1 & W2 & W3 & W4). split; cbn [fst snd].
      + split; [exact W1|]. split; [exact W2|]. cbn [x_tmp]. split; [now apply puts_nodup|].
        intros u x Hu. apply puts_in in Hu; [|exact W3]. destruct Hu as [[-> ->]|[_ Hu]]; [exists l; auto|now apply W4].
      + split; [exact HS|]. split; [exact Ef|]. split; [|exact HT].
        intros v Hv. cbn [x_tmp x_split]. destruct (HC v Hv) as [K|K]; auto.
        destruct (str_eq (key v) (key l)) eqn:Ek.
        * apply str_eq_spec in Ek. right. left. left. symmetry. now apply Hkey.
        * left. apply puts_in; [exact W3|]. right. split; [|exact K]. intros Hk.
          rewrite (proj2 (str_eq_spec _ _) Hk) in Ek. discriminate.
    - destruct H as (HS & Ef & HC & HT). assert (Hl := HT l (or_introl eq_refl)).
      destruct HW as (W1 & W2 & W3 & W4). split; cbn [fst snd].
      + split; [exact W1|]. split; [exact W2|]. cbn [x_tmp]. split; [now apply puts_nodup|].
        intros u x Hu. apply puts_in in Hu; [|exact W3]. destruct Hu as [[-> ->]|[_ Hu]]; [exists l; auto|now apply W4].
      + split; [exact HS|]. split; [|intros v Hv; apply HT; now right].
        intros v Hv. cbn [x_tmp x_split].
        assert (G : v = l -> In (key v, fea v) (puts (x_tmp s) (key l) (Some b))).
        { intros ->. apply puts_in; [exact W3|]. left. split; [reflexivity|exact Ef]. }
        destruct (HC v Hv) as [K|[[K|K]|K]]; auto.
        left. destruct (str_eq (key v) (key l)) eqn:Ek.
        * apply str_eq_spec in Ek. apply G. now apply Hkey.
        * apply puts_in; [exact W3|]. right. split; [|exact K]. intros Hk.
          rewrite (proj2 (str_eq_spec _ _) Hk) in Ek. discriminate.
    - split; [exact HW|exact (proj2 H)].
    - split; [exact HW|]. cbn [fst snd x_npz]. exists (x_tmp s). split; [reflexivity|].
      destruct HW as (W1 & W2 & W3 & W4). split; [exact W3|].
      assert (C : forall l, In l lines -> In (key l, fea l) (x_tmp s)).
      { intros l Hl. destruct (H l Hl) as [K|[[]|(i & [] & _)]]. exact K. }
      intros u x. split.
      + intros Hu. destruct (W4 u x Hu) as (l & Hl & <- & _). exists l. split; [exact Hl|]. split; [reflexivity|].
        exact (file_unique _ _ _ _ W3 (C l Hl) Hu).
      + intros (l & Hl & <- & <-). now apply C.
    - destruct HW as (W1 & W2 & W3). split; cbn [fst snd]; [|exact H].
      split; [exact W1|]. split; [exact W2|exact xsound_nil].
    - split; [exact HW|exact H].
  Qed.

  Lemma xinv_steps o k ps : zok o -> xinv ps -> xinv (xsteps key fea o lines k ps).
  Proof.
    intros Ho H. induction k as [|k IH]; [exact H|].
    change (xsteps key fea o lines (S k) ps) with (xmicro key fea o lines (xsteps key fea o lines k ps)). now apply xinv_micro.
  Qed.

  Lemma xinv_start s : xbetween s -> xinv (xstart s, s).
  Proof.
    intros [HW [E|(a & E & Ha)]]; unfold xstart; rewrite E; split; cbn [fst snd]; auto. exists a. auto.
  Qed.

  Lemma xbetween_inv ps : xinv ps -> fst ps <> XWrite -> xbetween (snd ps).
  Proof.
    destruct ps as [p s]. intros [HW H] Hp. cbn [fst snd] in *. split; [exact HW|].
    destruct p; try congruence; try (right; exact H); left; exact H || exact (proj1 H).
  Qed.

  Lemma xbetween_runs l s : xbetween s -> Forall (fun ok => zok (fst ok)) l -> outside_archive key fea lines l s ->
    xbetween (xruns key fea lines l s).
  Proof.
    revert s. induction l as [|[o k] l IH]; intros s HB HF HO; [exact HB|]. inversion HF as [|? ? H1 H2]; subst.
    cbn [xruns fold_left outside_archive fst snd] in *. destruct HO as [HO1 HO2]. apply IH; [|exact H2|exact HO2].
    apply xbetween_inv; [|exact HO1]. unfold xrun. apply xinv_steps; [exact H1|]. now apply xinv_start.
  Qed.

  Definition cost2 (d : dir) (rest : list nat) : nat := list_sum (map (fun id => 2 + 2 * length (task_input d id)) rest).
  (** The operations that remain *)
  Definition xmeasure (o : zopts) (ps : xpc B * xdir B) : nat :=
    let s := snd ps in
    match fst ps with
    | XSplit => let d := split_sh (z_cut o) (z_njobs o) lines (x_split s) in 5 + cost2 d (z_sched o (tasks d))
    | XTasks rest => 4 + cost2 (x_split s) rest
    | XTask todo rest => 5 + 2 * length todo + cost2 (x_split s) rest
    | XSave _ _ todo rest => 6 + 2 * length todo + cost2 (x_split s) rest
    | XOpen => 3
    | XWrite => 2
    | XRm => 1
    | XDone => 0
    end.

  Lemma xmeasure_micro o ps : xmeasure o (xmicro key fea o lines ps) <= xmeasure o ps - 1.
  Proof.
    destruct ps as [p s]. destruct p as [|[|id rest]|[|l todo] rest|l b todo rest| | | |]; cbn [xmicro].
    - cbn [xmeasure fst snd x_split]. lia.
    - cbn. lia.
    - cbn [xmeasure fst snd x_split]. unfold cost2. cbn [map list_sum fold_right]. unfold list_sum. lia.
    - cbn [xmeasure fst snd x_split length]. lia.
    - destruct (fea l); cbn [xmeasure fst snd x_split length]; lia.
    - cbn [xmeasure fst snd x_split length]. lia.
    - cbn. lia.
    - cbn. lia.
    - cbn. lia.
    - cbn. lia.
  Qed.

  Lemma xends o k ps : xmeasure o ps <= k -> fst (xsteps key fea o lines k ps) = XDone.
  Proof.
    intros H. assert (K : forall k, xmeasure o (xsteps key fea o lines k ps) <= xmeasure o ps - k).
    { induction k0 as [|k0 IH]; [cbn; lia|].
      change (xsteps key fea o lines (S k0) ps) with (xmicro key fea o lines (xsteps key fea o lines k0 ps)).
      pose proof (xmeasure_micro o (xsteps key fea o lines k0 ps)). lia. }
    assert (K0 : xmeasure o (xsteps key fea o lines k ps) = 0) by (specialize (K k); lia). clear K H.
    destruct (xsteps key fea o lines k ps) as [p s]. cbn [fst].
    destruct p; unfold xmeasure in K0; cbn [fst snd] in K0; cbv zeta in K0; try lia. reflexivity.
  Qed.
End Inv.
