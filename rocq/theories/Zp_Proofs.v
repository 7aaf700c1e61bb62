(** Invariant of posteriors.sh. *)
From Coq Require Import String List Arith Lia Bool Ascii Permutation.
From Verif Require Import Fe_Model Jb_Model Jb_Props Zp_Model.
Import ListNotations.
Local Open Scope nat_scope.

(** ** The split directory, whatever was in it *)
Lemma del_nodup d nm : NoDup (map fst d) -> NoDup (map fst (del d nm)).
Proof.
  unfold del. induction d as [|[a b] d3 IH]; intros I1; [constructor|]. inversion I1 as [|? ? N1 N2]; subst. cbn [filter fst].
  destruct (negb _); [|auto]. cbn [map fst]. constructor; [|auto]. intros H. apply N1. apply in_map_iff in H.
  destruct H as (x & E & Hx). apply filter_In in Hx. cbn. rewrite <- E. apply in_map. tauto.
Qed.

Definition within (lines : list str) (d : dir) : Prop := forall m w u, In (m, w) d -> In u w -> In u lines.

Lemma chunk_in cut lines k u : In u (chunk cut lines k) -> In u lines.
Proof.
  unfold chunk. intros H. apply in_map_iff in H. destruct H as ((o & v) & <- & H). apply filter_In in H. destruct H as [H _].
  apply in_combine_r in H. exact H.
Qed.

Lemma split_any cut N lines d : NoDup (map fst d) -> within lines d ->
  (forall a b, a <= b -> cut a <= cut b) -> (forall a, cut a < N) ->
  let d' := split_sh cut N lines d in
  NoDup (map fst d') /\ within lines d' /\
  forall u, In u lines -> exists id, In id (tasks d') /\ In u (task_input d' id).
Proof.
  intros Hn Hw Hm Hc. cbv zeta. unfold split_sh. set (nm := list_ascii_of_string "list").
  destruct (splits_spec cut N lines (put d nm lines) (put_nodup d nm lines Hn) N (Nat.le_refl N)) as [I1 I2].
  set (d2 := fold_left _ _ _) in *.
  assert (Hx : forall i, xname N i <> nm) by (intros i; discriminate).
  assert (HD := del_nodup d2 nm I1).
  assert (HX : forall i, 1 <= i <= N -> In (xname N i, chunk cut lines (i - 1)) (del d2 nm)).
  { intros i Hi. unfold del. apply filter_In. split; [apply I2; left; exists i; auto|]. cbn [fst].
    destruct (str_eq (xname N i) nm) eqn:E; [|reflexivity]. apply str_eq_spec in E. now destruct (Hx i). }
  split; [exact HD|]. split.
  - intros m w u H Hu. unfold del in H. apply filter_In in H. destruct H as [H Hne]. cbn [fst] in Hne.
    apply I2 in H. destruct H as [(i & _ & _ & ->)|[_ H]]; [now apply chunk_in in Hu|].
    apply put_in in H; [|exact Hn]. destruct H as [[-> ->]|[_ H]]; [exact Hu|]. exact (Hw m w u H Hu).
  - intros u Hu. assert (E := chunks_lines cut N lines Hm Hc). rewrite <- E in Hu.
    apply in_concat in Hu. destruct Hu as (c & H1 & H2). apply in_map_iff in H1. destruct H1 as (k & <- & Hk). apply in_seq in Hk.
    exists (S k). split.
    + unfold tasks. apply in_seq. split; [lia|].
      assert (L : N <= length (del d2 nm)); [|lia].
      rewrite <- (map_length fst (del d2 nm)), <- (seq_length N 1), <- (map_length (xname N) (seq 1 N)). apply NoDup_incl_length.
      * apply FinFun.Injective_map_NoDup; [intros i j; apply xname_inj|apply seq_NoDup].
      * intros m Hm'. apply in_map_iff in Hm'. destruct Hm' as (i & <- & Hi). apply in_seq in Hi.
        apply in_map_iff. exists (xname N i, chunk cut lines (i - 1)). split; [reflexivity|]. apply HX. lia.
    + unfold task_input. apply in_concat. exists (chunk cut lines k). split; [|exact H2].
      apply in_map_iff. exists (xname N (S k), chunk cut lines (S k - 1)). split; [cbn [snd]; f_equal; lia|].
      apply filter_In. split; [apply HX; lia|]. cbn [fst]. now apply matches_xname.
Qed.

Lemma task_within lines d id u : within lines d -> In u (task_input d id) -> In u lines.
Proof.
  intros Hw H. unfold task_input in H. apply in_concat in H. destruct H as (w & H1 & H2).
  apply in_map_iff in H1. destruct H1 as ((m & w') & <- & H1). apply filter_In in H1. destruct H1 as [H1 _].
  exact (Hw m w' u H1 H2).
Qed.

Section Inv.
  Context {B : Type}.
  Variable comp : str -> outcome B.
  Variable lines : list str.
  Hypothesis Hcomp : forall u, In u lines -> comp u <> Crash.
  Hypothesis Hsome : exists u b, In u lines /\ comp u = Val b.

  Lemma puts_in (l : list (str * B)) u b v c : NoDup (map fst l) ->
    In (v, c) (puts l u b) <-> (v = u /\ c = b) \/ (v <> u /\ In (v, c) l).
  Proof.
    induction l as [|[a x] l IH]; intros Hn; cbn [puts].
    - split; [intros [H|[]]; injection H as <- <-; now left|]. intros [[-> ->]|[_ []]]. now left.
    - inversion Hn as [|? ? N1 N2]; subst. cbn [fst] in N1. specialize (IH N2).
      destruct (str_eq a u) eqn:E.
      + apply str_eq_spec in E. subst a. split.
        * intros [H|H]; [injection H as <- <-; now left|]. right. split; [|now right].
          intros ->. apply N1. now apply (in_map fst) in H.
        * intros [[-> ->]|[H1 [H2|H2]]]; [now left| |now right]. injection H2 as -> ->. congruence.
      + assert (a <> u) by (intros ->; rewrite (proj2 (str_eq_spec u u) eq_refl) in E; discriminate). split.
        * intros [H1|H1]; [injection H1 as <- <-; right; split; [auto|now left]|].
          apply IH in H1. destruct H1 as [H1|[H1 H2]]; [now left|right; split; [auto|now right]].
        * intros [H1|[H1 [H2|H2]]]; [right; apply IH; now left|now left|right; apply IH; now right].
  Qed.

  Lemma puts_names (l : list (str * B)) u b : map fst (puts l u b) = map fst l \/ (~ In u (map fst l) /\ map fst (puts l u b) = map fst l ++ [u]).
  Proof.
    induction l as [|[a x] l IH]; cbn [puts].
    - right. split; [intros []|reflexivity].
    - destruct (str_eq a u) eqn:E; [left; reflexivity|]. cbn [map fst].
      assert (a <> u) by (intros ->; rewrite (proj2 (str_eq_spec u u) eq_refl) in E; discriminate).
      destruct IH as [IH|[IH1 IH2]]; [left; now rewrite IH|right]. split; [|rewrite IH2; reflexivity].
      intros [H1|H1]; [congruence|tauto].
  Qed.

  Lemma puts_nodup (l : list (str * B)) u b : NoDup (map fst l) -> NoDup (map fst (puts l u b)).
  Proof.
    intros H. destruct (puts_names l u b) as [->|[H1 ->]]; [exact H|].
    apply (Permutation_NoDup (l := u :: map fst l)); [apply Permutation_cons_append|now constructor].
  Qed.

  (** The archive that is wanted *)
  Definition complete (a : list (str * B)) : Prop :=
    NoDup (map fst a) /\ forall u b, In (u, b) a <-> In u lines /\ comp u = Val b.

  Definition zok (o : zopts) : Prop :=
    (forall a b, a <= b -> z_cut o a <= z_cut o b) /\ (forall a, z_cut o a < z_njobs o) /\
    (forall l, Permutation (z_sched o l) l).

  Definition wf (s : zdir B) : Prop :=
    NoDup (map fst (z_split s)) /\ within lines (z_split s) /\
    match z_npz s with Some a => complete a | None => True end.
  Definition sound (s : zdir B) : Prop :=
    z_npz s = None /\ NoDup (map fst (z_tmp s)) /\ forall u b, In (u, b) (z_tmp s) -> In u lines /\ comp u = Val b.
  Definition covered (s : zdir B) (todo : list str) (rest : list nat) : Prop :=
    forall u b, In u lines -> comp u = Val b ->
      In (u, b) (z_tmp s) \/ In u todo \/ exists id, In id rest /\ In u (task_input (z_split s) id).

  Definition zinv (ps : zpc * zdir B) : Prop :=
    let s := snd ps in
    wf s /\
    match fst ps with
    | ZSplit => sound s
    | ZTasks rest => sound s /\ covered s [] rest
    | ZTask todo rest => sound s /\ covered s todo rest /\ forall u, In u todo -> In u lines
    | ZZip => sound s /\ covered s [] []
    | ZDone b => b = true /\ z_npz s <> None
    end.

  Lemma zinv_micro o ps : zok o -> zinv ps -> zinv (zmicro comp o lines ps).
  Proof.
    intros (O1 & O2 & O3). destruct ps as [p s]. intros [HW H]. cbn [fst snd] in *.
    destruct p as [|[|id rest]|[|u todo] rest| |b]; cbn [zmicro].
    - destruct HW as (W1 & W2 & W3). destruct (split_any (z_cut o) (z_njobs o) lines (z_split s) W1 W2 O1 O2) as (D1 & D2 & D3).
      split; cbn [fst snd].
      + split; [exact D1|]. split; [exact D2|exact W3].
      + split; [exact H|]. intros u b Hu _. right. right. destruct (D3 u Hu) as (id & Hid & Hin). exists id. split; [|exact Hin].
        eapply Permutation_in; [symmetry; apply O3|exact Hid].
    - split; [exact HW|exact H].
    - destruct H as [HS HC]. split; [exact HW|]. split; [exact HS|]. split.
      + intros u b Hu Hb. cbn [snd]. destruct (HC u b Hu Hb) as [K|[[]|(i & [<-|Hi] & K)]].
        * now left.
        * right. left. exact K.
        * right. right. exists i. auto.
      + intros u Hu. destruct HW as (_ & W2 & _). exact (task_within lines _ id u W2 Hu).
    - destruct H as (HS & HC & _). split; [exact HW|]. exact (conj HS HC).
    - destruct H as (HS & HC & HT). assert (Hu := HT u (or_introl eq_refl)).
      destruct (comp u) as [b| |] eqn:E.
      + destruct HS as (S1 & S2 & S3). split; [exact HW|]. cbn [fst snd]. split; [|split].
        * split; [exact S1|]. split; [cbn [z_tmp]; now apply puts_nodup|].
          intros v c Hv. cbn [z_tmp] in Hv. apply puts_in in Hv; [|exact S2]. destruct Hv as [[-> ->]|[_ Hv]]; auto.
        * intros v c Hv Hc. cbn [z_tmp z_split]. destruct (HC v c Hv Hc) as [K|[[<-|K]|K]].
          -- left. apply puts_in; [exact S2|]. destruct (str_eq v u) eqn:Ev.
             ++ apply str_eq_spec in Ev. subst v. left. split; [reflexivity|congruence].
             ++ right. split; [|exact K]. intros ->. rewrite (proj2 (str_eq_spec u u) eq_refl) in Ev. discriminate.
          -- left. apply puts_in; [exact S2|]. left. split; [reflexivity|congruence].
          -- auto.
          -- auto.
        * intros v Hv. apply HT. now right.
      + split; [exact HW|]. cbn [fst snd]. split; [exact HS|]. split; [|intros v Hv; apply HT; now right].
        intros v c Hv Hc. destruct (HC v c Hv Hc) as [K|[[<-|K]|K]]; auto. congruence.
      + now destruct (Hcomp u Hu).
    - destruct H as ((S1 & S2 & S3) & HC).
      assert (HA : forall u b, In (u, b) (z_tmp s) <-> In u lines /\ comp u = Val b).
      { intros u b. split; [apply S3|]. intros [Hu Hb]. destruct (HC u b Hu Hb) as [K|[[]|(i & [] & _)]]. exact K. }
      destruct (z_tmp s) as [|x l] eqn:El.
      + exfalso. destruct Hsome as (u & b & Hu & Hb). destruct (proj2 (HA u b) (conj Hu Hb)).
      + split; cbn [fst snd z_npz]; [|split; [reflexivity|congruence]].
        destruct HW as (W1 & W2 & _). split; [exact W1|]. split; [exact W2|]. split; [exact S2|exact HA].
    - split; [exact HW|exact H].
  Qed.

  Lemma zinv_steps o k ps : zok o -> zinv ps -> zinv (zsteps comp o lines k ps).
  Proof.
    intros Ho H. induction k as [|k IH]; [exact H|].
    change (zsteps comp o lines (S k) ps) with (zmicro comp o lines (zsteps comp o lines k ps)). now apply zinv_micro.
  Qed.

  Lemma zinv_start s : wf s -> zinv (zstart s).
  Proof.
    intros HW. unfold zstart. destruct (z_npz s) as [a|] eqn:E.
    - split; cbn [fst snd]; [exact HW|]. split; [reflexivity|congruence].
    - destruct HW as (W1 & W2 & _). split; cbn [fst snd].
      + split; [exact W1|]. split; [exact W2|exact I].
      + split; [reflexivity|]. split; [constructor|]. intros u b [].
  Qed.

  Lemma wf_runs l s : wf s -> Forall (fun ok => zok (fst ok)) l -> wf (zruns comp lines l s).
  Proof.
    revert s. induction l as [|[o k] l IH]; intros s HW HF; [exact HW|]. inversion HF as [|? ? H1 H2]; subst.
    cbn [zruns fold_left]. apply IH; [|exact H2]. cbn [fst snd]. unfold zrun.
    apply (zinv_steps o k _ H1 (zinv_start s HW)).
  Qed.

  (** The operations that remain *)
  Definition cost (d : dir) (rest : list nat) : nat := list_sum (map (fun id => 2 + length (task_input d id)) rest).
  Definition zmeasure (o : zopts) (ps : zpc * zdir B) : nat :=
    let s := snd ps in
    match fst ps with
    | ZSplit => let d := split_sh (z_cut o) (z_njobs o) lines (z_split s) in 3 + cost d (z_sched o (tasks d))
    | ZTasks rest => 2 + cost (z_split s) rest
    | ZTask todo rest => 3 + length todo + cost (z_split s) rest
    | ZZip => 1
    | ZDone _ => 0
    end.

  Lemma zmeasure_micro o ps : zmeasure o (zmicro comp o lines ps) <= zmeasure o ps - 1.
  Proof.
    destruct ps as [p s]. destruct p as [|[|id rest]|[|u todo] rest| |b]; cbn [zmicro].
    - cbn [zmeasure fst snd z_split]. lia.
    - cbn. lia.
    - cbn [zmeasure fst snd z_split]. unfold cost. cbn [map list_sum fold_right]. unfold list_sum. lia.
    - cbn [zmeasure fst snd z_split]. cbn [length]. lia.
    - destruct (comp u); cbn [zmeasure fst snd z_split length]; lia.
    - destruct (z_tmp s); cbn; lia.
    - cbn. lia.
  Qed.

  Lemma zends o k ps : zmeasure o ps <= k -> exists b, fst (zsteps comp o lines k ps) = ZDone b.
  Proof.
    intros H. assert (K : forall k, zmeasure o (zsteps comp o lines k ps) <= zmeasure o ps - k).
    { induction k0 as [|k0 IH]; [cbn; lia|].
      change (zsteps comp o lines (S k0) ps) with (zmicro comp o lines (zsteps comp o lines k0 ps)).
      pose proof (zmeasure_micro o (zsteps comp o lines k0 ps)). lia. }
    assert (K0 : zmeasure o (zsteps comp o lines k ps) = 0) by (specialize (K k); lia). clear K H.
    destruct (zsteps comp o lines k ps) as [p s]. cbn [fst].
    destruct p; unfold zmeasure in K0; cbn [fst snd] in K0; cbv zeta in K0; try lia. eauto.
  Qed.
End Inv.
