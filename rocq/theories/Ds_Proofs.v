(** Proofs for C196: invariants of decode.sh. *)
From Coq Require Import List Arith Bool Ascii Lia Permutation.
From Verif Require Import Prelude Fe_Model Jb_Model Jb_Props Ep_Model Ep_Spec Ep_Proofs Rs_Proofs Ds_Model.
Import ListNotations.
Local Open Scope nat_scope.

Section Decode.
  Variables (dec : str -> option str) (srt : list str -> list str).
  Variables (cut : nat -> nat) (N : nat) (lines : list str) (txt : str -> str).
  Hypothesis Hmono : forall a b, a <= b -> cut a <= cut b.
  Hypothesis Hcut : forall a, cut a < N.
  Hypothesis Hsrt : forall l l', Permutation l l' -> srt l = srt l'.
  Hypothesis Hdec : forall u, In u lines -> dec u = Some (txt u).

  Definition dok (o : dopts) : Prop := d_njobs o = N /\ d_cut o = cut /\ forall l, Permutation (d_sched o l) l.
  Definition full : list str := srt (map txt lines).

  Record DInv (s : ddir) : Prop := {
    di_split : good_split N (d_split s);
    di_nodup : NoDup (map fst (d_parts s));
    di_keys : forall k, In k (map fst (d_parts s)) -> 1 <= k <= N
  }.

  Definition finished (s : ddir) (ids : list nat) : Prop :=
    (forall id, 1 <= id <= N -> task_input (d_split s) id = chunk cut lines (id - 1)) /\
    forall id, In id ids -> getn (d_parts s) id = Some (map txt (chunk cut lines (id - 1))).

  Definition DI (ps : dpc * ddir) : Prop :=
    DInv (snd ps) /\
    match fst ps with
    | DSplit => d_trans (snd ps) = None
    | DTasks rest => d_trans (snd ps) = None /\ exists ids, Permutation (ids ++ rest) (seq 1 N) /\ finished (snd ps) ids
    | DTask id todo rest => d_trans (snd ps) = None /\ exists ids pre, Permutation (ids ++ id :: rest) (seq 1 N) /\
        finished (snd ps) ids /\ chunk cut lines (id - 1) = pre ++ todo /\ getn (d_parts (snd ps)) id = Some (map txt pre)
    | DOpen => d_trans (snd ps) = None /\ exists ids, Permutation ids (seq 1 N) /\ finished (snd ps) ids
    | DWrite => exists ids, Permutation ids (seq 1 N) /\ finished (snd ps) ids
    | DDone => d_trans (snd ps) = Some full
    end.

  Lemma chunk_in k u : In u (chunk cut lines k) -> In u lines.
  Proof.
    unfold chunk. intros H. apply in_map_iff in H. destruct H as ([o l] & <- & H). apply filter_In in H. destruct H as [H _].
    now apply in_combine_r in H.
  Qed.

  Lemma set_part_inv s id l : DInv s -> 1 <= id <= N -> DInv (set_part s id l).
  Proof.
    intros [A B C] Hid. constructor; cbn [set_part d_split d_parts].
    - exact A.
    - now apply putn_nodup.
    - intros k Hk. apply putn_keys in Hk. destruct Hk as [->|Hk]; auto.
  Qed.

  Lemma set_part_finished s ids id l : finished s ids -> ~ In id ids -> finished (set_part s id l) ids.
  Proof.
    intros [A B] Hn. split; [exact A|]. intros j Hj. cbn [set_part d_parts]. rewrite getn_putn.
    destruct (Nat.eqb_spec id j) as [->|]; [tauto|auto].
  Qed.

  Lemma perm_id ids id rest : Permutation (ids ++ id :: rest) (seq 1 N) -> 1 <= id <= N /\ ~ In id ids.
  Proof.
    intros H. split.
    - assert (X : In id (seq 1 N)) by (eapply Permutation_in; [exact H|apply in_or_app; right; now left]). apply in_seq in X. lia.
    - assert (X : NoDup (ids ++ id :: rest)) by (eapply Permutation_NoDup; [symmetry; exact H|apply seq_NoDup]).
      apply NoDup_remove_2 in X. intros Y. apply X. apply in_or_app. now left.
  Qed.

  Lemma concat_perm (a b : list (list str)) : Permutation a b -> Permutation (concat a) (concat b).
  Proof.
    intros H. induction H; cbn; auto.
    - now apply Permutation_app_head.
    - rewrite !app_assoc. apply Permutation_app_tail, Permutation_app_comm.
    - etransitivity; eauto.
  Qed.

  Lemma written s ids : DInv s -> Permutation ids (seq 1 N) -> finished s ids -> Permutation (concat (map snd (d_parts s))) (map txt lines).
  Proof.
    intros HI HP [_ HF].
    assert (HK : Permutation (map fst (d_parts s)) (seq 1 N)).
    { apply NoDup_Permutation; [apply (di_nodup _ HI)|apply seq_NoDup|]. intros k. split; [intros Hk; apply in_seq; specialize (di_keys _ HI k Hk); lia|].
      intros Hk. eapply getn_in. apply HF. eapply Permutation_in; [symmetry; exact HP|exact Hk]. }
    assert (HV : Permutation (map snd (d_parts s)) (map (fun i => map txt (chunk cut lines i)) (seq 0 N))).
    { apply perm_Some. rewrite <- getn_values by apply (di_nodup _ HI). rewrite (Permutation_map _ HK), <- seq_shift, !map_map.
      erewrite map_ext_in; [apply Permutation_refl|]. intros k Hk. apply in_seq in Hk. cbn beta. rewrite HF.
      - do 3 f_equal. lia.
      - eapply Permutation_in; [symmetry; exact HP|]. apply in_seq. lia. }
    apply concat_perm in HV. rewrite HV. rewrite <- (map_map (chunk cut lines) (map txt)), <- concat_map.
    rewrite (shs_lines cut N lines Hmono Hcut). apply Permutation_refl.
  Qed.

  Lemma dmicro_DI o ps : dok o -> DI ps -> DI (dmicro dec srt o lines ps).
  Proof.
    intros (O1 & O2 & O3). destruct ps as [p s]. unfold DI. cbn [fst snd]. intros [HI HP].
    destruct p as [|rest|id todo rest| | |]; cbn [dmicro].
    - rewrite O1, O2. cbn [fst snd d_trans]. destruct HI as [A B C]. assert (A' := A). destruct A' as [D1 D2].
      destruct (C193_again cut N lines (d_split s) D1 D2) as (G1 & G2 & G3). unfold submit in G1, G2, G3. cbn [fst] in G1, G2, G3.
      split; [constructor; cbn; [split; auto|exact B|exact C]|]. split; [exact HP|]. exists []. cbn [app]. split.
      + unfold tasks. rewrite G3. apply O3.
      + split; [|intros ? []]. intros id Hid. cbn [d_split]. destruct id as [|i]; [lia|].
        rewrite (split_task cut N lines Hmono Hcut) by (auto; lia). f_equal. lia.
    - destruct HP as (HT & ids & HD & HF). destruct rest as [|id rest]; cbn [fst snd].
      + split; [exact HI|]. split; [exact HT|]. exists ids. rewrite app_nil_r in HD. auto.
      + destruct (perm_id _ _ _ HD) as [Hid Hni]. split; [now apply set_part_inv|]. split; [exact HT|].
        exists ids, []. split; [exact HD|]. split; [now apply set_part_finished|]. split; [symmetry; apply (proj1 HF); exact Hid|].
        cbn [set_part d_parts map]. rewrite getn_putn, Nat.eqb_refl. reflexivity.
    - destruct HP as (HT & ids & pre & HD & HF & HC & HG). destruct (perm_id _ _ _ HD) as [Hid Hni]. destruct todo as [|u todo]; cbn [fst snd].
      + split; [exact HI|]. split; [exact HT|]. exists (ids ++ [id]). rewrite <- app_assoc. split; [exact HD|].
        split; [exact (proj1 HF)|]. intros j Hj. apply in_app_iff in Hj. destruct Hj as [Hj|[<-|[]]]; [now apply (proj2 HF)|].
        rewrite HC, app_nil_r. exact HG.
      + rewrite Hdec by (apply (chunk_in (id - 1)); rewrite HC; apply in_or_app; right; now left). cbn [fst snd].
        split; [now apply set_part_inv|]. split; [exact HT|]. exists ids, (pre ++ [u]). split; [exact HD|].
        split; [now apply set_part_finished|]. split; [rewrite <- app_assoc; exact HC|].
        unfold part. rewrite HG. cbn [set_part d_parts]. rewrite getn_putn, Nat.eqb_refl, map_app. reflexivity.
    - destruct HP as (HT & ids & HD & HF). cbn [fst snd]. split; [destruct HI; constructor; auto|]. exists ids. split; [exact HD|exact HF].
    - destruct HP as (ids & HD & HF). cbn [fst snd]. split; [destruct HI; constructor; auto|]. cbn [set_trans d_trans]. f_equal.
      unfold full. apply Hsrt. eapply written; eauto.
    - auto.
  Qed.

  Lemma dsteps_DI o k ps : dok o -> DI ps -> DI (dsteps dec srt o lines k ps).
  Proof. intros Ho HP. unfold dsteps. induction k as [|k IH]; [exact HP|]. cbn [Nat.iter nat_rect]. now apply dmicro_DI. Qed.

  Definition between (s : ddir) : Prop := DInv s /\ (d_trans s = None \/ d_trans s = Some full).

  Lemma dstart_DI s : between s -> DI (dstart s, s).
  Proof. intros [HI [HT|HT]]; unfold dstart, DI; rewrite HT; cbn [fst snd]; auto. Qed.

  Lemma DI_between ps : DI ps -> fst ps <> DWrite -> between (snd ps).
  Proof. destruct ps as [p s]. unfold DI, between. cbn [fst snd]. intros [HI HP] Hw. split; [exact HI|]. destruct p; try tauto; intuition. Qed.

  (** ** It ends *)
  Lemma dsteps_S o k ps : dsteps dec srt o lines (S k) ps = dsteps dec srt o lines k (dmicro dec srt o lines ps).
  Proof. unfold dsteps. induction k as [|k IH]; [reflexivity|]. cbn [Nat.iter nat_rect] in *. now rewrite IH. Qed.

  Lemma dsteps_done o k s : dsteps dec srt o lines k (DDone, s) = (DDone, s).
  Proof. induction k as [|k IH]; [reflexivity|]. now rewrite dsteps_S. Qed.

  Definition ends (o : dopts) (ps : dpc * ddir) : Prop :=
    exists K s', forall k, K <= k -> dsteps dec srt o lines k ps = (DDone, s').

  Lemma ends_step o ps : ends o (dmicro dec srt o lines ps) -> ends o ps.
  Proof.
    intros (K & s' & H). exists (S K), s'. intros [|k] Hk; [lia|]. rewrite dsteps_S. apply H. lia.
  Qed.

  Lemma ends_done o s : ends o (DDone, s).
  Proof. exists 0, s. intros k _. apply dsteps_done. Qed.

  Lemma ends_tasks o rest : forall s, ends o (DTasks rest, s).
  Proof.
    induction rest as [|id rest IH]; intros s.
    - do 3 (apply ends_step; cbn [dmicro]). apply ends_done.
    - apply ends_step. cbn [dmicro]. generalize (set_part s id []). generalize (task_input (d_split s) id). clear s.
      intros todo. induction todo as [|u todo IHt]; intros s; apply ends_step; cbn [dmicro]; [apply IH|].
      destruct (dec u); [apply IHt|apply IH].
  Qed.

  Lemma dstart_ends o s : ends o (dstart s, s).
  Proof. unfold dstart. destruct (d_trans s); [apply ends_done|]. apply ends_step. cbn [dmicro]. apply ends_tasks. Qed.
End Decode.
