(** C32 (no parameter is lost by the mean field factorisation), C83
    (bayesian_parameters) and C84 (replace_parameters). *)
From Coq Require Import List Arith Bool Lia Permutation Reals.
From Verif Require Import Prelude Opt_Model Opt_Spec Opt_Props MF_Model MF_Spec MF_Proofs.
Import ListNotations.
Local Open Scope nat_scope.

(** ** C32 *)

(** Every parameter of every sub-model is in the groups exactly as many times
    as the sub-models register it, in the group of the same index. *)
Theorem C32_no_parameter_lost : forall m, valid m = true ->
  exists gs, mff m = Ok gs /\ length gs = ngroups m /\
    Permutation (concat gs) (params m) /\
    forall p i, In p (nth i gs []) <-> located p i m.
Proof.
  intros m Hv. destruct (proj1 (mff_all m) Hv) as (gs & H & G). exists gs. now split.
Qed.

Theorem C32_exactly_once : forall m gs p,
  mff m = Ok gs -> NoDup (params m) -> In p (params m) ->
  exists i, i < length gs /\ In p (nth i gs []) /\
    count_occ Nat.eq_dec (nth i gs []) p = 1 /\
    forall j, j <> i -> ~ In p (nth j gs []).
Proof.
  intros m gs p Hm Hn Hp.
  assert (Hv : valid m = true).
  { destruct (valid m) eqn:E; [reflexivity|].
    destruct (proj2 (mff_all m) E) as [H|H]; rewrite H in Hm; discriminate. }
  destruct (proj1 (mff_all m) Hv) as (gs' & H & Hl & Hpm & _).
  rewrite H in Hm. injection Hm as ->.
  assert (Hc : NoDup (concat gs)) by (eapply Permutation_NoDup; [symmetry|]; eassumption).
  assert (Hin : In p (concat gs)) by (eapply Permutation_in; [symmetry|]; eassumption).
  clear H Hpm Hl Hn Hp.
  induction gs as [|g gs IH]; [destruct Hin|].
  cbn [concat] in Hc, Hin. destruct (in_dec Nat.eq_dec p g) as [Hg|Hg].
  - exists 0. split; [simpl; lia|]. split; [exact Hg|]. split.
    + apply NoDup_count_occ'; [|exact Hg]. clear - Hc.
      induction g as [|x g IHg]; [constructor|]. simpl in Hc. inversion Hc; subst. constructor.
      * intros Hx. apply H1. apply in_or_app. now left.
      * now apply IHg.
    + intros [|j] Hj Hx; [congruence|]. cbn [nth] in Hx. clear IH.
      assert (Hpc : In p (concat gs)).
      { destruct (Nat.lt_ge_cases j (length gs)).
        - apply in_concat. exists (nth j gs []). split; [now apply nth_In|exact Hx].
        - rewrite nth_overflow in Hx by lia. destruct Hx. }
      clear - Hc Hg Hpc. induction g as [|x g IHg]; [destruct Hg|]. simpl in Hc.
      inversion Hc; subst. destruct Hg as [->|Hg].
      * apply H1. apply in_or_app. now right.
      * now apply IHg.
  - assert (Hc' : NoDup (concat gs)).
    { clear - Hc. induction g as [|x g IHg]; [exact Hc|]. simpl in Hc. inversion Hc; auto. }
    apply in_app_or in Hin as [Hin|Hin]; [contradiction|].
    destruct (IH Hc' Hin) as (i & H1 & H2 & H3 & H4).
    exists (S i). split; [simpl; lia|]. split; [exact H2|]. split; [exact H3|].
    intros [|j] Hj; [exact Hg|]. apply H4. lia.
Qed.

(** The merge used by mixtures, mixture sets and phone loops, for any numbers of
    groups of the two sub-models. *)
Theorem C32_merge_any_lengths : forall m c l1 l2,
  mff m = Ok l1 -> mff c = Ok l2 ->
  exists gs, mff (MMerge m c) = Ok gs /\ length gs = Nat.max (length l1) (length l2) /\
    forall i, nth i gs [] = nth i l1 [] ++ nth i l2 [].
Proof.
  intros m c l1 l2 H1 H2. exists (pad_merge l1 l2). cbn [mff]. rewrite H1, H2.
  split; [reflexivity|]. split; [apply pad_merge_length|]. intros i. apply pad_merge_nth.
Qed.

(** A joint set accepts exactly the sets with one group each, and raises
    otherwise. *)
Theorem C32_joint_rejects_others : forall ms,
  (exists gs, mff (MJoint ms) = Ok gs) <->
  Forall (fun x => exists g, mff x = Ok [g]) ms.
Proof.
  intros ms. rewrite mff_joint. generalize (@nil nat) as acc.
  induction ms as [|x ms IH]; intros acc; [split; [constructor|eexists; reflexivity]|].
  cbn [joint_go]. split.
  - intros (gs & H). destruct (mff x) as [l|] eqn:Ex; [|discriminate]. cbn [bindr] in H.
    unfold joint_step in H. destruct l as [|g [|g' l]]; [discriminate| |discriminate].
    cbn [length Nat.ltb Nat.leb bindr] in H. constructor; [eauto|].
    apply (IH (acc ++ g)). eexists; exact H.
  - inversion 1 as [|? ? (g & Hg) Hf]; subst. rewrite Hg.
    cbn [bindr joint_step length Nat.ltb Nat.leb]. now apply IH.
Qed.

Theorem C32_only_raises_on_invalid_joint : forall m,
  valid m = false -> mff m = Err ValueError \/ mff m = Err IndexError.
Proof. intros m. exact (proj2 (mff_all m)). Qed.

(** Training: the optimiser built on the factorisation updates every parameter
    exactly once per cycle (with C29). *)
Theorem C32_one_training_cycle : forall m gs lrate h ops,
  mff m = Ok gs -> nsteps ops = length gs ->
  Permutation (snd (run_ops ops (new_optim gs lrate, h, []))) (params m).
Proof.
  intros m gs lrate h ops Hm Hn.
  destruct (C29_round_robin ops gs lrate h) as [H _]. cbv zeta in H. rewrite H, Hn.
  assert (E : map (fun k => nth (k mod length gs) gs []) (seq 0 (length gs)) = gs).
  { apply nth_ext with (d := []) (d' := []); [now rewrite map_length, seq_length|].
    intros i Hi. rewrite map_length, seq_length in Hi.
    rewrite nth_indep with (d' := nth (0 mod length gs) gs [])
      by (rewrite map_length, seq_length; lia).
    rewrite (map_nth (fun k => nth (k mod length gs) gs [])), seq_nth by lia.
    cbn [Nat.add]. now rewrite Nat.mod_small. }
  rewrite E.
  assert (Hv : valid m = true).
  { destruct (valid m) eqn:E'; [reflexivity|].
    destruct (proj2 (mff_all m) E') as [H'|H']; rewrite H' in Hm; discriminate. }
  destruct (proj1 (mff_all m) Hv) as (gs' & H' & _ & P & _). rewrite H' in Hm.
  injection Hm as ->. exact P.
Qed.

(** Phone loop over two groups of units and silence: one group. *)
Example C32_example_phone_loop :
  mff (MMerge (MPass (MJoint [MMerge (MParams [1]) (MParams [2]); MParams [3]])) (MParams [4]))
  = Ok [[1; 2; 3; 4]].
Proof. reflexivity. Qed.

(** More groups on one side or on the other. *)
Example C32_example_padding :
  mff (MMerge (MConcat [MParams [1]; MParams [2; 3]; MParams [4]]) (MParams [5]))
    = Ok [[1; 5]; [2; 3]; [4]] /\
  mff (MMerge (MParams [5]) (MConcat [MParams [1]; MParams [2; 3]; MParams [4]]))
    = Ok [[5; 1]; [2; 3]; [4]] /\
  mff (MJoint [MParams [1]; MConcat [MParams [1]; MParams [2]]]) = Err ValueError /\
  mff (MJoint [MParams [1]; MHidden [2]]) = Err IndexError.
Proof. repeat split. Qed.

(** ** C83 *)

(** Without groups: the parameters of the model that pass the tests, each as
    often as it is registered. *)
Theorem C83_flat_parameters : forall typ filt m out,
  bayesian_parameters typ filt m = Ok out ->
  Permutation out (filter (fun p => typ p && filt p) (params m)).
Proof.
  intros typ filt m out H. unfold bayesian_parameters in H.
  destruct (valid m) eqn:Hv.
  - destruct (proj1 (mff_all m) Hv) as (gs & Hg & _ & P & _). rewrite Hg in H.
    cbn [bindr] in H. injection H as <-. rewrite fold_app_concat. cbn [app].
    rewrite (map_ext _ _ (yield_filter typ filt)).
    rewrite concat_filter. now apply Permutation_filter.
  - destruct (proj2 (mff_all m) Hv) as [Hg|Hg]; rewrite Hg in H; discriminate.
Qed.

(** With groups: no empty group, same order as without groups, and two
    parameters are together exactly when they are in the factorisation. *)
Theorem C83_groups : forall typ filt m gs out,
  mff m = Ok gs -> bayesian_groups typ filt m = Ok out ->
  bayesian_parameters typ filt m = Ok (concat out) /\
  Forall (fun g => g <> []) out /\
  (forall p q, typ p && filt p = true -> typ q && filt q = true ->
     ((exists g, In g out /\ In p g /\ In q g) <-> (exists g, In g gs /\ In p g /\ In q g))) /\
  (forall g p, In g out -> In p g -> typ p = true /\ filt p = true).
Proof.
  intros typ filt m gs out Hm H. unfold bayesian_groups in H. unfold bayesian_parameters.
  rewrite Hm in *. cbn [bindr] in *. injection H as <-. rewrite fold_groups, fold_app_concat. cbn [app].
  split; [|split; [|split]].
  - now rewrite concat_nonempty, (map_ext _ _ (yield_filter typ filt)).
  - apply Forall_forall. intros g Hg. apply filter_In in Hg as [_ Hg].
    intros ->. discriminate.
  - intros p q Hp Hq. split.
    + intros (g & Hg & H1 & H2). apply filter_In in Hg as [Hg _].
      apply in_map_iff in Hg as (g' & <- & Hg). apply filter_In in H1, H2. exists g'. tauto.
    + intros (g & Hg & H1 & H2). exists (filter (fun p => typ p && filt p) g).
      assert (I1 : In p (filter (fun p => typ p && filt p) g)) by now apply filter_In.
      assert (I2 : In q (filter (fun p => typ p && filt p) g)) by now apply filter_In.
      split; [|now split]. apply filter_In. split; [now apply in_map|].
      destruct (filter (fun p => typ p && filt p) g); [destruct I1|reflexivity].
  - intros g p Hg Hp. apply filter_In in Hg as [Hg _]. apply in_map_iff in Hg as (g' & <- & _).
    apply filter_In in Hp as [_ Hp]. now apply andb_prop in Hp.
Qed.

Example C83_example :
  bayesian_groups (fun _ => true) Nat.even
    (MMerge (MConcat [MParams [1]; MParams [2; 3]; MParams [4; 6]]) (MParams [5])) =
    Ok [[2]; [4; 6]].
Proof. reflexivity. Qed.

(** ** C84 *)

(** The claim "every parameter of the model is replaced" fails for joint model
    sets: the recursion does not enter the torch container of the sub-sets. *)
Theorem C84_refuted : exists rm n,
  rm 1 = Some 2 /\ In 1 (node_params (replace_params rm n)).
Proof.
  exists (fun u => if u =? 1 then Some 2 else None).
  exists (NMod true [(0, NMod false [(0, NMod true [(0, NParam 1)])])]).
  split; [reflexivity|]. now left.
Qed.

(** ... and for a parameter registered under two names of one module. *)
Theorem C84_two_names_refuted : exists rm n,
  rm 1 = Some 2 /\ (forall b cs, reach n (NMod b cs) -> b = true) /\
  In 1 (node_params (replace_params rm n)).
Proof.
  exists (fun u => if u =? 1 then Some 2 else None).
  exists (NMod true [(0, NParam 1); (1, NParam 1)]).
  split; [reflexivity|]. split; [|right; now left].
  intros b cs H. inversion H; subst; [reflexivity|].
  destruct H2 as [H2|[H2|[]]]; discriminate.
Qed.

(** What is true: without containers and double names all the parameters are
    replaced, in place. *)
Theorem C84_replaces_all_partial : forall rm b cs,
  plain (NMod b cs) ->
  node_params (replace_params rm (NMod b cs)) = map (renamed rm) (node_params (NMod b cs)).
Proof. intros rm b cs H. apply replace_plain; [exact H|]. now exists b, cs. Qed.

(** In every model only the parameters change. *)
Theorem C84_structure_kept : forall rm n, shape (replace_params rm n) = shape n.
Proof. exact replace_shape. Qed.

Example C84_example :
  replace_params (fun u => if u =? 3 then Some 9 else None)
    (NMod true [(0, NMod true [(0, NParam 3)]); (1, NParam 3); (2, NParam 4)]) =
  NMod true [(0, NMod true [(0, NParam 9)]); (1, NParam 9); (2, NParam 4)] /\
  plain (NMod true [(0, NMod true [(0, NParam 3)]); (1, NParam 3); (2, NParam 4)]).
Proof.
  split; [reflexivity|]. cbn. repeat split; repeat constructor; simpl; intuition discriminate.
Qed.

Print Assumptions C32_no_parameter_lost.
Print Assumptions C32_exactly_once.
Print Assumptions C32_merge_any_lengths.
Print Assumptions C32_joint_rejects_others.
Print Assumptions C32_only_raises_on_invalid_joint.
Print Assumptions C32_one_training_cycle.
Print Assumptions C83_flat_parameters.
Print Assumptions C83_groups.
Print Assumptions C84_refuted.
Print Assumptions C84_replaces_all_partial.
Print Assumptions C84_structure_kept.
