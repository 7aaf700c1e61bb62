(** Proofs about the accumulate/update commands. *)
From Coq Require Import Reals List Arith Bool Lia Lra Permutation ZArith.
From Verif Require Import Prelude Vec Edit_Model Edit_Proofs Dec_Model Dec_Proofs Opt_Model Opt_Spec Opt_Proofs.
Import ListNotations.
Local Open Scope R_scope.

(** An utterance known to the data set, with at least one frame. *)
Definition known (data : list (nat * batch)) (u : nat) : Prop :=
  exists b, dget Nat.eq_dec data u = Some b /\ b_llh b <> [].

Definition no_batch : batch := {| b_llh := []; b_acc := [] |}.

Definition utt_batch (data : list (nat * batch)) (u : nat) : batch :=
  match dget Nat.eq_dec data u with Some b => b | None => no_batch end.

(** The instance computed for one utterance. *)
Definition inst (params : list nat) (kl : R) (ds : nat) (b : batch) : elbo :=
  {| e_value := VTensor (INR ds / INR (length (b_llh b)) * rsum (b_llh b) - kl);
     e_acc := b_acc b; e_params := nodup Nat.eq_dec params;
     e_mb := length (b_llh b); e_ds := ds |}.

Definition e_empty (ds : nat) : elbo :=
  {| e_value := VFloat 0; e_acc := []; e_params := []; e_mb := 0; e_ds := ds |}.

Lemma elbo_of_inst params kl ds b : (0 < ds)%nat -> b_llh b <> [] ->
  elbo_of params kl (Z.of_nat ds) b = Ok (inst params kl ds b).
Proof.
  intros Hd Hb. unfold elbo_of, inst.
  destruct (Nat.eqb_spec (length (b_llh b)) 0) as [E|E].
  - destruct (b_llh b); [congruence|discriminate].
  - destruct (Z.leb_spec (Z.of_nat ds) 0); [lia|]. rewrite Nat2Z.id. reflexivity.
Qed.

Lemma inst_content params kl ds b : sum_content [inst params kl ds b] (inst params kl ds b).
Proof.
  split; [reflexivity|split; [|split; [|split]]].
  - intros k. simpl. destruct (dget_acc _ k); reflexivity.
  - intros k. split; [intros; exists (inst params kl ds b); simpl; auto|].
    intros (x & [<-|[]] & Hk). exact Hk.
  - simpl. lia.
  - constructor; auto.
Qed.

Lemma acc_loop enum params kl ds data utts : is_enum enum -> (0 < ds)%nat ->
  forall u es e c, Forall (known data) utts -> sum_content es e -> e_ds e = ds ->
  exists u' e', foldM (acc_utt enum params kl ds data) utts (u, e, c) =
    Ok (u', e', (c + length utts)%nat) /\
    sum_content (es ++ map (fun x => inst params kl ds (utt_batch data x)) utts) e' /\
    e_ds e' = ds.
Proof.
  intros He Hd. induction utts as [|x utts IH]; intros u es e c Hk Hs Hds.
  - exists u, e. cbn [foldM map length]. rewrite app_nil_r, Nat.add_0_r. auto.
  - inversion_clear Hk as [|? ? [b [Hx Hb]] Hk'].
    cbn [foldM]. unfold acc_utt at 1. rewrite Hx, elbo_of_inst by auto. cbn [bindr].
    assert (exists e2, elbo_add enum e (inst params kl ds b) = Ok e2 /\ e_ds e2 = ds) as (e2 & A & B).
    { unfold elbo_add. cbn [inst e_ds]. rewrite Hds, Nat.eqb_refl.
      eexists; split; [reflexivity|reflexivity]. }
    rewrite A. cbn [bindr].
    pose proof (elbo_add_content enum es [inst params kl ds b] e _ e2 He Hs
                  (inst_content params kl ds b) A) as C.
    destruct (IH (Some x) _ e2 (S c) Hk' C B) as (u' & e' & F & G & H).
    exists u', e'. rewrite F. split; [f_equal; f_equal; simpl; lia|]. split; [|assumption].
    cbn [map]. unfold utt_batch at 1. rewrite Hx.
    rewrite <- app_assoc in G. exact G.
Qed.

Lemma accumulate_ok enum params kl ds data utts : is_enum enum -> (0 < ds)%nat ->
  Forall (known data) utts ->
  exists e, accumulate_main enum params kl ds data utts = Ok (e, length utts) /\
    sum_content (e_empty ds :: map (fun x => inst params kl ds (utt_batch data x)) utts) e /\
    e_ds e = ds.
Proof.
  intros He Hd Hk. unfold accumulate_main, empty_elbo.
  destruct (Nat.ltb_spec 0 ds); [|lia]. cbn [bindr]. fold (e_empty ds).
  destruct (acc_loop enum params kl ds data utts He Hd None [e_empty ds] (e_empty ds) 0%nat)
    as (u & e & A & B & C); auto.
  { split; [reflexivity|split; [reflexivity|split; [|split; [reflexivity|]]]].
    - intros k. split; [intros []|]. intros (x & [<-|[]] & Hk'). exact Hk'.
    - constructor; auto. }
  exists e. rewrite A. cbn [bindr fst snd]. auto.
Qed.

(** Empty instances do not matter. *)
Definition nonempty (e : elbo) : bool :=
  match e_value e with VFloat _ => false | VTensor _ => true end.

Definition is_e_empty (e : elbo) : Prop := exists ds, e = e_empty ds.

Lemma strip_osum k es : Forall (fun e => nonempty e = true \/ is_e_empty e) es ->
  osum k (filter nonempty es) = osum k es.
Proof.
  induction 1 as [|e es He H IH]; simpl; [reflexivity|].
  destruct (nonempty e) eqn:E; simpl; [now rewrite IH|].
  destruct He as [He|[ds ->]]; [congruence|]. simpl. exact IH.
Qed.

Lemma vplus_0_l v : vplus (VFloat 0) v = v.
Proof. destruct v; simpl; f_equal; lra. Qed.

Lemma strip_oval es v : Forall (fun e => nonempty e = true \/ is_e_empty e) es ->
  oval es = Some v -> filter nonempty es <> [] -> oval (filter nonempty es) = Some v.
Proof.
  intros H. revert v. induction H as [|e es He H IH]; simpl; intros v Hv Hne; [congruence|].
  destruct (nonempty e) eqn:E; simpl.
  - destruct (filter nonempty es) as [|y l] eqn:F.
    + cbn [oval fold_right]. destruct (oval es) as [w|] eqn:O; [|exact Hv].
      assert (Hw : w = VFloat 0).
      { clear - H F O. revert w O. induction H as [|e es He H IH]; simpl; intros w O; [discriminate|].
        simpl in F. destruct (nonempty e) eqn:E; [discriminate|].
        destruct He as [He|[ds ->]]; [congruence|]. simpl in O.
        destruct (oval es) as [x|]; [|injection O as <-; reflexivity].
        rewrite (IH F x eq_refl) in O. injection O as <-. simpl. f_equal. lra. }
      subst w. injection Hv as <-. f_equal. rewrite vplus_comm. now rewrite vplus_0_l.
    + destruct (oval es) as [w|] eqn:O.
      * specialize (IH w eq_refl ltac:(discriminate)). cbn [oval fold_right] in IH |- *.
        fold (oval l) in IH |- *. rewrite IH. exact Hv.
      * exfalso. destruct es; [discriminate|]. simpl in O. destruct (oval es); discriminate.
  - destruct He as [He|[ds ->]]; [congruence|]. cbn [e_empty e_value] in Hv.
    destruct (oval es) as [w|] eqn:O.
    + rewrite vplus_0_l in Hv. now apply IH.
    + exfalso. destruct es; [now apply Hne|]. simpl in O. destruct (oval es); discriminate.
Qed.

Lemma strip_content es e : Forall (fun e => nonempty e = true \/ is_e_empty e) es ->
  filter nonempty es <> [] -> sum_content es e -> sum_content (filter nonempty es) e.
Proof.
  intros H Hne (A & B & C & D & E). split; [|split; [|split; [|split]]].
  - now apply strip_oval.
  - intros k. now rewrite B, strip_osum.
  - intros k. rewrite C. split; intros (x & Hx & Hk); exists x.
    + split; [|assumption]. apply filter_In. split; [assumption|].
      rewrite Forall_forall in H. destruct (H x Hx) as [Hn|[ds ->]]; [assumption|destruct Hk].
    + apply filter_In in Hx. tauto.
  - rewrite D. clear -H. induction H as [|x es Hx H IH]; simpl; [reflexivity|].
    destruct (nonempty x) eqn:E; simpl; [now rewrite IH|].
    destruct Hx as [Hx|[ds ->]]; [congruence|]. exact IH.
  - rewrite Forall_forall in E |- *. intros x Hx. apply E. apply filter_In in Hx. tauto.
Qed.

(** The loop of update *)
Lemma upd_loop enum ds jobs : is_enum enum ->
  forall (ess : list (list elbo)) e0 es0 n0,
  Forall2 (fun j es => sum_content es (fst j) /\ e_ds (fst j) = ds) jobs ess ->
  sum_content es0 e0 -> e_ds e0 = ds ->
  exists e n, foldM (update_loop enum) jobs (Some (e0, n0)) = Ok (Some (e, n)) /\
    sum_content (es0 ++ concat ess) e /\ e_ds e = ds.
Proof.
  intros He. induction jobs as [|j jobs IH]; intros ess e0 es0 n0 HF H0 Hd.
  - inversion_clear HF. exists e0, n0. simpl. rewrite app_nil_r. auto.
  - inversion HF as [|? es ? ess' [Hj Hjd] HF' E1 E2]; subst ess. cbn [foldM update_loop].
    assert (exists e2, elbo_add enum e0 (fst j) = Ok e2 /\ e_ds e2 = ds) as (e2 & A & B).
    { unfold elbo_add. rewrite Hd, Hjd, Nat.eqb_refl.
      eexists; split; [reflexivity|reflexivity]. }
    rewrite A. cbn [bindr].
    pose proof (elbo_add_content enum es0 es e0 _ e2 He H0 Hj A) as C.
    destruct (IH ess' e2 _ (n0 + snd j)%nat HF' C B) as (e & n & F & G & H1).
    exists e, n. rewrite F. split; [reflexivity|]. split; [|assumption].
    cbn [concat]. now rewrite app_assoc.
Qed.

Definition job_insts (params : list nat) (kl : R) (ds : nat) (data : list (nat * batch))
    (utts : list nat) : list elbo :=
  e_empty ds :: map (fun x => inst params kl ds (utt_batch data x)) utts.

Lemma jobs_ok enum params kl ds data jobs : is_enum enum -> (0 < ds)%nat ->
  Forall (Forall (known data)) jobs ->
  exists accs, mapM (accumulate_main enum params kl ds data) jobs = Ok accs /\
    Forall2 (fun j es => sum_content es (fst j) /\ e_ds (fst j) = ds) accs
            (map (job_insts params kl ds data) jobs).
Proof.
  intros He Hd. induction 1 as [|j jobs Hj H (accs & A & B)]; [exists []; simpl; auto|].
  destruct (accumulate_ok enum params kl ds data j He Hd Hj) as (e & C & D & E).
  exists ((e, length j) :: accs). cbn [mapM]. rewrite C. cbn [bindr]. rewrite A. cbn [bindr].
  split; [reflexivity|]. cbn [map]. constructor; auto.
Qed.

Lemma strip_jobs params kl ds data jobs :
  filter nonempty (concat (map (job_insts params kl ds data) jobs)) =
  map (fun x => inst params kl ds (utt_batch data x)) (concat jobs).
Proof.
  induction jobs as [|j jobs IH]; [reflexivity|].
  cbn [map concat]. rewrite filter_app, map_app, IH. f_equal.
  unfold job_insts. cbn [filter nonempty e_empty e_value].
  induction j as [|x j IHj]; [reflexivity|]. cbn [map filter nonempty inst e_value].
  f_equal. exact IHj.
Qed.

Lemma jobs_wf params kl ds data jobs :
  Forall (fun e => nonempty e = true \/ is_e_empty e)
         (concat (map (job_insts params kl ds data) jobs)).
Proof.
  induction jobs as [|j jobs IH]; [constructor|].
  cbn [map concat]. apply Forall_app. split; [|assumption].
  constructor; [right; exists ds; reflexivity|].
  apply Forall_forall. intros e He. apply in_map_iff in He. destruct He as (x & <- & _).
  now left.
Qed.

(** The objective synchronised with the model by update. *)
Lemma update_elbo enum params kl ds data jobs : is_enum enum -> (0 < ds)%nat ->
  Forall (Forall (known data)) jobs -> concat jobs <> [] ->
  exists accs e n, mapM (accumulate_main enum params kl ds data) jobs = Ok accs /\
    foldM (update_loop enum) accs None = Ok (Some (e, n)) /\
    sum_content (map (fun x => inst params kl ds (utt_batch data x)) (concat jobs)) e /\
    e_ds e = ds.
Proof.
  intros He Hd Hk Hne.
  destruct (jobs_ok enum params kl ds data jobs He Hd Hk) as (accs & A & B).
  exists accs.
  destruct jobs as [|j jobs]; [now elim Hne|].
  cbn [map] in B. destruct accs as [|a accs']; [inversion B|].
  inversion_clear B as [|? ? ? ? [Ha Had] B'].
  destruct a as [ea na]. cbn [fst] in Ha, Had.
  destruct (upd_loop enum ds accs' He _ ea _ na B' Ha Had) as (e & n & C & D & E).
  exists e, n. split; [exact A|]. split; [cbn [foldM update_loop bindr]; exact C|].
  split; [|assumption].
  change (job_insts params kl ds data j ++ concat (map (job_insts params kl ds data) jobs))
    with (concat (map (job_insts params kl ds data) (j :: jobs))) in D.
  rewrite <- strip_jobs. apply strip_content; auto.
  - apply jobs_wf.
  - rewrite strip_jobs. intros Hc. apply map_eq_nil in Hc. contradiction.
Qed.

Lemma sum_mb_pos params kl ds data utts : Forall (known data) utts -> utts <> [] ->
  (0 < list_sum (map e_mb (map (fun x => inst params kl ds (utt_batch data x)) utts)))%nat.
Proof.
  intros H Hne. destruct H as [|x utts [b [Hx Hb]] H]; [congruence|]. simpl.
  unfold utt_batch at 1. rewrite Hx. destruct (b_llh b); [congruence|simpl; lia].
Qed.

Lemma tensor_value params kl ds data utts v :
  oval (map (fun x => inst params kl ds (utt_batch data x)) utts) = Some v ->
  exists r, v = VTensor r.
Proof.
  destruct utts as [|x utts]; simpl; [discriminate|].
  destruct (oval _) as [w|]; intros H; injection H as <-; [destruct w|]; eauto.
Qed.
