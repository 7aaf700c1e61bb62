(** Properties C07-C11: inference on compiled graphs
    (/repo/beer/graph.py:243-344). *)
From Coq Require Import Reals List Lra Lia Arith Bool.
From Verif Require Import Prelude FB_Model FB_Spec FB_Proofs FB_Viterbi.
Import ListNotations.
Local Open Scope R_scope.

(** C07: state posteriors are exact path marginals. *)
Theorem C07_state_posteriors_exact : forall g llhs posts lnm t j d,
  posteriors g llhs = Ok (posts, lnm) ->
  0 < evidence g llhs -> (t < length llhs)%nat -> (j < cg_n g)%nat ->
  length posts = length llhs /\
  nth t posts d j = Num (visit_mass g llhs t j / evidence g llhs).
Proof.
  intros g llhs posts lnm t j d H Hev Ht Hj. split.
  - assert (Hne : llhs <> []) by (intros ->; discriminate).
    destruct (posteriors_ok g llhs Hne) as (p & l & Hp & Hlen). congruence.
  - exact (posteriors_state g llhs posts lnm t j d H Hev Ht Hj).
Qed.

(** C07: each row of posteriors is a probability distribution. *)
Theorem C07_rows_sum_to_one : forall g llhs posts lnm t d,
  posteriors g llhs = Ok (posts, lnm) ->
  0 < evidence g llhs -> (t < length llhs)%nat ->
  exists row, (forall j, (j < cg_n g)%nat -> nth t posts d j = Num (row j) /\ 0 <= row j)
    /\ sumf row (seq 0 (cg_n g)) = 1.
Proof.
  intros g llhs posts lnm t d H Hev Ht.
  exists (fun j => visit_mass g llhs t j / evidence g llhs). split.
  - intros j Hj. split; [exact (posteriors_state g llhs posts lnm t j d H Hev Ht Hj)|].
    assert (Hj' : In j (seq 0 (cg_n g))) by (apply in_seq; lia).
    apply Rmult_le_pos; [|left; now apply Rinv_0_lt_compat].
    rewrite visit_mass_eq, (path_mass_visit g llhs t j (cg_init g) (cg_init g)) by auto.
    apply Rmult_le_pos; apply ex_nonneg.
  - unfold Rdiv. rewrite sumf_scal_r, visit_mass_total by auto. field. lra.
Qed.

(** C07: on impossible observations every posterior is NaN (never a wrong
    number); on zero frames the call raises. *)
Theorem C07_impossible_observation_is_nan : forall g llhs posts lnm t j d,
  posteriors g llhs = Ok (posts, lnm) ->
  evidence g llhs = 0 -> (t < length llhs)%nat -> (j < cg_n g)%nat ->
  nth t posts d j = NaN.
Proof. exact posteriors_impossible. Qed.

Theorem C07_defined_iff_some_frame : forall g llhs,
  (exists r, posteriors g llhs = Ok r) <-> llhs <> [].
Proof.
  intros g llhs. split.
  - intros [r H] ->. discriminate.
  - intros H. destruct (posteriors_ok g llhs H) as (p & l & Hp & _). eauto.
Qed.

(** C08: the returned log-normaliser is the log-evidence (-inf for impossible
    observations). *)
Theorem C08_lognorm_is_log_evidence : forall g llhs posts lnm,
  posteriors g llhs = Ok (posts, lnm) ->
  lnm = if Rlt_dec 0 (evidence g llhs) then Fin (ln (evidence g llhs)) else NInf.
Proof. exact posteriors_lognorm. Qed.

(** C09: transition posteriors are exact pairwise marginals. *)
Theorem C09_transition_posteriors_exact : forall g llhs t d i j,
  0 < evidence g llhs ->
  (S t < length llhs)%nat -> (i < cg_n g)%nat -> (j < cg_n g)%nat ->
  nth t (trans_posteriors g llhs) d i j =
  Num (pair_mass g llhs t i j / evidence g llhs).
Proof. exact trans_posteriors_pair. Qed.

Theorem C09_transition_posteriors_count : forall g llhs,
  length (trans_posteriors g llhs) = pred (length llhs).
Proof. exact trans_posteriors_length. Qed.

(** C09: consistency with the state posteriors. *)
Theorem C09_transition_state_consistency : forall g llhs posts lnm t d d',
  posteriors g llhs = Ok (posts, lnm) -> 0 < evidence g llhs ->
  (S t < length llhs)%nat ->
  exists (tp : nat -> nat -> R) (sp sp' : nat -> R),
    (forall i j, (i < cg_n g)%nat -> (j < cg_n g)%nat ->
       nth t (trans_posteriors g llhs) d' i j = Num (tp i j)) /\
    (forall i, (i < cg_n g)%nat ->
       nth t posts d i = Num (sp i) /\ nth (S t) posts d i = Num (sp' i)) /\
    (forall i, sumf (fun j => tp i j) (seq 0 (cg_n g)) = sp i) /\
    (forall j, sumf (fun i => tp i j) (seq 0 (cg_n g)) = sp' j).
Proof.
  intros g llhs posts lnm t d d' H Hev Ht.
  exists (fun i j => pair_mass g llhs t i j / evidence g llhs),
         (fun i => visit_mass g llhs t i / evidence g llhs),
         (fun i => visit_mass g llhs (S t) i / evidence g llhs).
  split; [|split; [|split]].
  - intros i j Hi Hj. exact (trans_posteriors_pair g llhs t d' i j Hev Ht Hi Hj).
  - intros i Hi. split; apply (posteriors_state g llhs posts lnm); auto; lia.
  - intros i. unfold Rdiv. rewrite sumf_scal_r. f_equal.
    exact (pair_mass_sum_right g llhs t i Ht).
  - intros i. unfold Rdiv. rewrite sumf_scal_r. f_equal.
    exact (pair_mass_sum_left g llhs t i Ht).
Qed.

Theorem C09_impossible_observation_is_zero : forall g llhs t d i j,
  evidence g llhs = 0 ->
  (S t < length llhs)%nat -> (i < cg_n g)%nat -> (j < cg_n g)%nat ->
  nth t (trans_posteriors g llhs) d i j = Num 0.
Proof. exact trans_posteriors_impossible. Qed.

(** C10: best_path is globally optimal, whatever the tie-breaking. *)
Theorem C10_best_path_optimal : forall amax g llhs,
  is_argmax amax -> (0 < cg_n g)%nat -> llhs <> [] ->
  exists best, best_path amax g llhs = Ok best /\
    length best = length llhs /\ Forall (fun s => (s < cg_n g)%nat) best /\
    forall p, length p = length llhs -> Forall (fun s => (s < cg_n g)%nat) p ->
      lp_le (path_score g llhs p) (path_score g llhs best).
Proof.
  intros amax g llhs Ha Hn Hne.
  destruct (best_path_optimal amax Ha g Hn llhs Hne) as (best & H1 & H2 & H3).
  exists best. apply paths_in in H2. destruct H2. split; [exact H1|].
  split; [assumption|split; [assumption|]].
  intros p Hl Hf. apply H3. now apply paths_in.
Qed.

(** C11: per-frame offsets do not change the inference. *)
Theorem C11_offsets_posteriors : forall g llhs cs posts lnm,
  length cs = length llhs -> 0 < evidence g llhs ->
  posteriors g llhs = Ok (posts, lnm) ->
  exists posts',
    posteriors g (shift_rows cs llhs) = Ok (posts', ladd lnm (Fin (rsum cs))) /\
    (forall t j d, (t < length llhs)%nat -> (j < cg_n g)%nat ->
       nth t posts' d j = nth t posts d j) /\
    (forall t i j d, (S t < length llhs)%nat -> (i < cg_n g)%nat -> (j < cg_n g)%nat ->
       nth t (trans_posteriors g (shift_rows cs llhs)) d i j =
       nth t (trans_posteriors g llhs) d i j).
Proof. exact shift_invariance_posteriors. Qed.

Theorem C11_offsets_path_order : forall g llhs cs p q,
  length cs = length llhs -> length p = length llhs -> length q = length llhs ->
  (lp_le (path_score g (shift_rows cs llhs) p) (path_score g (shift_rows cs llhs) q)
   <-> lp_le (path_score g llhs p) (path_score g llhs q)).
Proof. exact shift_invariance_score. Qed.

(** ** A concrete left-to-right model, three frames. *)
Definition ex_graph : cgraph := {|
  cg_n := 2;
  cg_init := fun i => match i with 0%nat => Fin 0 | _ => NInf end;
  cg_final := fun i => match i with 1%nat => Fin 0 | _ => NInf end;
  cg_trans := fun i j => match i, j with
    | 0%nat, 0%nat => Fin (ln (/2)) | 0%nat, 1%nat => Fin (ln (/2))
    | 1%nat, 1%nat => Fin 0 | _, _ => NInf end |}.

Definition ex_llhs : list row := [fun _ => Fin 0; fun _ => Fin 0; fun _ => Fin 0].

Example ex_evidence : evidence ex_graph ex_llhs = 3/4.
Proof.
  unfold evidence, sumf. simpl. rewrite !exp_0, exp_ln by lra. lra.
Qed.

Example ex_C07 : exists posts lnm,
  posteriors ex_graph ex_llhs = Ok (posts, lnm) /\
  nth 1 posts (fun _ => NaN) 0%nat = Num (1/3).
Proof.
  destruct (posteriors_ok ex_graph ex_llhs) as (p & l & H & _); [discriminate|].
  exists p, l. split; [exact H|].
  pose proof ex_evidence as Hev.
  assert (Hp : 0 < evidence ex_graph ex_llhs) by (rewrite Hev; lra).
  assert (Ht : (1 < length ex_llhs)%nat) by (simpl; lia).
  assert (Hj : (0 < cg_n ex_graph)%nat) by (simpl; lia).
  destruct (C07_state_posteriors_exact _ _ _ _ 1 0 (fun _ => NaN) H Hp Ht Hj)
    as [_ ->].
  rewrite Hev. f_equal. unfold visit_mass, sumf. simpl.
  rewrite !exp_0, exp_ln by lra. lra.
Qed.

Example ex_C10 : exists best,
  best_path first_max ex_graph ex_llhs = Ok best /\ path_score ex_graph ex_llhs best = Fin (ln (/2)).
Proof.
  destruct (C10_best_path_optimal first_max ex_graph ex_llhs first_max_is_argmax)
    as (best & H1 & H2 & H3 & H4); [simpl; lia|discriminate|].
  exists best. split; [exact H1|].
  assert (H5 : lp_le (path_score ex_graph ex_llhs [0;1;1]%nat)
                 (path_score ex_graph ex_llhs best)).
  { apply H4; [reflexivity|repeat constructor]. }
  assert (Hl : ln (/2) < 0) by (rewrite <- ln_1; apply ln_increasing; lra).
  destruct best as [|a [|b [|c [|]]]]; try discriminate.
  inversion_clear H3 as [|? ? Ha H3']. inversion_clear H3' as [|? ? Hb H3].
  inversion_clear H3 as [|? ? Hc _]. simpl in Ha, Hb, Hc.
  destruct a as [|[|]]; try lia; destruct b as [|[|]]; try lia;
  destruct c as [|[|]]; try lia; simpl in H5 |- *; try contradiction;
    try (exfalso; lra); f_equal; lra.
Qed.

Print Assumptions C07_state_posteriors_exact.
Print Assumptions C07_rows_sum_to_one.
Print Assumptions C07_impossible_observation_is_nan.
Print Assumptions C08_lognorm_is_log_evidence.
Print Assumptions C09_transition_posteriors_exact.
Print Assumptions C09_transition_state_consistency.
Print Assumptions C10_best_path_optimal.
Print Assumptions C11_offsets_posteriors.
Print Assumptions C11_offsets_path_order.
