(** C171: what the training of a phone-loop does to its evidence bound, whatever
    the model of the weights. *)
From Coq Require Import Reals String List Arith Bool Lia Lra Permutation.
From Verif Require Import Prelude Vec Gibbs Lgamma FB_Model FB_Spec FB_Proofs Edit_Model Dec_Model Dec_Proofs Set_Model Set_Spec Set_Proofs
  HMM_Model HMM_Spec HMM_Proofs HMM_Props Dist_Model Dist_Spec Dist_Proofs NG_Proofs KL_Proofs Dist_Props Mat NW_Model NW_Spec NW_Proofs NW_KL NW_Props
  SB_Model SB_Spec SB_Proofs SB_Props Sk_Model Sk_Spec Sk_Proofs Sk_Props Df_Model Pl_Model Pl_Props
  Vt_Model Vt_Spec Vt_Proofs Vt_Props Vl_Model Vl_Spec Vl_Proofs Vl_Props Mx_Model Mx_Spec Mx_Proofs Mx_Props Pw_Model Pw_Spec Pw_Proofs.
Import ListNotations.
Local Open Scope R_scope.

(** ** One step *)
Theorem C171_step : forall sort amax k D scale w lrate uw group l skel utts s,
  (forall counts, sorts_desc counts (sort counts)) -> 0 <= scale -> 0 <= w -> NoDup (params skel) -> loop_ok l ->
  pw_good k D l skel s -> Forall (pw_utt_ok k D l skel s) utts -> rate_ok (pw_weights s) lrate uw ->
  exists s', pw_step sort amax scale w lrate uw group l skel utts s = Some s' /\
    pw_good k D l skel s' /\ Forall (pw_utt_ok k D l skel s') utts /\
    pw_bound scale w l skel utts s <= pw_bound scale w l skel utts s' +
      w * sumf (fun x => sumf (fun j => pw_first_count scale l skel s x j *
        (elog_weight (pw_weights s') j - elog_weight (pw_weights s) j)) (seq 0 (length (pl_starts l)))) utts.
Proof.
  intros sort amax k D scale w lrate uw group l skel utts s Hsort Hs Hw Hnd Hlo HG HU Hr.
  exists (pw_next sort amax scale l skel w lrate uw group utts s).
  split; [now apply (pw_step_eq sort amax k D)|].
  split; [now apply pw_next_good|].
  split; [eapply Forall_impl; [|exact HU]; intros x Hx; now apply pw_next_utt|].
  now apply (pw_next_bound sort amax k D).
Qed.

(** What a step does to the weights: they are updated with the expected number of
    occurrences of each phone in the utterances without alignment. *)
Theorem C171_weights_update : forall sort amax k D scale w lrate uw group l skel utts s s',
  0 <= scale -> 0 <= w -> 0 <= lrate <= 1 -> NoDup (params skel) -> loop_ok l ->
  pw_good k D l skel s -> Forall (pw_utt_ok k D l skel s) utts ->
  pw_step sort amax scale w lrate uw group l skel utts s = Some s' ->
  (uw = false -> pw_weights s' = pw_weights s /\ pw_trans s' = pw_trans s) /\
  (uw = true -> exists counts, length counts = length (pl_starts l) /\
     (forall j, (j < length (pl_starts l))%nat ->
        nth j counts 0 = w * sumf (fun x => pw_count scale l skel s x j) utts) /\
     match pw_weights s with
     | WDir p q => exists q', pw_weights s' = WDir p q' /\ length q' = length (pl_starts l) /\
         forall j, (j < length (pl_starts l))%nat ->
           nth j q' 0 = (1 - lrate) * nth j q 0 + lrate * (nth j p 0 + nth j counts 0)
     | WStick p _ q => pw_weights s' = WStick p (fst (sb_update sort lrate p q counts)) (snd (sb_update sort lrate p q counts))
     | WHyper g h => pw_weights s' = WHyper g (hyper_update sort lrate g h counts)
     end) /\
  (forall p, ~ In p group -> pw_pars s' p = pw_pars s p).
Proof.
  intros sort amax k D scale w lrate uw group l skel utts s s' Hs Hw Hl Hnd Hlo HG HU E.
  rewrite (pw_step_eq sort amax k D scale l skel Hnd Hlo w lrate uw group utts s HG HU) in E. injection E as <-.
  cbn [pw_next pw_weights pw_trans pw_pars]. unfold pw_nw. split; [|split].
  - intros ->. split; reflexivity.
  - intros ->. set (K := length (pl_starts l)). assert (Kp := pw_K_pos l Hlo). fold K in Kp.
    set (rows := map (pw_counts scale l skel s) utts).
    assert (Hrows : Forall (fun r => length r = K /\ Forall (fun v => 0 <= v) r) rows).
    { unfold rows. apply Forall_map. eapply Forall_impl; [|exact HU]. intros x Hx.
      split; [apply pw_counts_length|]. unfold pw_counts. apply Forall_map, Forall_forall. intros j _. now apply (pw_count_nonneg k D). }
    destruct (stick_counts K w rows Hw Hrows) as (Lc & _ & Ec). cbv zeta in Lc, Ec.
    set (counts := vscale w (colsum K rows)) in *. exists counts. split; [exact Lc|].
    split.
    { intros j Hj. rewrite Ec by exact Hj. unfold mx_counts, rows. rewrite sumf_map. f_equal. apply sumf_ext. intros x _.
      now apply pw_counts_nth. }
    destruct HG as (_ & W & _). fold K in W. destruct (pw_weights s) as [p q|p o q|g h]; cbn [mx_weights_stats mx_weights_update].
    + destruct W as [Hp Hq]. destruct (dir_weights_step K w lrate rows Kp Hw Hrows p q Hp Hq Hl) as (A & _ & B). cbv zeta in A, B.
      eexists. split; [reflexivity|]. split; [apply A|]. intros j Hj. rewrite B, Ec by exact Hj. reflexivity.
    + fold counts. now destruct (sb_update sort lrate p q counts).
    + reflexivity.
  - intros p Hp. unfold pw_npars, apply_step. destruct (existsb (Nat.eqb p) group) eqn:Eg; [|reflexivity].
    exfalso. apply Hp. apply existsb_exists in Eg. destruct Eg as (y & Hy & Ey). apply Nat.eqb_eq in Ey. now subst.
Qed.

Lemma pw_kind sort amax scale w lrate uw group l skel utts s s' :
  pw_step sort amax scale w lrate uw group l skel utts s = Some s' ->
  match pw_weights s, pw_weights s' with
  | WDir p _, WDir p' _ => p = p'
  | WStick p _ _, WStick p' _ _ => p = p'
  | WHyper g _, WHyper g' _ => g = g'
  | _, _ => False
  end.
Proof.
  unfold pw_step. intros E. destruct (all_some _); [|discriminate]. injection E as <-.
  cbn [pw_weights]. destruct uw; [|destruct (pw_weights s); auto].
  destruct (pw_weights s) as [p q|p o q|g h]; cbn [mx_weights_update]; auto.
  destruct (sb_update _ _ _ _ _). reflexivity.
Qed.

Lemma keep_pw_training sort amax k D scale w l skel utts (B : pwst -> R) (ok : R * bool * list nat -> Prop) :
  (forall lrate uw group s, ok (lrate, uw, group) -> rate_ok (pw_weights s) lrate uw ->
     pw_good k D l skel s -> Forall (pw_utt_ok k D l skel s) utts ->
     exists s', pw_step sort amax scale w lrate uw group l skel utts s = Some s' /\
       pw_good k D l skel s' /\ Forall (pw_utt_ok k D l skel s') utts /\ B s <= B s') ->
  forall steps s, Forall ok steps ->
  Forall (fun x : R * bool * list nat => rate_ok (pw_weights s) (fst (fst x)) (snd (fst x))) steps ->
  pw_good k D l skel s -> Forall (pw_utt_ok k D l skel s) utts ->
  exists s', pw_train sort amax scale w steps l skel utts s = Some s' /\
    pw_good k D l skel s' /\ Forall (pw_utt_ok k D l skel s') utts /\ B s <= B s'.
Proof.
  intros H steps s F. revert s. induction F as [|[[lrate uw] group] steps Ho F IH]; intros s Hr G U.
  - exists s. split; [reflexivity|]. split; [exact G|]. split; [exact U|lra].
  - inversion Hr as [|? ? R1 R2]; subst. cbn [fst snd] in R1.
    destruct (H lrate uw group s Ho R1 G U) as (s1 & E1 & G1 & U1 & B1).
    destruct (IH s1) as (s2 & E2 & G2 & U2 & B2); auto.
    + eapply Forall_impl; [|exact R2]. intros x. apply rate_kind. exact (pw_kind _ _ _ _ _ _ _ _ _ _ _ _ E1).
    + exists s2. cbn [pw_train]. rewrite E1. split; [exact E2|]. split; [exact G2|]. split; [exact U2|lra].
Qed.

(** ** When the first phones do not count *)
Theorem C171_unchanged_first_training : forall sort amax k D scale w steps l skel utts s,
  (forall counts, sorts_desc counts (sort counts)) -> 0 <= scale -> 0 <= w -> NoDup (params skel) -> loop_ok l ->
  pw_good k D l skel s -> Forall (pw_utt_ok k D l skel s) utts ->
  Forall (fun x : R * bool * list nat => rate_ok (pw_weights s) (fst (fst x)) (snd (fst x))) steps ->
  Forall (fun x : R * bool * list nat => snd (fst x) = false) steps \/ Forall (fun x => lu_ali x <> None) utts ->
  exists s', pw_train sort amax scale w steps l skel utts s = Some s' /\
    pw_good k D l skel s' /\ Forall (pw_utt_ok k D l skel s') utts /\
    pw_bound scale w l skel utts s <= pw_bound scale w l skel utts s'.
Proof.
  intros sort amax k D scale w steps l skel utts s Hsort Hs Hw Hnd Hlo HG HU Hr Hor.
  apply (keep_pw_training sort amax k D scale w l skel utts (pw_bound scale w l skel utts)
    (fun x => snd (fst x) = false \/ Forall (fun x => lu_ali x <> None) utts)); auto.
  - intros lrate uw group s0 H1 R0 G U. cbn [fst snd] in H1.
    destruct (C171_step sort amax k D scale w lrate uw group l skel utts s0) as (s' & E & G' & F & B); auto.
    exists s'. split; [exact E|]. split; [exact G'|]. split; [exact F|].
    rewrite (sumf_zero _ utts) in B; [lra|]. intros x Hx. apply sumf_zero. intros j _. destruct H1 as [Hn|Ha].
    + assert (Ew : pw_weights s' = pw_weights s0).
      { destruct (C171_weights_update sort amax k D scale w lrate uw group l skel utts s0 s') as (A & _); auto; [apply R0|]. now apply A. }
      rewrite Ew. ring.
    + rewrite Forall_forall in Ha. specialize (Ha x Hx). unfold pw_first_count, pw_expect. destruct (lu_ali x); [ring|congruence].
  - destruct Hor as [Ha|Ha].
    + eapply Forall_impl; [|exact Ha]. intros a H. now left.
    + apply Forall_forall. intros a _. now right.
Qed.

(** ** One phone at the beginning *)
Lemma tail_prob_pw_first l c g ls : forall i p, tail_prob (pw_first l c g) i ls p = tail_prob g i ls p.
Proof. induction ls as [|r ls IH]; intros i [|j p]; cbn [tail_prob]; try reflexivity. rewrite IH. reflexivity. Qed.

Definition pw_first_logw (l : ploop) (c : wpar) (i0 : nat) : R :=
  match position i0 (pl_starts l) with Some j => elog_weight c j | None => 0 end.

Lemma pw_first_evidence l c g i0 ls : one_initial g i0 ->
  evidence (pw_first l c g) ls = exp (pw_first_logw l c i0) * evidence g ls.
Proof.
  intros H. unfold evidence. rewrite <- sumf_scal_l. change (cg_n (pw_first l c g)) with (cg_n g).
  apply sumf_ext. intros p _. unfold path_prob. destruct ls as [|r ls], p as [|j p]; try ring.
  rewrite tail_prob_pw_first. cbn [pw_first cg_init]. destruct (Nat.eq_dec j i0) as [->|N].
  - unfold pw_first_logw. destruct (position i0 (pl_starts l)) as [a|]; [rewrite ex_ladd; cbn [ex]; ring|rewrite exp_0; ring].
  - rewrite (H j N). destruct (position j (pl_starts l)); cbn [ladd ex]; ring.
Qed.

Lemma pw_drawn_split k D scale w l skel utts s i0 : one_initial (pl_graph l) i0 ->
  pw_good k D l skel s -> Forall (pw_utt_ok k D l skel s) utts ->
  pw_drawn scale w l skel utts s = pw_bound scale w l skel utts s +
    w * sumf (fun x => match lu_ali x with Some _ => 0 | None => pw_first_logw l (pw_weights s) i0 end) utts.
Proof.
  intros H1 HG HU. unfold pw_drawn, pw_bound. cbv zeta.
  assert (E : sumf (fun x => loglik scale skel (pw_pars s) (if u_own (lu_utt l (pw_trans s) x) then pw_first l (pw_weights s) (u_graph (lu_utt l (pw_trans s) x)) else u_graph (lu_utt l (pw_trans s) x)) (lu_utt l (pw_trans s) x)) utts =
    sumf (fun x => loglik scale skel (pw_pars s) (u_graph (lu_utt l (pw_trans s) x)) (lu_utt l (pw_trans s) x)) utts +
    sumf (fun x => match lu_ali x with Some _ => 0 | None => pw_first_logw l (pw_weights s) i0 end) utts).
  { rewrite <- sumf_plus. apply sumf_ext. intros x Hx. rewrite Forall_forall in HU.
    assert (P := pw_evidence k D scale l skel s x HG (HU x Hx)).
    set (u := lu_utt l (pw_trans s) x) in *. unfold loglik.
    destruct (lu_ali x) as [[g o]|] eqn:Ea.
    - replace (u_own u) with false by (unfold u, lu_utt; now rewrite Ea). ring.
    - replace (u_own u) with true by (unfold u, lu_utt; now rewrite Ea).
      assert (Eg : u_graph u = with_trans (pl_graph l) (pw_trans s)) by (unfold u, lu_utt; now rewrite Ea).
      rewrite (pw_first_evidence l (pw_weights s) (u_graph u) i0) by (rewrite Eg; exact H1).
      rewrite ln_mult, ln_exp; [ring|apply exp_pos|exact P]. }
  rewrite E. ring.
Qed.

Theorem C171_one_first_phone_training : forall sort amax k D scale w steps l skel utts s i0,
  (forall counts, sorts_desc counts (sort counts)) -> 0 <= scale -> 0 <= w -> NoDup (params skel) -> loop_ok l ->
  one_initial (pl_graph l) i0 ->
  pw_good k D l skel s -> Forall (pw_utt_ok k D l skel s) utts ->
  Forall (fun x : R * bool * list nat => rate_ok (pw_weights s) (fst (fst x)) (snd (fst x))) steps ->
  exists s', pw_train sort amax scale w steps l skel utts s = Some s' /\
    pw_good k D l skel s' /\ Forall (pw_utt_ok k D l skel s') utts /\
    pw_drawn scale w l skel utts s <= pw_drawn scale w l skel utts s'.
Proof.
  intros sort amax k D scale w steps l skel utts s0 i0 Hsort Hs Hw Hnd Hlo H1 HG0 HU0 Hr0.
  apply (keep_pw_training sort amax k D scale w l skel utts (pw_drawn scale w l skel utts) (fun _ => True)); auto.
  2:{ apply Forall_forall. auto. }
  intros lrate uw group s _ Hr HG HU.
  destruct (C171_step sort amax k D scale w lrate uw group l skel utts s) as (s' & E & G & F & B); auto.
  exists s'. split; [exact E|]. split; [exact G|]. split; [exact F|].
  rewrite (pw_drawn_split k D scale w l skel utts s i0), (pw_drawn_split k D scale w l skel utts s' i0) by auto.
  assert (Ef : sumf (fun x => sumf (fun j => pw_first_count scale l skel s x j *
        (elog_weight (pw_weights s') j - elog_weight (pw_weights s) j)) (seq 0 (length (pl_starts l)))) utts =
    sumf (fun x => match lu_ali x with Some _ => 0 | None => pw_first_logw l (pw_weights s') i0 end) utts -
    sumf (fun x => match lu_ali x with Some _ => 0 | None => pw_first_logw l (pw_weights s) i0 end) utts).
  { rewrite <- sumf_minus. apply sumf_ext. intros x Hx. rewrite Forall_forall in HU.
    assert (P := pw_evidence k D scale l skel s x HG (HU x Hx)). unfold pw_first_count, pw_expect.
    destruct (lu_ali x) as [[g o]|] eqn:Ea; [rewrite sumf_zero by (intros; ring); ring|]. cbv zeta.
    set (u := lu_utt l (pw_trans s) x) in *.
    assert (Eg : u_graph u = with_trans (pl_graph l) (pw_trans s)) by (unfold u, lu_utt; now rewrite Ea).
    rewrite (sumf_ext _ (fun j => if Nat.eqb i0 (nth j (pl_starts l) 0%nat) then elog_weight (pw_weights s') j - elog_weight (pw_weights s) j else 0)).
    2:{ intros j _. rewrite (expect_first _ i0); [destruct (Nat.eqb _ _); ring|rewrite Eg; exact H1|exact P]. }
    unfold pw_first_logw. destruct (position i0 (pl_starts l)) as [j0|] eqn:Ep.
    - destruct (position_some _ _ _ Ep) as [Hj <-]. rewrite (sumf_seq_single _ _ j0); auto.
      + now rewrite Nat.eqb_refl.
      + intros j Hj' N. destruct (Nat.eqb_spec (nth j0 (pl_starts l) 0%nat) (nth j (pl_starts l) 0%nat)) as [E0|]; [|reflexivity].
        exfalso. apply N. symmetry. apply (proj1 (NoDup_nth (pl_starts l) 0%nat) (proj1 Hlo)); auto.
    - rewrite sumf_zero; [ring|]. intros j Hj. apply in_seq in Hj.
      destruct (Nat.eqb_spec i0 (nth j (pl_starts l) 0%nat)) as [E0|]; [|reflexivity].
      exfalso. apply (position_none _ _ Ep). rewrite E0. apply nth_In. lia. }
  rewrite Ef in B. lra.
Qed.

(** ** New loops *)
Theorem C171_creation : forall k D l skel st c, loop_ok l -> typed k D st skel ->
  mxw_ok (length (pl_starts l)) c ->
  (forall e, In e (pl_ends l) -> ex (cg_trans (pl_graph l) e e) <= 1) ->
  pw_good k D l skel (pw_init l c st).
Proof.
  intros k D l skel st c Hlo T W He. split; [exact T|]. split; [exact W|]. now apply tune_tuned.
Qed.

Lemma dir_default_ok n c : (0 < n)%nat -> 0 < c -> dir_ok n (categorical_default (uniform_weights n) c).
Proof.
  intros Hn Hc. assert (HN := lt_0_INR n Hn). unfold categorical_default, uniform_weights.
  split; [now rewrite !map_length, repeat_length|]. split; [exact Hn|].
  apply Forall_map, Forall_map, Forall_forall. intros x Hx. apply repeat_spec in Hx. subst x.
  apply Rmult_lt_0_compat; [|exact Hc]. apply Rdiv_lt_0_compat; lra.
Qed.

(** The loops of `beer hmm mkphoneloop` with a unigram model of the weights, which
    is the default *)
Theorem C171_mkphoneloop : forall eps prior conc k D l skel st lo, loop_ok l -> typed k D st skel ->
  (forall e, In e (pl_ends l) -> ex (cg_trans (pl_graph l) e e) <= 1) ->
  0 < concentration_of (length (pl_starts l)) conc ->
  mkphoneloop eps prior conc (pl_starts l) (pl_ends l) (cg_trans (pl_graph l)) = Ok lo ->
  lo_bigram lo = false ->
  exists c, wpar_of (lo_weights lo) = Some c /\ lo_trans lo = pw_trans (pw_init l c st) /\
    pw_good k D l skel (pw_init l c st) /\
    (prior = None -> exists g h, c = WHyper g h).
Proof.
  intros eps prior conc k D l skel st lo Hlo T He Hc E Hb.
  set (n := length (pl_starts l)) in *.
  assert (Hn : (0 < n)%nat) by exact (pw_K_pos l Hlo).
  set (c0 := concentration_of n conc) in *.
  assert (Ps : positive_sticks (sb_default n c0)).
  { unfold sb_default. apply Forall_forall. intros x Hx. apply repeat_spec in Hx. subst x. cbn [fst snd]. split; lra. }
  assert (Ls : length (sb_default n c0) = n) by apply repeat_length.
  assert (W1 : mxw_ok n (WDir (categorical_default (uniform_weights n) c0) (categorical_default (uniform_weights n) c0))).
  { split; now apply dir_default_ok. }
  assert (W2 : mxw_ok n (WStick (sb_default n c0) (seq 0 n) (sb_default n c0))).
  { split; [apply seq_order|]. split; [exact Ls|]. split; [exact Ps|]. exists (1, c0). cbn [fst snd]. split; [lra|]. split; [exact Hc|reflexivity]. }
  set (g := default_rate [1 * c0] 1).
  assert (Hg : gamma_ok 1 g /\ nth 0 (gamma_mean g) 0 = c0 /\ nth 0 (g_shape g) 0 / nth 0 (g_rate g) 0 = c0).
  { unfold g, default_rate, gamma_mean. cbn. split; [|split; field; lra].
    split; [reflexivity|]. split; [reflexivity|]. split.
    - constructor; [|constructor]. try (apply Rmult_lt_0_compat); lra.
    - constructor; [|constructor]. try (apply Rdiv_lt_0_compat); lra. }
  destruct Hg as (Hg & Eg & Eg2).
  assert (Ep : on_concentration_update g (sb_default n c0) = sb_default n c0).
  { unfold on_concentration_update, sb_default. rewrite Eg. assert (G : forall m, map (fun ab : R * R => (fst ab, c0)) (repeat (1, c0) m) = repeat (1, c0) m); [|apply G].
    induction m as [|m IH]; [reflexivity|]. cbn [repeat map fst]. now rewrite IH. }
  assert (W3 : mxw_ok n (WHyper g {| h_ord := seq 0 n; h_sticks := sb_default n c0;
      h_prior := on_concentration_update g (sb_default n c0); h_gamma := g |})).
  { cbn [mxw_ok h_ord h_sticks h_prior h_gamma]. split; [apply seq_order|]. split; [exact Ls|]. split; [exact Ps|].
    split; [exact Hg|]. split; [exact Hg|]. rewrite Ep, Eg2. reflexivity. }
  unfold mkphoneloop in E. fold n c0 in E.
  assert (Done : forall name, existsb (String.eqb name) bigram_prior = false ->
    bindr (build eps name n c0) (fun w => mkloop false (pl_starts l) (pl_ends l) (cg_trans (pl_graph l)) w) = Ok lo ->
    exists c, wpar_of (lo_weights lo) = Some c /\ lo_trans lo = pw_trans (pw_init l c st) /\
      pw_good k D l skel (pw_init l c st) /\ (name = "gamma_dirichlet_process"%string -> exists g h, c = WHyper g h)).
  { intros name Hbi En. unfold build in En.
    destruct (String.eqb_spec name "dirichlet") as [->|N1].
    { cbn in En. injection En as <-. eexists. split; [reflexivity|]. split; [reflexivity|].
      split; [now apply C171_creation|discriminate]. }
    destruct (String.eqb_spec name "dirichlet2") as [->|N2]; [discriminate|].
    destruct (String.eqb_spec name "dirichlet_process") as [->|N3].
    { cbn in En. injection En as <-. eexists. split; [reflexivity|]. split; [reflexivity|].
      split; [now apply C171_creation|discriminate]. }
    destruct (String.eqb_spec name "gamma_dirichlet_process") as [->|N4].
    { cbn in En. injection En as <-. eexists. split; [reflexivity|]. split; [reflexivity|].
      split; [now apply C171_creation|intros _; do 2 eexists; reflexivity]. }
    destruct (String.eqb_spec name "hierarchical_dirichlet_process") as [->|N5]; discriminate. }
  destruct (parse_choice prior_names "gamma_dirichlet_process" prior) as [name|] eqn:En; [|discriminate]. cbn [bindr] in E.
  destruct (existsb (String.eqb name) bigram_prior) eqn:Ebi.
  { exfalso. destruct (build eps name n c0) as [wts|]; [|discriminate]. cbn [bindr] in E. unfold mkloop in E.
    destruct (bigram_logm _ wts); [injection E as <-|]; discriminate. }
  destruct (Done name Ebi E) as (c & A & B & C & Hd). exists c. split; [exact A|]. split; [exact B|]. split; [exact C|].
  intros ->. apply Hd. cbn in En. now injection En.
Qed.

(** ** The weights also count the first phones, the graph does not use them *)

(** The loop of C164, with sticks *)
Definition px_sticks : wpar := WStick [(1, 1); (1, 1)] [0; 1]%nat [(1, 1); (1, 1)].
Definition px_s : pwst := pw_init rx_loop px_sticks rx_st.

Lemma px_weights : mxw_ok 2 px_sticks.
Proof.
  split; [apply order_01|]. split; [reflexivity|]. split.
  - constructor; [cbn; lra|]. constructor; [cbn; lra|constructor].
  - exists (1, 1). cbn [fst snd]. split; [lra|]. split; [lra|reflexivity].
Qed.

Lemma px_self e : In e (pl_ends rx_loop) -> ex (cg_trans (pl_graph rx_loop) e e) <= 1.
Proof. intros [<-|[<-|[]]]; cbn -[exp ln]; rewrite rx_half; lra. Qed.

Lemma px_good : pw_good KDiag 1 rx_loop rx_skel px_s.
Proof. apply C171_creation; [apply rx_loop_ok|apply rx_typed|apply px_weights|apply px_self]. Qed.

Lemma px_trans i j : ~ (In i [1; 3]%nat /\ In j [0; 2]%nat) -> pw_trans px_s i j = cg_trans (pl_graph rx_loop) i j.
Proof.
  intros H. exact (proj2 (tune_tuned rx_loop px_sticks (cg_trans (pl_graph rx_loop)) rx_loop_ok px_weights px_self) i j H).
Qed.

Lemma px_utt_ok : pw_utt_ok KDiag 1 rx_loop rx_skel px_s rx_utt.
Proof.
  unfold pw_utt_ok, utt_ok, lu_utt, rx_utt. cbn [lu_ali u_stats u_order u_graph lu_stats].
  split; [discriminate|]. split.
  - exists [[0]; [1]]. split; [reflexivity|]. constructor; [split; [reflexivity|exact I]|].
    constructor; [split; [reflexivity|exact I]|constructor].
  - split; [intros o Hin; change (In o [0; 1; 2; 3]%nat) in Hin; change (o < 4)%nat; simpl in Hin; lia|]. split; [reflexivity|].
    exists [0; 1]%nat. split; [simpl; tauto|].
    unfold prior_prob. cbn [length map repeat path_prob tail_prob with_trans cg_init cg_trans cg_final].
    rewrite px_trans by (simpl; lia). cbn -[exp ln]. rewrite rx_half, exp_0. lra.
Qed.

Lemma sort_10 sort : (forall counts, sorts_desc counts (sort counts)) -> sort [1; 0] = [0; 1]%nat.
Proof.
  intros H. destruct (H [1; 0]) as [P S]. unfold is_order in P. cbn [length seq] in *.
  apply Permutation_sym, Permutation_length_2_inv in P. destruct P as [P|P]; [exact P|].
  specialize (S 0%nat 1%nat ltac:(lia) ltac:(lia)). rewrite P in S. cbn [nth] in S. lra.
Qed.

(** The loss that C171_step allows does happen. *)
Theorem C171_bound_may_decrease : exists l skel utts s, loop_ok l /\ NoDup (params skel) /\
  pw_good KDiag 1 l skel s /\ Forall (pw_utt_ok KDiag 1 l skel s) utts /\
  (exists p o q, pw_weights s = WStick p o q) /\
  forall sort amax, (forall counts, sorts_desc counts (sort counts)) ->
  exists s', pw_step sort amax 1 1 1 true [] l skel utts s = Some s' /\
    pw_bound 1 1 l skel utts s' < pw_bound 1 1 l skel utts s.
Proof.
  assert (N : NoDup (params rx_skel)) by (constructor; [intros []|constructor]).
  assert (F : Forall (pw_utt_ok KDiag 1 rx_loop rx_skel px_s) [rx_utt]) by (constructor; [apply px_utt_ok|constructor]).
  exists rx_loop, rx_skel, [rx_utt], px_s. split; [apply rx_loop_ok|]. split; [exact N|].
  split; [apply px_good|]. split; [exact F|]. split; [do 3 eexists; reflexivity|]. intros sort amax Hs.
  assert (R1 : rate_ok (pw_weights px_s) 1 true) by (split; [lra|reflexivity]).
  destruct (C171_step sort amax KDiag 1 1 1 1 true [] rx_loop rx_skel [rx_utt] px_s Hs ltac:(lra) ltac:(lra) N rx_loop_ok px_good F R1)
    as (s' & E & G' & F' & _).
  exists s'. split; [exact E|].
  destruct (C171_weights_update sort amax KDiag 1 1 1 1 true [] rx_loop rx_skel [rx_utt] px_s s' ltac:(lra) ltac:(lra) ltac:(lra) N rx_loop_ok px_good F E)
    as (_ & A & Ap).
  destruct (A eq_refl) as (counts & Lc & Ec & Ew). clear A. cbn [pw_weights px_s pw_init px_sticks] in Ew.
  change (length (pl_starts rx_loop)) with 2%nat in *.
  set (u := lu_utt rx_loop (pw_trans px_s) rx_utt).
  set (fr := frames 1 (utt_ems rx_skel (pw_pars px_s) u) (u_stats u)).
  assert (Hev : 0 < evidence (u_graph u) fr) by exact (pw_evidence KDiag 1 1 rx_loop rx_skel px_s rx_utt px_good px_utt_ok).
  assert (Hone : one_initial (u_graph u) 0).
  { intros i Hi. cbn. destruct (Nat.eqb_spec i 0); [contradiction|reflexivity]. }
  assert (Ex : forall a, expect (u_graph u) fr (phone_starts [1; 3]%nat a) = if Nat.eqb 0 a then 1 else 0).
  { intros a. rewrite <- (expect_first (u_graph u) 0 fr a Hone Hev). unfold expect. apply sumf_ext. intros p Hp.
    destruct (Nat.eq_dec (nth 0 p 0%nat) 0) as [E0|E0].
    - f_equal. unfold phone_starts. rewrite (sumf_zero _ (seq 0 _)); [ring|]. intros t Ht. apply in_seq in Ht.
      destruct (paths_two _ _ Hp) as (b & c & ->). cbn [nth length pred] in *. subst b.
      replace t with 0%nat by lia. reflexivity.
    - rewrite (path_prob_first _ 0%nat) by auto. unfold Rdiv. ring. }
  assert (Q : counts = [1; 0]).
  { destruct counts as [|a [|b [|c counts]]]; try discriminate.
    assert (A := Ec 0%nat ltac:(lia)). assert (B := Ec 1%nat ltac:(lia)).
    rewrite sumf_cons, sumf_nil in A, B. unfold pw_count, pw_expect in A, B. cbn [rx_utt lu_ali] in A, B. cbv zeta in A, B.
    change {| lu_ali := None; lu_stats := map nd_suff_stats [[0]; [1]] |} with rx_utt in A, B. fold u in A, B. fold fr in A, B.
    change (pl_ends rx_loop) with [1; 3]%nat in A, B. rewrite Ex in A, B. cbn in A, B. f_equal; [lra|]. f_equal. lra. }
  assert (Eu : sb_update sort 1 [(1, 1); (1, 1)] [(1, 1); (1, 1)] [1; 0] = ([0; 1]%nat, [(2, 1); (1, 1)])).
  { unfold sb_update. rewrite (sort_10 sort Hs). unfold transform_stats, reverse_ordering, reorder, cumsum. simpl.
    rewrite !stick_update_value. simpl. repeat (f_equal; try lra). }
  rewrite Q, Eu in Ew. cbn [fst snd] in Ew.
  assert (P1 : forall p, pw_pars s' p = pw_pars px_s p) by (intros p; apply Ap; intros []).
  destruct G' as (T' & W' & Tu').
  assert (Eems : utt_ems rx_skel (pw_pars s') (lu_utt rx_loop (pw_trans s') rx_utt) = utt_ems rx_skel (pw_pars px_s) u).
  { unfold utt_ems. change (u_order (lu_utt rx_loop (pw_trans s') rx_utt)) with (u_order u). unfold rx_skel. cbn [inst].
    unfold forms. now rewrite P1. }
  assert (Ho : forall i j, ~ (In i [1; 3]%nat /\ In j [0; 2]%nat) -> pw_trans s' i j = pw_trans px_s i j).
  { rewrite (pw_step_eq sort amax KDiag 1 1 rx_loop rx_skel N rx_loop_ok 1 1 true [] [rx_utt] px_s px_good F) in E. injection E as <-.
    apply (pw_next_tuned sort amax KDiag 1 1 rx_loop rx_skel Hs rx_loop_ok 1 1 true [] [rx_utt] px_s ltac:(lra) R1 px_good F). }
  assert (Eb : loglik 1 rx_skel (pw_pars s') (u_graph (lu_utt rx_loop (pw_trans s') rx_utt)) (lu_utt rx_loop (pw_trans s') rx_utt) =
               loglik 1 rx_skel (pw_pars px_s) (u_graph u) u).
  { unfold loglik. f_equal. rewrite Eems.
    change (u_stats (lu_utt rx_loop (pw_trans s') rx_utt)) with (u_stats u). fold fr.
    unfold evidence. change (cg_n (u_graph (lu_utt rx_loop (pw_trans s') rx_utt))) with (cg_n (u_graph u)). apply sumf_ext.
    intros p Hp. change (length fr) with 2%nat in Hp.
    destruct (paths_two _ _ Hp) as (a & b & ->). destruct (Nat.eq_dec a 0) as [->|Na].
    - unfold fr. cbn [u lu_utt rx_utt lu_ali u_stats lu_stats frames map path_prob tail_prob u_graph with_trans cg_init cg_trans cg_final].
      rewrite Ho; [reflexivity|]. simpl. lia.
    - rewrite !(path_prob_first _ 0%nat); auto. }
  unfold pw_bound. rewrite !sumf_cons, !sumf_nil. cbv zeta. fold u. rewrite Eb.
  assert (Et : total_kl rx_skel (pw_pars s') = total_kl rx_skel (pw_pars px_s)).
  { unfold total_kl. apply sumf_ext. intros p _. now rewrite P1. }
  rewrite Et. rewrite Ew. cbn [pw_weights px_s pw_init px_sticks weights_kl length seq].
  rewrite !sumf_cons, !sumf_nil. cbn [nth]. rewrite !Rminus_diag_eq with (r1 := beta_cross (1, 1) (1, 1)) by reflexivity.
  unfold beta_cross, e_ln_v, e_ln_rest, log_beta. cbn [fst snd].
  replace (2 + 1) with 3 by lra. replace (1 + 1) with 2 by lra.
  rewrite psi_3, psi_2, lgamma_3, lgamma_2, lgamma_1.
  assert (X := exp_ineq1 (- (1 / 2)) ltac:(lra)).
  assert (1 / 2 < ln 2); [|lra]. apply Ropp_lt_cancel. rewrite <- ln_Rinv by lra. rewrite <- (ln_exp (- (1 / 2))). apply ln_increasing; lra.
Qed.

(** The default command, then training *)
Example C171_ex : forall sort amax, (forall counts, sorts_desc counts (sort counts)) ->
  exists lo c, mkphoneloop 0 None None (pl_starts rx_loop) (pl_ends rx_loop) (cg_trans (pl_graph rx_loop)) = Ok lo /\
  wpar_of (lo_weights lo) = Some c /\
  let s := pw_init rx_loop c rx_st in
  exists s', pw_train sort amax 1 1 [(1, true, []); (1, false, [1%nat]); (1, true, [1%nat])] rx_loop rx_skel [rx_utt] s = Some s' /\
    pw_drawn 1 1 rx_loop rx_skel [rx_utt] s <= pw_drawn 1 1 rx_loop rx_skel [rx_utt] s'.
Proof.
  intros sort amax Hs.
  destruct (C131_classes 0 None (pl_starts rx_loop) (pl_ends rx_loop) (cg_trans (pl_graph rx_loop))) as (E0 & _ & E1 & _).
  destruct (E1 "gamma_dirichlet_process"%string) as (lo & El & Hb); [cbn; auto|]. rewrite <- E0 in El.
  destruct (C171_mkphoneloop 0 None None KDiag 1 rx_loop rx_skel rx_st lo rx_loop_ok (proj1 rx_typed) px_self) as (c & Ec & Et & G & Hh); auto.
  { cbn. lra. }
  exists lo, c. split; [exact El|]. split; [exact Ec|]. cbv zeta. set (s := pw_init rx_loop c rx_st).
  destruct (Hh eq_refl) as (g & h & ->).
  assert (W : mxw_ok 2 (WHyper g h)) by apply G.
  assert (U : pw_utt_ok KDiag 1 rx_loop rx_skel s rx_utt).
  { assert (A := px_utt_ok). destruct A as (A1 & A2 & A3 & A4 & _).
    split; [exact A1|]. split; [exact A2|]. split; [exact A3|]. split; [exact A4|].
    exists [0; 1]%nat. split; [simpl; tauto|].
    unfold prior_prob. cbn [rx_utt lu_utt lu_ali lu_stats u_graph u_stats length map repeat path_prob tail_prob with_trans cg_init cg_trans cg_final].
    assert (Ht : pw_trans s 0%nat 1%nat = cg_trans (pl_graph rx_loop) 0%nat 1%nat).
    { apply (tune_tuned rx_loop (WHyper g h) (cg_trans (pl_graph rx_loop)) rx_loop_ok W px_self). simpl. lia. }
    rewrite Ht. cbn -[exp ln]. rewrite rx_half, exp_0. lra. }
  assert (Hr : forall uw, rate_ok (pw_weights s) 1 uw).
  { intros uw. split; [lra|]. intros _. reflexivity. }
  destruct (C171_one_first_phone_training sort amax KDiag 1 1 1 [(1, true, []); (1, false, [1%nat]); (1, true, [1%nat])] rx_loop rx_skel [rx_utt] s 0)
    as (s' & E & _ & _ & B).
  - exact Hs.
  - lra.
  - lra.
  - constructor; [intros []|constructor].
  - exact rx_loop_ok.
  - intros i Hi. cbn. destruct (Nat.eqb_spec i 0); [contradiction|reflexivity].
  - exact G.
  - constructor; [exact U|constructor].
  - constructor; [apply Hr|]. constructor; [apply Hr|]. constructor; [apply Hr|constructor].
  - exists s'. split; [exact E|exact B].
Qed.

Print Assumptions C171_step.
Print Assumptions C171_weights_update.
Print Assumptions C171_unchanged_first_training.
Print Assumptions C171_one_first_phone_training.
Print Assumptions C171_creation.
Print Assumptions C171_mkphoneloop.
Print Assumptions C171_bound_may_decrease.
