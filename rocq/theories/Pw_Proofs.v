(** Proofs about the training of phone-loops with any weights. *)
From Coq Require Import Reals List Arith Bool Lia Lra Permutation.
From Verif Require Import Prelude Vec Gibbs Lgamma FB_Model FB_Spec FB_Proofs Edit_Model Dec_Model Dec_Proofs Set_Model Set_Spec Set_Proofs
  HMM_Model HMM_Spec HMM_Proofs HMM_Props Dist_Model Dist_Spec Dist_Proofs NG_Proofs KL_Proofs Dist_Props Mat NW_Model NW_Spec NW_Proofs NW_KL NW_Props
  SB_Model SB_Spec SB_Proofs SB_Props Sk_Model Sk_Spec Sk_Proofs Sk_Props
  Vt_Model Vt_Spec Vt_Proofs Vt_Props Vl_Model Vl_Spec Vl_Proofs Vl_Props Mx_Model Mx_Spec Mx_Proofs Pw_Model Pw_Spec.
Import ListNotations.
Local Open Scope R_scope.

Lemma tune_tuned l w tr : loop_ok l -> mxw_ok (length (pl_starts l)) w ->
  (forall e, In e (pl_ends l) -> ex (tr e e) <= 1) ->
  pw_tuned l w (pw_tune l w tr) /\
  (forall i j, ~ (In i (pl_ends l) /\ In j (pl_starts l)) -> pw_tune l w tr i j = tr i j).
Proof.
  intros (Ns & Ne & Hd & Hne & Hs & He) W Hle. destruct (logw_ok _ w W) as [Ll El].
  assert (Ho : forall i j, ~ (In i (pl_ends l) /\ In j (pl_starts l)) -> pw_tune l w tr i j = tr i j).
  { intros i j H. unfold pw_tune. apply C19_others_unchanged; auto.
    destruct (in_dec Nat.eq_dec i (pl_ends l)); [|now left]. right. tauto. }
  split; [|exact Ho]. split.
  - intros e Hin. rewrite Ho; [auto|]. intros [_ H]. now apply (Hd e).
  - intros e k Hin Hk. rewrite (Ho e e) by (intros [_ H]; now apply (Hd e)).
    unfold pw_tune. rewrite C19_entries by auto. now rewrite El.
Qed.

Lemma pw_change l w w' tr tr' : loop_ok l -> pw_tuned l w tr -> pw_tuned l w' tr' ->
  (forall i j, ~ (In i (pl_ends l) /\ In j (pl_starts l)) -> tr' i j = tr i j) ->
  same_frame (with_trans (pl_graph l) tr) (with_trans (pl_graph l) tr')
    (edge (pl_ends l) (pl_starts l) (fun k => elog_weight w' k - elog_weight w k)).
Proof.
  intros (Ns & Ne & Hd & _) [_ T1] [_ T2] Ho. split; [reflexivity|]. split; [reflexivity|]. split; [reflexivity|].
  intros i j. cbn [with_trans cg_trans].
  destruct (in_dec Nat.eq_dec i (pl_ends l)) as [Hi|Hi].
  2:{ rewrite Ho, edge_out, exp_0 by tauto. ring. }
  destruct (in_dec Nat.eq_dec j (pl_starts l)) as [Hj|Hj].
  2:{ rewrite Ho, edge_out, exp_0 by tauto. ring. }
  apply (In_nth _ _ 0%nat) in Hj. destruct Hj as (k & Hk & <-).
  rewrite edge_in, T1, T2 by auto. rewrite (Ho i i) by (intros [_ H]; now apply (Hd i)).
  rewrite Rmult_assoc, <- exp_plus. f_equal. f_equal. ring.
Qed.

Section Loop.
  Variables (sort : list R -> list nat) (amax : nat -> (nat -> lp) -> nat) (k : kind) (D : nat) (scale : R) (l : ploop) (skel : mset).
  Hypothesis Hsort : forall counts, sorts_desc counts (sort counts).
  Hypothesis Hscale : 0 <= scale.
  Hypothesis Hnd : NoDup (params skel).
  Hypothesis Hlo : loop_ok l.

  Let K := length (pl_starts l).
  Let U (s : pwst) (x : lutt) : utt := lu_utt l (pw_trans s) x.
  Let fr (s : pwst) (x : lutt) := frames scale (utt_ems skel (pw_pars s) (U s x)) (u_stats (U s x)).

  Lemma pw_K_pos : (0 < K)%nat.
  Proof. destruct Hlo as (_ & _ & _ & H & _). unfold K. destruct (pl_starts l); [congruence|simpl; lia]. Qed.

  Definition pw_mcount (s : pwst) (x : lutt) (j : nat) : R :=
    pw_expect scale l skel s x (moves (pl_ends l) (nth j (pl_starts l) 0%nat)).

  Lemma pw_count_split s x j : pw_count scale l skel s x j = pw_first_count scale l skel s x j + pw_mcount s x j.
  Proof.
    unfold pw_count, pw_first_count, pw_mcount, pw_expect. destruct (lu_ali x) as [a|]; [ring|].
    cbv zeta. rewrite <- expect_plus. reflexivity.
  Qed.

  Definition pw_counts (s : pwst) (x : lutt) : list R := map (pw_count scale l skel s x) (seq 0 K).

  Lemma pw_counts_length s x : length (pw_counts s x) = K.
  Proof. unfold pw_counts. now rewrite map_length, seq_length. Qed.

  Lemma pw_counts_nth s x j : (j < K)%nat -> nth j (pw_counts s x) 0 = pw_count scale l skel s x j.
  Proof. intros H. unfold pw_counts. rewrite (map_nth_lt _ _ _ 0%nat) by (now rewrite seq_length). now rewrite seq_nth. Qed.

  Lemma pw_counts_ne s x : pw_counts s x <> [].
  Proof. intros E. assert (H := pw_counts_length s x). rewrite E in H. assert (H' := pw_K_pos). simpl in H. lia. Qed.

  Lemma pw_evidence s x : pw_good k D l skel s -> pw_utt_ok k D l skel s x -> 0 < evidence (u_graph (U s x)) (fr s x).
  Proof. intros (T & _) H. apply (utt_evidence k D scale skel); auto. Qed.

  Lemma pw_count_nonneg s x j : pw_good k D l skel s -> pw_utt_ok k D l skel s x -> 0 <= pw_count scale l skel s x j.
  Proof.
    intros G H. unfold pw_count, pw_expect. destruct (lu_ali x) eqn:E; [lra|]. apply expect_nonneg; [now apply pw_evidence|].
    intros p. unfold phone_starts. apply Rplus_le_le_0_compat; [destruct (Nat.eqb _ _); lra|].
    apply sumf_nonneg. intros t _. destruct (_ && _); lra.
  Qed.

  Definition wrow (w : wpar) (counts : list R) : list R :=
    match w with WDir _ _ => cat_stats counts | _ => counts end.

  Lemma wrow_zeros w : wrow w (vzeros K) = vzeros K.
  Proof.
    assert (Hz : cat_stats (vzeros K) = vzeros K).
    { change (cat_stats (vzeros K)) with (cat_suff_stats (vzeros K)). assert (Kp := pw_K_pos).
      assert (Hne : vzeros K <> []) by (intros E; assert (L := vzeros_length K); rewrite E in L; simpl in L; lia).
      apply vec_ext; [now rewrite cat_suff_stats_length|]. intros j Hj. rewrite cat_suff_stats_length, vzeros_length in Hj by auto.
      rewrite (cat_suff_nth _ K), vzeros_nth by (rewrite ?vzeros_length; auto).
      destruct (Nat.eqb _ _); [|reflexivity]. rewrite rsum_nth. apply sumf_zero.
      intros a _. apply vzeros_nth. }
    unfold wrow. destruct w; auto.
  Qed.

  Lemma pw_acc_ok s x : pw_good k D l skel s -> pw_utt_ok k D l skel s x ->
    pw_acc amax scale l (inst (forms (pw_pars s)) skel) (pw_weights s) (pw_trans s) x =
    Some (acc_of amax scale skel (pw_pars s) (U s x), wrow (pw_weights s) (pw_counts s x)).
  Proof.
    intros G H. assert (Hev := pw_evidence s x G H). destruct G as (T & _). destruct Hlo as (Ns & Ne & _ & Hne & Hs & He).
    assert (H' := H). destruct H' as (Hst & _ & Ho & Hn & _).
    set (m := inst (forms (pw_pars s)) skel). assert (Hw : wf m) by (now apply (inst_wf k D)).
    assert (Ho' : forall o, In o (u_order (U s x)) -> (o < size m)%nat).
    { intros o Hin. unfold m. rewrite (inst_size k D); auto. }
    destruct (C80_defined amax m (u_graph (U s x)) (u_order (U s x)) (u_own (U s x)) scale (u_stats (U s x)) Ho' Hst) as ([v c] & E).
    assert (Ea : hmm_accumulate m (cg_n (u_graph (U s x))) (u_order (U s x)) c (u_stats (U s x)) =
                 Some (acc_of amax scale skel (pw_pars s) (U s x))).
    { destruct (utt_rows amax k D scale skel Hnd (pw_pars s) (U s x) T H) as [A _].
      unfold utt_acc in A. fold m in A. rewrite E in A. exact A. }
    unfold pw_acc. fold (U s x). rewrite E, Ea. f_equal. f_equal.
    destruct (hmm_ellh_soft amax m (u_graph (U s x)) (u_order (U s x)) scale (u_stats (U s x)) Hw Ho' _ v c E) as (posts & lnm & Hp & _ & _ & Hc).
    unfold pw_row. rewrite Hc. cbn [c_trans c_resps]. destruct (lu_ali x) as [[g o]|] eqn:Eali.
    - assert (Eo : u_own (U s x) = false) by (unfold U, lu_utt; now rewrite Eali). rewrite Eo.
      assert (Ez : pw_counts s x = vzeros K).
      { apply vec_ext; [now rewrite pw_counts_length, vzeros_length|]. intros j Hj. rewrite pw_counts_length in Hj.
        rewrite pw_counts_nth, vzeros_nth by auto. unfold pw_count, pw_expect. now rewrite Eali. }
      rewrite Ez, wrow_zeros. reflexivity.
    - assert (Eg : u_graph (U s x) = with_trans (pl_graph l) (pw_trans s)) by (unfold U, lu_utt; now rewrite Eali).
      assert (Eo : u_own (U s x) = true) by (unfold U, lu_utt; now rewrite Eali). rewrite Eo.
      assert (Cn : cg_n (u_graph (U s x)) = cg_n (pl_graph l)) by (now rewrite Eg).
      unfold reorder in *. fold (wrow (pw_weights s)). set (cnt := phone_counts _ _ _ _).
      assert (Ec : cnt = pw_counts s x).
      { apply vec_ext; [unfold cnt, phone_counts; now rewrite map_length, pw_counts_length|].
        intros j Hj. unfold cnt, phone_counts in Hj. rewrite map_length in Hj.
        rewrite pw_counts_nth by exact Hj. unfold pw_count, pw_expect. rewrite Eali. cbv zeta. fold (U s x). fold (fr s x).
        unfold cnt. unfold fr, utt_ems in *. apply (phone_counts_expected (u_graph (U s x)) _ posts lnm); auto; rewrite Cn; auto. }
      rewrite <- Ec. unfold wrow. destruct (pw_weights s); reflexivity.
  Qed.

  Section OneStep.
  Variables (w lrate : R) (uw : bool) (group : list nat) (utts : list lutt) (s : pwst).
  Hypothesis Hw : 0 <= w.
  Hypothesis Hrate : rate_ok (pw_weights s) lrate uw.
  Hypothesis HG : pw_good k D l skel s.
  Hypothesis HU : Forall (pw_utt_ok k D l skel s) utts.

  Definition pw_npars : state := apply_step w lrate group (map (acc_of amax scale skel (pw_pars s)) (map (U s) utts)) (pw_pars s).
  Definition pw_nw : wpar :=
    if uw then mx_weights_update sort lrate (mx_weights_stats w K (pw_weights s) (map (pw_counts s) utts)) (pw_weights s)
    else pw_weights s.
  Definition pw_next : pwst :=
    {| pw_weights := pw_nw; pw_pars := pw_npars;
       pw_trans := if uw then pw_tune l pw_nw (pw_trans s) else pw_trans s |}.
  Definition pw_delta (j : nat) : R := elog_weight pw_nw j - elog_weight (pw_weights s) j.

  Lemma pw_step_eq : pw_step sort amax scale w lrate uw group l skel utts s = Some pw_next.
  Proof using Hnd Hlo HG HU.
    clear Hrate.
    set (f := fun x => (acc_of amax scale skel (pw_pars s) (U s x), wrow (pw_weights s) (pw_counts s x))).
    assert (E : all_some (map (pw_acc amax scale l (inst (forms (pw_pars s)) skel) (pw_weights s) (pw_trans s)) utts) = Some (map f utts)).
    { assert (G : forall us, Forall (pw_utt_ok k D l skel s) us ->
        all_some (map (pw_acc amax scale l (inst (forms (pw_pars s)) skel) (pw_weights s) (pw_trans s)) us) = Some (map f us)).
      { induction us as [|x us IH]; intros F; [reflexivity|]. assert (Hx := Forall_inv F). assert (F' := Forall_inv_tail F). cbn [map all_some].
        rewrite (pw_acc_ok s x HG Hx), (IH F'). reflexivity. }
      exact (G utts HU). }
    unfold pw_step. rewrite E, !map_map.
    assert (Es : vscale w (colsum (length (pl_starts l)) (map (fun x => snd (f x)) utts)) =
                 mx_weights_stats w K (pw_weights s) (map (pw_counts s) utts)).
    { unfold mx_weights_stats, f. cbn [snd]. unfold wrow. destruct (pw_weights s); rewrite ?map_map; reflexivity. }
    rewrite Es. unfold pw_next, pw_nw, pw_npars. rewrite map_map. unfold f. cbn [fst]. destruct uw; reflexivity.
  Qed.

  Lemma pw_U_all : Forall (utt_ok k D skel) (map (U s) utts).
  Proof. apply Forall_map. exact HU. Qed.

  Lemma pw_npars_length p : length (pw_npars p) = length (pw_pars s p).
  Proof.
    unfold pw_npars, apply_step. destruct (existsb _ group); [|reflexivity]. rewrite map2_length, seq_length. lia.
  Qed.

  Lemma pw_cell_step q : In q (allcells (pw_pars s) (params skel)) ->
    let c := cell_at (pw_pars s) q in let c' := cell_at pw_npars q in
    (leaf_cell k D c -> leaf_cell k D c') /\ (forall n, weights_cell n c -> weights_cell n c') /\
    cell_kl c' - cell_kl c <=
    sumf (fun i => w * sumf (fun u => urow scale skel (pw_pars s) u q i) (map (U s) utts) * (nth i (form pw_npars q) 0 - nth i (form (pw_pars s) q) 0))
      (seq 0 (length (form (pw_pars s) q))).
  Proof.
    intros Hq. destruct HG as (T & _).
    exact (cell_step amax k D scale skel Hscale Hnd (pw_pars s) (map (U s) utts) w lrate group q T pw_U_all Hw (proj1 Hrate) Hq).
  Qed.

  Lemma pw_npars_typed : typed k D pw_npars skel.
  Proof.
    destruct HG as (T & _). apply (typed_keep k D (pw_pars s)); auto. intros p Hp. split; [apply pw_npars_length|].
    intros i Hi. destruct (pw_cell_step (p, i)) as (A & B & _); [now apply allcells_in|]. split; [exact A|exact B].
  Qed.

  Lemma pw_weights_gain : mxw_ok K pw_nw /\
    weights_kl pw_nw - weights_kl (pw_weights s) <=
    w * sumf (fun x => sumf (fun j => pw_count scale l skel s x j * pw_delta j) (seq 0 K)) utts.
  Proof.
    assert (HG' := HG). destruct HG' as (_ & W & _). fold K in W.
    assert (E : sumf (fun j => mx_counts w (map (pw_counts s) utts) j * pw_delta j) (seq 0 K) =
      w * sumf (fun x => sumf (fun j => pw_count scale l skel s x j * pw_delta j) (seq 0 K)) utts).
    { rewrite sumf_swap, <- sumf_scal_l. apply sumf_ext. intros j Hj. apply in_seq in Hj. unfold mx_counts.
      rewrite sumf_map, sumf_scal_r, Rmult_assoc. f_equal. f_equal. apply sumf_ext. intros x _. apply pw_counts_nth. lia. }
    rewrite <- E. unfold pw_delta, pw_nw. destruct uw.
    - apply weights_gain; auto using pw_K_pos. apply Forall_map. eapply Forall_impl; [|exact HU]. intros x Hx.
      split; [apply pw_counts_length|]. unfold pw_counts. apply Forall_map, Forall_forall. intros j _. now apply pw_count_nonneg.
    - split; [exact W|]. rewrite sumf_zero; [lra|]. intros; ring.
  Qed.

  Lemma pw_next_tuned : pw_tuned l pw_nw (pw_trans pw_next) /\
    (forall i j, ~ (In i (pl_ends l) /\ In j (pl_starts l)) -> pw_trans pw_next i j = pw_trans s i j).
  Proof.
    destruct pw_weights_gain as (W & _). destruct HG as (_ & W0 & Tu). unfold pw_next, pw_nw in *. cbn [pw_trans].
    destruct uw; [|split; [exact Tu|reflexivity]]. apply tune_tuned; auto. apply Tu.
  Qed.

  Lemma pw_next_good : pw_good k D l skel pw_next.
  Proof. split; [apply pw_npars_typed|]. split; [apply pw_weights_gain|apply pw_next_tuned]. Qed.

  Definition pw_pathgain (x : lutt) (p : list nat) : R :=
    match lu_ali x with
    | Some _ => 0
    | None => sumf (fun j => moves (pl_ends l) (nth j (pl_starts l) 0%nat) p * pw_delta j) (seq 0 K)
    end.

  Lemma pw_prior_new x T p :
    prior_prob (u_graph (U pw_next x)) T p = prior_prob (u_graph (U s x)) T p * exp (pw_pathgain x p).
  Proof.
    unfold pw_pathgain, U, lu_utt. destruct (lu_ali x) as [[g o]|]; cbn [u_graph]; [rewrite exp_0; ring|].
    destruct pw_next_tuned as [T2 Ho]. destruct HG as (_ & _ & T1).
    rewrite (prior_change _ _ _ T p (pw_change l _ _ _ _ Hlo T1 T2 Ho)), edge_moves. reflexivity.
  Qed.

  Lemma pw_same_utt x : u_order (U pw_next x) = u_order (U s x) /\ u_stats (U pw_next x) = u_stats (U s x) /\
    cg_n (u_graph (U pw_next x)) = cg_n (u_graph (U s x)) /\ u_own (U pw_next x) = u_own (U s x).
  Proof. unfold U, lu_utt. destruct (lu_ali x) as [[g o]|]; cbn; auto. Qed.

  Lemma pw_next_utt x : pw_utt_ok k D l skel s x -> pw_utt_ok k D l skel pw_next x.
  Proof.
    unfold pw_utt_ok. fold (U s x) (U pw_next x). destruct (pw_same_utt x) as (E1 & E2 & E3 & _).
    intros (A & B & C & E & p & Hp & Hpos). unfold utt_ok. rewrite E1, E2, E3.
    split; [exact A|]. split; [exact B|]. split; [exact C|]. split; [exact E|]. exists p. split; [exact Hp|].
    rewrite pw_prior_new. apply Rmult_lt_0_compat; [exact Hpos|apply exp_pos].
  Qed.

  Lemma pw_pathgain_expect x : expect (u_graph (U s x)) (fr s x) (pw_pathgain x) = sumf (fun j => pw_mcount s x j * pw_delta j) (seq 0 K).
  Proof.
    unfold pw_pathgain, pw_mcount, pw_expect. destruct (lu_ali x).
    - rewrite sumf_zero by (intros; ring). unfold expect. apply sumf_zero. intros; ring.
    - apply expect_sum.
  Qed.

  Lemma pw_utt_gain x : pw_utt_ok k D l skel s x ->
    let Q := allcells (pw_pars s) (params skel) in
    sumf (fun q => sumf (fun i => urow scale skel (pw_pars s) (U s x) q i * (nth i (form pw_npars q) 0 - nth i (form (pw_pars s) q) 0))
       (seq 0 (length (form (pw_pars s) q)))) Q
    + sumf (fun j => pw_mcount s x j * pw_delta j) (seq 0 K) <=
    loglik scale skel pw_npars (u_graph (U pw_next x)) (U pw_next x) - loglik scale skel (pw_pars s) (u_graph (U s x)) (U s x).
  Proof.
    intros Hx Q. assert (Hx' := pw_next_utt x Hx). assert (T := HG). destruct T as (T & _). assert (T' := pw_npars_typed).
    assert (P1 := pw_evidence s x HG Hx). assert (P2 := pw_evidence pw_next x pw_next_good Hx').
    rewrite <- pw_pathgain_expect. unfold loglik. unfold fr in *. cbn [pw_next pw_pars] in P2. fold pw_next in P2.
    destruct (pw_same_utt x) as (E1 & E2 & E3 & _).
    assert (Ee : utt_ems skel pw_npars (U pw_next x) = utt_ems skel pw_npars (U s x)) by (unfold utt_ems; now rewrite E1).
    rewrite Ee, E2 in *. unfold urow.
    rewrite (utt_ems_einst k D skel (pw_pars s) (U s x) T Hx) in *.
    rewrite (utt_ems_einst k D skel pw_npars (U s x) T' Hx) in *.
    assert (Et := sk_ems_typed k D skel (pw_pars s) (U s x) T Hx). assert (Et' := sk_ems_typed k D skel pw_npars (U s x) T' Hx).
    destruct Hx as (Hne & (xs & Exs & Hxs) & Ho & Hn & _).
    apply (utt_gain_graph k D (pw_pars s) pw_npars (params skel) Q); auto.
    - apply allcells_nodup, Hnd.
    - intros p _. apply pw_prior_new.
    - intros p i Hp Hi. now apply allcells_in.
    - unfold sk_ems. now rewrite map_length.
    - change (U s x) with (lu_utt l (pw_trans s) x). rewrite Exs. apply Forall_map. eapply Forall_impl; [|exact Hxs]. intros y Hy. now apply suff_length.
  Qed.

  Lemma pw_next_bound :
    pw_bound scale w l skel utts s <= pw_bound scale w l skel utts pw_next +
      w * sumf (fun x => sumf (fun j => pw_first_count scale l skel s x j * pw_delta j) (seq 0 K)) utts.
  Proof.
    set (st := pw_pars s). set (Q := allcells st (params skel)).
    assert (EQ : allcells pw_npars (params skel) = Q).
    { unfold Q, allcells. rewrite !flat_map_concat_map. f_equal. apply map_ext. intros p. f_equal. f_equal. apply pw_npars_length. }
    unfold pw_bound. rewrite !total_kl_cells. cbn [pw_next pw_pars pw_weights]. rewrite EQ. fold st Q.
    change (if uw then pw_tune l pw_nw (pw_trans s) else pw_trans s) with (pw_trans pw_next).
    set (lin := fun x => sumf (fun q => sumf (fun i => urow scale skel st (U s x) q i * (nth i (form pw_npars q) 0 - nth i (form st q) 0))
       (seq 0 (length (form st q)))) Q).
    assert (G : sumf (fun x => lin x + sumf (fun j => pw_mcount s x j * pw_delta j) (seq 0 K)) utts <=
      sumf (fun x => loglik scale skel pw_npars (u_graph (U pw_next x)) (U pw_next x) - loglik scale skel st (u_graph (U s x)) (U s x)) utts).
    { apply sumf_le. intros x Hx. apply pw_utt_gain. exact (proj1 (Forall_forall _ _) HU x Hx). }
    rewrite sumf_minus, sumf_plus in G. apply (Rmult_le_compat_l w) in G; [|exact Hw].
    assert (C : sumf (fun q => cell_kl (cell_at pw_npars q) - cell_kl (cell_at st q)) Q <=
      sumf (fun q => sumf (fun i => w * sumf (fun u => urow scale skel st u q i) (map (U s) utts) * (nth i (form pw_npars q) 0 - nth i (form st q) 0))
        (seq 0 (length (form st q)))) Q).
    { apply sumf_le. intros q Hq. now apply pw_cell_step. }
    rewrite sumf_minus in C.
    assert (E : sumf (fun q => sumf (fun i => w * sumf (fun u => urow scale skel st u q i) (map (U s) utts) * (nth i (form pw_npars q) 0 - nth i (form st q) 0))
        (seq 0 (length (form st q)))) Q = w * sumf lin utts).
    { unfold lin. rewrite sumf_swap, <- sumf_scal_l. apply sumf_ext. intros q _. rewrite sumf_swap, <- sumf_scal_l.
      apply sumf_ext. intros i _. rewrite sumf_map, Rmult_assoc, <- sumf_scal_r. reflexivity. }
    rewrite E in C. destruct pw_weights_gain as (_ & B).
    assert (Ec : sumf (fun x => sumf (fun j => pw_count scale l skel s x j * pw_delta j) (seq 0 K)) utts =
      sumf (fun x => sumf (fun j => pw_first_count scale l skel s x j * pw_delta j) (seq 0 K)) utts +
      sumf (fun x => sumf (fun j => pw_mcount s x j * pw_delta j) (seq 0 K)) utts).
    { rewrite <- sumf_plus. apply sumf_ext. intros x _. rewrite <- sumf_plus. apply sumf_ext. intros j _.
      rewrite pw_count_split. ring. }
    rewrite Ec in B. unfold U in G. lra.
  Qed.
  End OneStep.
End Loop.
