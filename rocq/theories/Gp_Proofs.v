(** Proofs for C199: what a step of the training of a phone-loop gains. *)
From Coq Require Import Reals List Arith Bool Lia Lra Permutation.
From Verif Require Import Prelude Vec Gibbs Lgamma FB_Model FB_Spec FB_Proofs Edit_Model Dec_Model Dec_Proofs Set_Model Set_Spec Set_Proofs
  HMM_Model HMM_Spec HMM_Proofs HMM_Props Dist_Model Dist_Spec Dist_Proofs NG_Proofs KL_Proofs Dist_Props Mat NW_Model NW_Spec NW_Proofs NW_KL NW_Props
  SB_Model SB_Spec SB_Proofs SB_Props Sk_Model Sk_Spec Sk_Proofs Sk_Props
  Vt_Model Vt_Spec Vt_Proofs Vt_Props Gn_Spec Gn_Proofs Vl_Model Vl_Spec Vl_Proofs Vl_Props Mx_Model Mx_Spec Mx_Proofs Gx_Spec Gx_Proofs
  Pw_Model Pw_Spec Pw_Proofs Pw_Props Gp_Spec.
Import ListNotations.
Local Open Scope R_scope.

(** ** The weights, whatever the rows of counts *)
Lemma any_weights_moved sort n w lrate (resps : mat) c :
  (forall counts, sorts_desc counts (sort counts)) -> (0 < n)%nat -> 0 <= w ->
  Forall (fun r => length r = n /\ Forall (fun v => 0 <= v) r) resps ->
  mxw_ok n c -> rate_ok c lrate true ->
  let c' := mx_weights_update sort lrate (mx_weights_stats w n c resps) c in
  0 <= weights_moved c c' /\
  weights_moved c c' + lrate * (weights_kl c' - weights_kl c) <= lrate *
  sumf (fun j => mx_counts w resps j * (elog_weight c' j - elog_weight c j)) (seq 0 n).
Proof.
  intros Hsort Hn Hw Hr W Hrate c'. unfold c'.
  destruct (Mx_Proofs.weights_gain sort n w lrate resps Hsort Hn Hw Hr c W Hrate) as [W' K']. cbv zeta in W', K'.
  assert (Hl := proj1 Hrate). destruct Hrate as [_ Hrate]. specialize (Hrate eq_refl).
  destruct c as [p q|p o q|g h].
  - destruct W as [Wp Wq]. cbn [mx_weights_update mx_weights_stats weights_moved weights_kl elog_weight] in *.
    assert (B := dir_moved n w lrate resps Hn Hw Hr p q Wp Wq Hl). cbv zeta in B.
    destruct W' as [_ Wq']. split; [apply (C40_dirichlet n); auto|].
    rewrite <- !(dir_kl_cross n) by auto. exact B.
  - cbn [mx_weights_update] in *. destruct (sb_update _ _ _ _ _) as [o' q'] eqn:Eu. cbn [weights_moved]. split; [lra|].
    rewrite Hrate. lra.
  - cbn [mx_weights_update weights_moved] in *. split; [lra|]. rewrite Hrate in *. lra.
Qed.

Lemma weights_moved_self n c : mxw_ok n c -> weights_moved c c = 0.
Proof. destruct c as [p q| |]; intros W; cbn [weights_moved]; auto. destruct W. apply (C40_dirichlet n q q); auto. Qed.

Section Loop.
  Variables (sort : list R -> list nat) (amax : nat -> (nat -> lp) -> nat) (k : kind) (D : nat) (scale : R) (l : ploop) (skel : mset).
  Hypothesis Hsort : forall counts, sorts_desc counts (sort counts).
  Hypothesis Hscale : 0 <= scale.
  Hypothesis Hnd : NoDup (params skel).
  Hypothesis Hlo : loop_ok l.
  Variables (w lrate : R) (uw : bool) (group : list nat) (utts : list lutt) (s : pwst).
  Hypothesis Hw : 0 <= w.
  Hypothesis Hrate : rate_ok (pw_weights s) lrate uw.
  Hypothesis HG : pw_good k D l skel s.
  Hypothesis HU : Forall (pw_utt_ok k D l skel s) utts.

  Local Notation K := (length (pl_starts l)).
  Local Notation U s x := (lu_utt l (pw_trans s) x).
  Local Notation npars := (pw_npars amax scale l skel w lrate group utts s).
  Local Notation nw := (pw_nw sort scale l skel w lrate uw utts s).
  Local Notation next := (pw_next sort amax scale l skel w lrate uw group utts s).
  Local Notation delta := (pw_delta sort scale l skel w lrate uw utts s).
  Local Notation mcount := (pw_mcount scale l skel).
  Local Notation counts := (pw_counts scale l skel s).

  Lemma pw_weights_moved : 0 <= weights_moved (pw_weights s) nw /\
    weights_moved (pw_weights s) nw + lrate * (weights_kl nw - weights_kl (pw_weights s)) <=
    lrate * (w * sumf (fun x => sumf (fun j => pw_count scale l skel s x j * delta j) (seq 0 K)) utts).
  Proof.
    assert (HG' := HG). destruct HG' as (_ & W & _).
    assert (E : sumf (fun j => mx_counts w (map counts utts) j * delta j) (seq 0 K) =
      w * sumf (fun x => sumf (fun j => pw_count scale l skel s x j * delta j) (seq 0 K)) utts).
    { rewrite sumf_swap, <- sumf_scal_l. apply sumf_ext. intros j Hj. apply in_seq in Hj. unfold mx_counts.
      rewrite sumf_map, sumf_scal_r, Rmult_assoc. f_equal. f_equal. apply sumf_ext. intros x _. apply pw_counts_nth. lia. }
    rewrite <- E. unfold pw_delta, pw_nw. destruct uw.
    - apply any_weights_moved; auto. { now apply pw_K_pos. } apply Forall_map. eapply Forall_impl; [|exact HU]. intros x Hx.
      split; [apply pw_counts_length|]. unfold pw_counts. apply Forall_map, Forall_forall. intros j _. now apply (pw_count_nonneg k D).
    - rewrite (weights_moved_self K) by exact W. split; [lra|]. rewrite sumf_zero; [lra|]. intros; ring.
  Qed.

  Lemma pw_cell_moved q : In q (allcells (pw_pars s) (params skel)) ->
    let c := cell_at (pw_pars s) q in let c' := cell_at npars q in
    0 <= moved c c' /\
    moved c c' + lrate * (cell_kl c' - cell_kl c) <= lrate *
    sumf (fun i => w * sumf (fun u => urow scale skel (pw_pars s) u q i) (map (fun x => U s x) utts) * (nth i (form npars q) 0 - nth i (form (pw_pars s) q) 0))
      (seq 0 (length (form (pw_pars s) q))).
  Proof.
    intros Hq. assert (HG' := HG). destruct HG' as (T & _).
    assert (UA : Forall (utt_ok k D skel) (map (fun x => U s x) utts)) by (apply Forall_map; exact HU).
    destruct (cell_step amax k D scale skel Hscale Hnd (pw_pars s) (map (fun x => U s x) utts) w lrate group q T UA Hw (proj1 Hrate) Hq) as (A & B & _).
    assert (C := Gn_Proofs.cell_gain amax k D scale skel Hscale Hnd (pw_pars s) (map (fun x => U s x) utts) w lrate group q T UA Hw (proj1 Hrate) Hq).
    cbv zeta in *. split; [|exact C]. apply (moved_nonneg k D). destruct q as [p i]. assert (Hq' := Hq).
    apply allcells_in in Hq'. destruct Hq' as [Hp Hi].
    destruct (typed_cells k D (pw_pars s) skel p i T Hp Hi) as [H|(n & H)].
    - left. split; [exact H|exact (A H)].
    - right. exists n. split; [exact H|exact (B n H)].
  Qed.

  Lemma pw_next_moved :
    0 <= weights_moved (pw_weights s) (pw_weights next) /\ 0 <= total_moved skel (pw_pars s) (pw_pars next) /\
    loop_moved skel s next <= lrate * (pw_bound scale w l skel utts next +
      w * sumf (fun x => sumf (fun j => pw_first_count scale l skel s x j * delta j) (seq 0 K)) utts
      - pw_bound scale w l skel utts s).
  Proof.
    set (st := pw_pars s). set (Q := allcells st (params skel)).
    assert (HLn : forall p, length (npars p) = length (st p)) by (intros p; apply pw_npars_length).
    assert (EQ : allcells npars (params skel) = Q).
    { unfold Q, allcells. rewrite !flat_map_concat_map. f_equal. apply map_ext. intros p. f_equal. f_equal. apply HLn. }
    unfold loop_moved, pw_bound. rewrite !total_kl_cells.
    change (pw_weights next) with nw. change (pw_pars next) with npars. rewrite EQ. fold st Q.
    rewrite (total_moved_cells skel st npars HLn). fold Q.
    set (lin := fun x => sumf (fun q => sumf (fun i => urow scale skel st (U s x) q i * (nth i (form npars q) 0 - nth i (form st q) 0))
       (seq 0 (length (form st q)))) Q).
    assert (G : sumf (fun x => lin x + sumf (fun j => mcount s x j * delta j) (seq 0 K)) utts <=
      sumf (fun x => loglik scale skel npars (u_graph (U next x)) (U next x) - loglik scale skel st (u_graph (U s x)) (U s x)) utts).
    { apply sumf_le. intros x Hx. apply (pw_utt_gain sort amax k D scale l skel); auto. exact (proj1 (Forall_forall _ _) HU x Hx). }
    rewrite sumf_minus, sumf_plus in G. apply (Rmult_le_compat_l w) in G; [|exact Hw].
    assert (C : sumf (fun q => moved (cell_at st q) (cell_at npars q) + lrate * (cell_kl (cell_at npars q) - cell_kl (cell_at st q))) Q <=
      sumf (fun q => lrate * sumf (fun i => w * sumf (fun u => urow scale skel st u q i) (map (fun x => U s x) utts) * (nth i (form npars q) 0 - nth i (form st q) 0))
        (seq 0 (length (form st q)))) Q).
    { apply sumf_le. intros q Hq. now apply pw_cell_moved. }
    rewrite sumf_plus, !sumf_scal_l, sumf_minus in C.
    assert (E : sumf (fun q => sumf (fun i => w * sumf (fun u => urow scale skel st u q i) (map (fun x => U s x) utts) * (nth i (form npars q) 0 - nth i (form st q) 0))
        (seq 0 (length (form st q)))) Q = w * sumf lin utts).
    { unfold lin. rewrite sumf_swap, <- sumf_scal_l. apply sumf_ext. intros q _. rewrite sumf_swap, <- sumf_scal_l.
      apply sumf_ext. intros i _. rewrite sumf_map, Rmult_assoc, <- sumf_scal_r. reflexivity. }
    rewrite E in C. destruct pw_weights_moved as (B0 & B).
    assert (Ec : sumf (fun x => sumf (fun j => pw_count scale l skel s x j * delta j) (seq 0 K)) utts =
      sumf (fun x => sumf (fun j => pw_first_count scale l skel s x j * delta j) (seq 0 K)) utts +
      sumf (fun x => sumf (fun j => mcount s x j * delta j) (seq 0 K)) utts).
    { rewrite <- sumf_plus. apply sumf_ext. intros x _. rewrite <- sumf_plus. apply sumf_ext. intros j _.
      rewrite pw_count_split. ring. }
    rewrite Ec in B. split; [exact B0|]. split; [apply sumf_nonneg; intros q Hq; now apply pw_cell_moved|].
    apply (Rmult_le_compat_l lrate) in G; [|exact (proj1 (proj1 Hrate))]. cbv zeta. lra.
  Qed.
End Loop.

(** With one phone at the beginning, the first phones are what the other bound
    adds. *)
Lemma first_gain k D scale l skel utts s s' i0 : loop_ok l -> one_initial (pl_graph l) i0 ->
  pw_good k D l skel s -> Forall (pw_utt_ok k D l skel s) utts ->
  sumf (fun x => sumf (fun j => pw_first_count scale l skel s x j *
        (elog_weight (pw_weights s') j - elog_weight (pw_weights s) j)) (seq 0 (length (pl_starts l)))) utts =
    sumf (fun x => match lu_ali x with Some _ => 0 | None => pw_first_logw l (pw_weights s') i0 end) utts -
    sumf (fun x => match lu_ali x with Some _ => 0 | None => pw_first_logw l (pw_weights s) i0 end) utts.
Proof.
  intros Hlo H1 HG HU. rewrite <- sumf_minus. apply sumf_ext. intros x Hx. rewrite Forall_forall in HU.
  assert (P := pw_evidence k D scale l skel s x HG (HU x Hx)). unfold pw_first_count, pw_expect.
  destruct (lu_ali x) as [[g o]|] eqn:Ea; [rewrite sumf_zero by (intros; ring); ring|]. cbv zeta.
  set (u := lu_utt l (pw_trans s) x) in *.
  assert (Eg : u_graph u = with_trans (pl_graph l) (pw_trans s)) by (unfold u, lu_utt; now rewrite Ea).
  rewrite (sumf_ext _ (fun j => if Nat.eqb i0 (nth j (pl_starts l) 0%nat) then elog_weight (pw_weights s') j - elog_weight (pw_weights s) j else 0)).
  2:{ intros j _. rewrite (expect_first _ i0); [destruct (Nat.eqb _ _); ring|rewrite Eg; exact H1|exact P]. }
  unfold pw_first_logw. destruct (position i0 (pl_starts l)) as [j0|] eqn:Ep.
  - destruct (position_some _ _ _ Ep) as [Hj <-]. rewrite (sumf_seq_single _ _ j0); auto.
    + now rewrite Nat.eqb_refl.
    + intros j Hj' N. destruct (Nat.eqb_spec (nth j0 (pl_starts l) 0%nat) (nth j (pl_starts l) 0%nat)) as [E0|]; [|reflexivity].
      exfalso. apply N. symmetry. apply (proj1 (NoDup_nth (pl_starts l) 0%nat) (proj1 Hlo)); auto.
  - rewrite sumf_zero; [ring|]. intros j Hj. apply in_seq in Hj.
    destruct (Nat.eqb_spec i0 (nth j (pl_starts l) 0%nat)) as [E0|]; [|reflexivity].
    exfalso. apply (position_none _ _ Ep). rewrite E0. apply nth_In. lia.
Qed.

(** A run that gains at least what it moves settles. *)
Lemma run_settles (b m : nat -> R) L : (forall n, 0 <= m n <= b (S n) - b n) -> (forall n, b n <= L) -> Un_cv b L ->
  (forall n, 0 <= sumf m (seq 0 n) <= b n - b 0%nat /\ b n <= L) /\ Un_cv m 0.
Proof.
  intros HM HL HC. split.
  - intros n. split; [split|apply HL].
    + apply sumf_nonneg. intros i _. apply HM.
    + induction n as [|n IH]; [cbn; lra|]. rewrite seq_S, sumf_app, sumf_cons, sumf_nil. cbn [Nat.add]. destruct (HM n). lra.
  - intros eps He. destruct (HC (eps / 2)) as (N & HN); [lra|]. exists N. intros n Hn.
    assert (A := HN n Hn). assert (B := HN (S n) ltac:(lia)). unfold R_dist in *. destruct (HM n) as [P Q].
    apply Rabs_def2 in A. apply Rabs_def2 in B. rewrite Rabs_pos_eq by lra. lra.
Qed.
