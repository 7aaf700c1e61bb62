(** C164: what the training of a phone-loop does to its evidence bound. *)
From Coq Require Import Reals List Arith Bool Lia Lra.
From Verif Require Import Prelude Vec Lgamma FB_Model FB_Spec FB_Proofs Edit_Model Dec_Model Dec_Proofs Set_Model Set_Spec Set_Proofs
  HMM_Model HMM_Spec HMM_Proofs HMM_Props Dist_Model Dist_Spec Dist_Proofs NG_Proofs KL_Proofs Dist_Props Mat NW_Model NW_Spec NW_Proofs NW_KL NW_Props
  Vt_Model Vt_Spec Vt_Proofs Vt_Props Vl_Model Vl_Spec Vl_Proofs.
Import ListNotations.
Local Open Scope R_scope.

(** The statistics of the weights are linear in the expected log-weights. *)
Lemma dot_cat (c F : list R) : c <> [] -> length F = length c ->
  dot (cat_suff_stats c) F = sumf (fun j => nth j c 0 * cat_logprob F j) (seq 0 (length c)).
Proof.
  intros Hne L. assert (Ls := cat_suff_stats_length c Hne).
  rewrite dot_nth by congruence. rewrite Ls.
  rewrite (sumf_ext (fun j => nth j c 0 * cat_logprob F j)
    (fun j => (if Nat.eqb (S j) (length c) then 0 else nth j c 0 * nth j F 0) + nth j c 0 * nth (pred (length c)) F 0)).
  2:{ intros j _. unfold cat_logprob. rewrite L, last_nth, L.
      destruct (Nat.eqb_spec (S j) (length c)); [|ring].
      replace (pred (length c)) with j by lia. ring. }
  rewrite sumf_plus, sumf_scal_r, <- rsum_nth.
  assert (Hn : (0 < length c)%nat) by (destruct c; [congruence|simpl; lia]).
  rewrite (seq_pred_split _ (length c) Hn), cat_suff_stats_last, (seq_pred_split (fun j => if Nat.eqb (S j) (length c) then 0 else nth j c 0 * nth j F 0) (length c) Hn).
  replace (Nat.eqb (S (pred (length c))) (length c)) with true by (symmetry; apply Nat.eqb_eq; lia).
  rewrite Rplus_0_r. f_equal. apply sumf_ext. intros j Hj. apply in_seq in Hj.
  destruct (Nat.eqb_spec (S j) (length c)); [lia|]. rewrite cat_suff_stats_nth by lia. reflexivity.
Qed.

Lemma sumf_list_seq {A} (f : A -> R) (v : list A) d : sumf f v = sumf (fun i => f (nth i v d)) (seq 0 (length v)).
Proof.
  induction v as [|a v IH]; [reflexivity|]. cbn [length seq]. rewrite !sumf_cons. f_equal.
  rewrite <- seq_shift, sumf_map. exact IH.
Qed.

Section Loop.
  Variables (amax : nat -> (nat -> lp) -> nat) (k : kind) (D : nat) (scale : R) (l : ploop) (skel : mset).
  Hypothesis Hscale : 0 <= scale.
  Hypothesis Hnd : NoDup (params skel).
  Hypothesis Hpw : ~ In (pl_weights l) (params skel).
  Hypothesis Hlo : loop_ok l.

  Let pw := pl_weights l.
  Let K := length (pl_starts l).
  Let U (s : lstate) (x : lutt) : utt := lu_utt l (ls_trans s) x.
  Let fr (s : lstate) (x : lutt) := frames scale (utt_ems skel (ls_pars s) (U s x)) (u_stats (U s x)).

  Lemma K_pos : (0 < K)%nat.
  Proof. destruct Hlo as (_ & _ & _ & H & _). unfold K. destruct (pl_starts l); [congruence|simpl; lia]. Qed.

  Definition count (s : lstate) (x : lutt) (j : nat) : R :=
    match lu_ali x with
    | Some _ => 0
    | None => expect (u_graph (U s x)) (fr s x) (phone_starts (pl_ends l) (nth j (pl_starts l) 0%nat))
    end.

  Definition mcount (s : lstate) (x : lutt) (j : nat) : R :=
    match lu_ali x with
    | Some _ => 0
    | None => expect (u_graph (U s x)) (fr s x) (moves (pl_ends l) (nth j (pl_starts l) 0%nat))
    end.

  Lemma expect_plus g ls f h : expect g ls (fun p => f p + h p) = expect g ls f + expect g ls h.
  Proof. unfold expect. rewrite <- sumf_plus. apply sumf_ext. intros; ring. Qed.

  Lemma count_split s x j : count s x j = first_count scale l skel s x j + mcount s x j.
  Proof.
    unfold count, first_count, mcount, fr, U. destruct (lu_ali x) as [a|]; [ring|].
    rewrite <- expect_plus. reflexivity.
  Qed.

  Definition counts (s : lstate) (x : lutt) : list R := map (count s x) (seq 0 K).

  Lemma counts_length s x : length (counts s x) = K.
  Proof. unfold counts. now rewrite map_length, seq_length. Qed.

  Lemma counts_nth s x j : (j < K)%nat -> nth j (counts s x) 0 = count s x j.
  Proof. intros H. unfold counts. rewrite (map_nth_lt _ _ _ 0%nat) by (now rewrite seq_length). now rewrite seq_nth. Qed.

  Lemma counts_ne s x : counts s x <> [].
  Proof. intros E. assert (H := counts_length s x). rewrite E in H. assert (H' := K_pos). simpl in H. lia. Qed.

  Lemma good_evidence s x : good k D l skel s -> lutt_ok k D l skel s x -> 0 < evidence (u_graph (U s x)) (fr s x).
  Proof. intros (T & _) H. apply (utt_evidence k D scale skel); auto. Qed.

  Lemma expect_nonneg g ls f : 0 < evidence g ls -> (forall p, 0 <= f p) -> 0 <= expect g ls f.
  Proof.
    intros Hz Hf. unfold expect. apply sumf_nonneg. intros p _. apply Rmult_le_pos; [|auto].
    apply Rmult_le_pos; [apply path_prob_nonneg|left; now apply Rinv_0_lt_compat].
  Qed.

  Lemma count_nonneg s x j : good k D l skel s -> lutt_ok k D l skel s x -> 0 <= count s x j.
  Proof.
    intros G H. unfold count. destruct (lu_ali x) eqn:E; [lra|]. apply expect_nonneg; [now apply good_evidence|].
    intros p. unfold phone_starts. apply Rplus_le_le_0_compat; [destruct (Nat.eqb _ _); lra|].
    apply sumf_nonneg. intros t _. destruct (_ && _); lra.
  Qed.

  Definition lacc (s : lstate) (x : lutt) : sdict :=
    match loop_acc amax scale l (inst (forms (ls_pars s)) skel) (ls_trans s) x with Some d => d | None => [] end.

  Lemma lacc_ok s x : good k D l skel s -> lutt_ok k D l skel s x ->
    loop_acc amax scale l (inst (forms (ls_pars s)) skel) (ls_trans s) x = Some (lacc s x) /\
    (forall q, q <> pw -> dget Nat.eq_dec (lacc s x) q =
        dget Nat.eq_dec (acc_of amax scale skel (ls_pars s) (U s x)) q) /\
    dget Nat.eq_dec (lacc s x) pw = Some [cat_suff_stats (counts s x)].
  Proof.
    intros G H. assert (Hev := good_evidence s x G H). destruct G as (T & _). destruct Hlo as (Ns & Ne & _ & Hne & Hs & He).
    assert (H' := H). destruct H' as (Hst & _ & Ho & Hn & _).
    set (m := inst (forms (ls_pars s)) skel). assert (Hw : wf m) by (now apply (inst_wf k D)).
    assert (Ho' : forall o, In o (u_order (U s x)) -> (o < size m)%nat).
    { intros o Hin. unfold m. rewrite (inst_size k D); auto. }
    destruct (C80_defined amax m (u_graph (U s x)) (u_order (U s x)) (u_own (U s x)) scale (u_stats (U s x)) Ho' Hst) as ([v c] & E).
    assert (Ea : hmm_accumulate m (cg_n (u_graph (U s x))) (u_order (U s x)) c (u_stats (U s x)) =
                 Some (acc_of amax scale skel (ls_pars s) (U s x))).
    { destruct (utt_rows amax k D scale skel Hnd (ls_pars s) (U s x) T H) as [A _].
      unfold utt_acc in A. fold m in A. rewrite E in A. exact A. }
    assert (EL : loop_acc amax scale l m (ls_trans s) x =
      phoneloop_accumulate pw m (cg_n (u_graph (U s x))) (u_order (U s x)) (pl_starts l) (pl_ends l) c (u_stats (U s x))).
    { unfold loop_acc. fold (U s x). rewrite E. reflexivity. }
    unfold lacc. fold m. rewrite EL. destruct (lu_ali x) as [[g o]|] eqn:Eali.
    - destruct (hmm_ellh_soft amax m (u_graph (U s x)) (u_order (U s x)) scale (u_stats (U s x)) Hw Ho' _ v c E) as (posts & lnm & _ & _ & _ & Hc).
      assert (Eo : u_own (U s x) = false) by (unfold U, lu_utt; now rewrite Eali).
      unfold phoneloop_accumulate. rewrite Ea, Hc, Eo. cbn [c_trans]. split; [reflexivity|]. split.
      + intros q Hq. rewrite dget_dset. destruct (Nat.eq_dec q pw); [contradiction|reflexivity].
      + rewrite dget_dset. destruct (Nat.eq_dec pw pw); [|contradiction]. f_equal. f_equal. fold K.
        assert (Ez : counts s x = vzeros K).
        { apply vec_ext; [now rewrite counts_length, vzeros_length|]. intros j Hj. rewrite counts_length in Hj.
          rewrite counts_nth, vzeros_nth by auto. unfold count. now rewrite Eali. }
        apply vec_ext.
        * rewrite vzeros_length, cat_suff_stats_length, counts_length by apply counts_ne. reflexivity.
        * intros j Hj. rewrite vzeros_length in Hj. rewrite vzeros_nth, (cat_suff_nth _ K), Ez by (rewrite ?counts_length; auto).
          destruct (Nat.eqb _ _); [|now rewrite vzeros_nth]. rewrite rsum_nth. symmetry. apply sumf_zero.
          intros a _. apply vzeros_nth.
    - assert (Eg : u_graph (U s x) = with_trans (pl_graph l) (ls_trans s)) by (unfold U, lu_utt; now rewrite Eali).
      assert (Eo : u_own (U s x) = true) by (unfold U, lu_utt; now rewrite Eali).
      rewrite Eo in E.
      assert (Cn : cg_n (u_graph (U s x)) = cg_n (pl_graph l)) by (now rewrite Eg).
      destruct (C21_expected_phone_counts amax pw m (u_graph (U s x)) (u_order (U s x)) (pl_starts l) (pl_ends l) scale (u_stats (U s x)) v c)
        as (D1 & D0 & row & E1 & E2 & E3 & E4 & E5 & E6 & E7); auto; [rewrite Cn; auto|rewrite Cn; auto|].
      rewrite E1. split; [reflexivity|]. rewrite Ea in E2. injection E2 as <-. split; [exact E3|].
      rewrite E4. f_equal. f_equal.
      assert (Ec : forall j, (j < K)%nat -> nth j (counts s x) 0 =
        expect (u_graph (U s x)) (fr s x) (phone_starts (pl_ends l) (nth j (pl_starts l) 0%nat))).
      { intros j Hj. rewrite counts_nth by auto. unfold count. now rewrite Eali. }
      apply vec_ext.
      * rewrite E5, cat_suff_stats_length, counts_length by apply counts_ne. reflexivity.
      * intros j Hj. rewrite E5 in Hj. fold K in Hj. rewrite (cat_suff_nth _ K) by (rewrite ?counts_length; auto).
        destruct (Nat.eqb_spec (S j) K) as [EK|NK].
        -- replace j with (pred (length (pl_starts l))) by (fold K; lia). rewrite E7, rsum_nth, counts_length.
           rewrite (sumf_list_seq _ (pl_starts l) 0%nat). fold K. apply sumf_ext. intros a Ha. apply in_seq in Ha. rewrite Ec by lia. reflexivity.
        -- rewrite Ec by auto. apply E6. fold K. lia.
  Qed.

  Section OneStep.
  Variables (w lrate : R) (group : list nat) (utts : list lutt) (s : lstate).
  Hypothesis Hw : 0 <= w.
  Hypothesis Hlr : 0 <= lrate <= 1.
  Hypothesis HG : good k D l skel s.
  Hypothesis HU : Forall (lutt_ok k D l skel s) utts.

  Definition nst : state := apply_step w lrate group (map (lacc s) utts) (ls_pars s).
  Definition nls : lstate :=
    {| ls_pars := nst;
       ls_trans := if existsb (Nat.eqb (pl_weights l)) group
                   then on_weights_update (log_weights l nst) (pl_starts l) (pl_ends l) (ls_trans s)
                   else ls_trans s |}.
  Definition delta (j : nat) : R := elogw l nst j - elogw l (ls_pars s) j.

  Lemma step_eq : loop_step amax scale w lrate group l skel utts s = Some nls.
  Proof.
    assert (E : all_some (map (loop_acc amax scale l (inst (forms (ls_pars s)) skel) (ls_trans s)) utts) = Some (map (lacc s) utts)).
    { assert (G : forall us, Forall (lutt_ok k D l skel s) us ->
        all_some (map (loop_acc amax scale l (inst (forms (ls_pars s)) skel) (ls_trans s)) us) = Some (map (lacc s) us)).
      { induction us as [|x us IH]; intros F; [reflexivity|]. inversion F; subst. cbn [map all_some].
        rewrite (proj1 (lacc_ok s x HG H1)), IH by auto. reflexivity. }
      now apply G. }
    unfold loop_step. rewrite E. reflexivity.
  Qed.

  Lemma U_all : Forall (utt_ok k D skel) (map (U s) utts).
  Proof. apply Forall_map. exact HU. Qed.

  Lemma same_pars p : p <> pw ->
    nst p = apply_step w lrate group (map (acc_of amax scale skel (ls_pars s)) (map (U s) utts)) (ls_pars s) p.
  Proof.
    intros Hp. unfold nst, apply_step, total.
    assert (E : forall i, map (row_of p i) (map (lacc s) utts) = map (row_of p i) (map (acc_of amax scale skel (ls_pars s)) (map (U s) utts))).
    { intros i. rewrite !map_map. apply map_ext_in. intros x Hx. rewrite Forall_forall in HU.
      destruct (lacc_ok s x HG (HU x Hx)) as (_ & E & _). unfold row_of. now rewrite E. }
    destruct (existsb (Nat.eqb p) group); [|reflexivity].
    assert (G : forall (a : list nat) (b : list cell),
      map2 (fun i c => cell_update lrate (vscale w (colsum (length (cell_form c)) (map (row_of p i) (map (lacc s) utts)))) c) a b =
      map2 (fun i c => cell_update lrate (vscale w (colsum (length (cell_form c)) (map (row_of p i) (map (acc_of amax scale skel (ls_pars s)) (map (U s) utts))))) c) a b).
    { induction a as [|i a IH]; intros [|c b]; try reflexivity. cbn [map2]. rewrite E, IH. reflexivity. }
    apply G.
  Qed.

  Lemma nst_length p : length (nst p) = length (ls_pars s p).
  Proof.
    unfold nst, apply_step. destruct (existsb _ group); [|reflexivity]. rewrite map2_length, seq_length. lia.
  Qed.

  Lemma not_pw p : In p (params skel) -> p <> pw.
  Proof. intros Hp ->. now apply Hpw. Qed.

  Lemma ncell_step q : In q (allcells (ls_pars s) (params skel)) ->
    let c := cell_at (ls_pars s) q in let c' := cell_at nst q in
    (leaf_cell k D c -> leaf_cell k D c') /\ (forall n, weights_cell n c -> weights_cell n c') /\
    cell_kl c' - cell_kl c <=
    sumf (fun i => w * sumf (fun u => urow scale skel (ls_pars s) u q i) (map (U s) utts) * (nth i (form nst q) 0 - nth i (form (ls_pars s) q) 0))
      (seq 0 (length (form (ls_pars s) q))).
  Proof.
    intros Hq. assert (T := HG). destruct T as (T & _).
    assert (C := cell_step amax k D scale skel Hscale Hnd (ls_pars s) (map (U s) utts) w lrate group q T U_all Hw Hlr Hq).
    cbv zeta in C. destruct q as [p i]. apply allcells_in in Hq. destruct Hq as [Hp Hi].
    assert (E := same_pars p (not_pw p Hp)). cbv zeta.
    unfold cell_at, form, forms in *. cbn [fst snd] in *. rewrite E. exact C.
  Qed.

  Lemma nst_typed : typed k D nst skel.
  Proof.
    destruct HG as (T & _). apply (typed_keep k D (ls_pars s)); auto. intros p Hp. split; [apply nst_length|].
    intros i Hi. destruct (ncell_step (p, i)) as (A & B & _); [now apply allcells_in|]. split; [exact A|exact B].
  Qed.

  Lemma weights_update_step : weights_ok l nst /\
    (~ In pw group -> nst pw = ls_pars s pw) /\
    (In pw group -> exists p q, ls_pars s pw = [CWeights p q] /\
       nst pw = [CWeights p (std_update dir_nat dir_from_nat lrate p q
                  (wstats K cat_suff_stats (map (fun x => (w, counts s x)) utts)))]) /\
    sumf cell_kl (nst pw) - sumf cell_kl (ls_pars s pw) <=
    w * sumf (fun x => sumf (fun j => count s x j * delta j) (seq 0 K)) utts.
  Proof.
    assert (HG' := HG). destruct HG' as (T & W & Tu). assert (W' := W). destruct W' as (c & Ec & Wc).
    destruct (wform_eq l (ls_pars s) W) as (p & q & Epq & Hp & Hq & Ef). fold pw in Ec, Epq, Ef. fold K in Hp, Hq, Wc. fold pw K.
    assert (c = CWeights p q) by congruence. subst c.
    set (data := map (fun x => (w, counts s x)) utts).
    assert (Fd : Forall (fun gx => 0 <= fst gx /\ fits D (CWeights p q) (snd gx)) data).
    { unfold data. apply Forall_map. eapply Forall_impl; [|exact HU]. intros x Hx. cbn [fst snd fits].
      split; [exact Hw|]. split; [rewrite counts_length; symmetry; apply Hp|]. unfold counts. apply Forall_map, Forall_forall.
      intros j _. now apply count_nonneg. }
    assert (Hlen : forall gx, In gx data -> length (cat_suff_stats (snd gx)) = K).
    { intros gx Hin. unfold data in Hin. apply in_map_iff in Hin. destruct Hin as (x & <- & _). cbn [snd].
      rewrite cat_suff_stats_length by apply counts_ne. apply counts_length. }
    set (stats := wstats K cat_suff_stats data).
    assert (Lst : length stats = K) by (unfold stats; now apply wstats_length).
    assert (Lf : length (cell_form (CWeights p q)) = K) by (now apply weights_form_length).
    assert (Etot : total w K pw 0 (map (lacc s) utts) = stats).
    { assert (Er : map (row_of pw 0) (map (lacc s) utts) = map (fun x => cat_suff_stats (counts s x)) utts).
      { rewrite map_map. apply map_ext_in. intros x Hx. rewrite Forall_forall in HU.
        destruct (lacc_ok s x HG (HU x Hx)) as (_ & _ & E). unfold row_of. now rewrite E. }
      assert (Fr : Forall (fun r => length r = K) (map (fun x => cat_suff_stats (counts s x)) utts)).
      { apply Forall_map, Forall_forall. intros x _. rewrite cat_suff_stats_length by apply counts_ne. apply counts_length. }
      unfold total. rewrite Er. apply vec_ext.
      - rewrite vscale_length, colsum_length by exact Fr. symmetry. exact Lst.
      - intros j Hj. rewrite vscale_length, colsum_length in Hj by exact Fr.
        rewrite vscale_nth, colsum_nth by auto. unfold stats. rewrite wstats_nth by auto. unfold data.
        rewrite !sumf_map, <- sumf_scal_l. reflexivity. }
    assert (En : nst pw = if existsb (Nat.eqb pw) group then [cell_update lrate stats (CWeights p q)] else [CWeights p q]).
    { unfold nst, apply_step. rewrite Epq. destruct (existsb _ group); [|reflexivity]. cbn [length seq map2].
      rewrite Lf, Etot. reflexivity. }
    assert (Hdot : forall q', length q' = K ->
      dot stats (dir_ess q') = w * sumf (fun x => sumf (fun j => count s x j * cat_logprob (dir_ess q') j) (seq 0 K)) utts).
    { intros q' Lq'. assert (Le : length (dir_ess q') = K).
      { rewrite dir_ess_length; auto. intros ->. assert (A := K_pos). simpl in Lq'. lia. }
      rewrite dot_nth, Lst by congruence.
      rewrite (sumf_ext _ (fun i => sumf (fun x => w * (nth i (cat_suff_stats (counts s x)) 0 * nth i (dir_ess q') 0)) utts)).
      2:{ intros i Hi. apply in_seq in Hi. unfold stats. rewrite wstats_nth by (auto; lia). unfold data.
          rewrite sumf_map, <- sumf_scal_r. apply sumf_ext. intros x _. cbn [fst snd]. ring. }
      rewrite sumf_swap, <- sumf_scal_l. apply sumf_ext. intros x _. rewrite sumf_scal_l. f_equal.
      assert (Ld := cat_suff_stats_length (counts s x) (counts_ne s x)). rewrite counts_length in Ld.
      replace (seq 0 K) with (seq 0 (length (cat_suff_stats (counts s x)))) at 1 by (now rewrite Ld).
      rewrite <- dot_nth by congruence. rewrite dot_cat by (auto using counts_ne; now rewrite counts_length).
      rewrite counts_length. apply sumf_ext. intros j Hj. apply in_seq in Hj. rewrite counts_nth by lia. reflexivity. }
    assert (Hel : forall st' q', st' pw = [CWeights p q'] -> length q' = K ->
      forall j, (j < K)%nat -> cat_logprob (dir_ess q') j = elogw l st' j).
    { intros st' q' E Lq' j Hj. rewrite cat_logprob_ess by (now rewrite Lq'). unfold elogw. fold pw. now rewrite E. }
    assert (Hex : existsb (Nat.eqb pw) group = true <-> In pw group).
    { rewrite existsb_exists. split.
      - intros (y & Hy & Ey). apply Nat.eqb_eq in Ey. now subst.
      - intros Hy. exists pw. split; [auto|apply Nat.eqb_refl]. }
    destruct (existsb (Nat.eqb pw) group) eqn:Eg.
    - set (q' := std_update dir_nat dir_from_nat lrate p q stats).
      change (cell_update lrate stats (CWeights p q)) with (CWeights p q') in En.
      destruct (weights_step K D lrate (CWeights p q) data Wc Hlr Fd) as [A B]. cbv zeta in A, B. rewrite Lf in A, B.
      change (wstats K (cell_fn (CWeights p q)) data) with stats in A, B.
      change (cell_update lrate stats (CWeights p q)) with (CWeights p q') in A, B.
      split; [exists (CWeights p q'); split; [exact En|exact A]|].
      split; [intros Hn; exfalso; apply Hn, Hex; reflexivity|].
      split; [intros _; exists p, q; split; [exact Epq|exact En]|].
      rewrite En, Epq, !sumf_cons, !sumf_nil. cbn [cell_form] in B.
      destruct A as [_ Hq']. rewrite !Hdot in B by (try apply Hq'; apply Hq).
      assert (E : w * sumf (fun x => sumf (fun j => count s x j * delta j) (seq 0 K)) utts =
        w * sumf (fun x => sumf (fun j => count s x j * cat_logprob (dir_ess q') j) (seq 0 K)) utts -
        w * sumf (fun x => sumf (fun j => count s x j * cat_logprob (dir_ess q) j) (seq 0 K)) utts).
      { rewrite <- Rmult_minus_distr_l, <- sumf_minus. f_equal. apply sumf_ext. intros x _. rewrite <- sumf_minus.
        apply sumf_ext. intros j Hj. apply in_seq in Hj. unfold delta.
        rewrite (Hel nst q' En (proj1 Hq')), (Hel (ls_pars s) q Epq (proj1 Hq)) by lia. ring. }
      rewrite E. lra.
    - assert (En' : nst pw = ls_pars s pw) by congruence.
      split; [exists (CWeights p q); split; [exact En|exact Wc]|]. split; [auto|].
      split; [intros Hin; apply Hex in Hin; discriminate|].
      rewrite En'. rewrite (sumf_zero _ utts); [lra|]. intros x _. apply sumf_zero. intros j _. unfold delta, elogw. fold pw.
      rewrite En'. ring.
  Qed.

  Lemma nls_tuned : tuned l nls /\
    (forall i j, ~ (In i (pl_ends l) /\ In j (pl_starts l)) -> ls_trans nls i j = ls_trans s i j).
  Proof.
    destruct weights_update_step as (W & Hno & _ & _). destruct HG as (T & W0 & Tu).
    unfold nls. destruct (existsb (Nat.eqb (pl_weights l)) group) eqn:Eg.
    - apply update_tuned; auto. apply Tu.
    - split; [|reflexivity]. unfold tuned, elogw in *. cbn [ls_trans ls_pars]. fold pw. rewrite Hno; [exact Tu|].
      intros Hin. assert (existsb (Nat.eqb (pl_weights l)) group = true); [|congruence].
      apply existsb_exists. exists (pl_weights l). split; [exact Hin|apply Nat.eqb_refl].
  Qed.

  Lemma nls_good : good k D l skel nls.
  Proof.
    split; [apply nst_typed|]. split; [apply weights_update_step|apply nls_tuned].
  Qed.

  Definition pathgain (x : lutt) (p : list nat) : R :=
    match lu_ali x with
    | Some _ => 0
    | None => sumf (fun j => moves (pl_ends l) (nth j (pl_starts l) 0%nat) p * delta j) (seq 0 K)
    end.

  Lemma prior_new x T p :
    prior_prob (u_graph (U nls x)) T p = prior_prob (u_graph (U s x)) T p * exp (pathgain x p).
  Proof.
    unfold pathgain, U, lu_utt. destruct (lu_ali x) as [[g o]|]; cbn [u_graph]; [rewrite exp_0; ring|].
    destruct nls_tuned as [T2 Ho]. destruct HG as (_ & _ & T1).
    rewrite (prior_change _ _ _ T p (tuned_change l s nls Hlo T1 T2 Ho)), edge_moves. reflexivity.
  Qed.

  Lemma same_utt x : u_order (U nls x) = u_order (U s x) /\ u_stats (U nls x) = u_stats (U s x) /\
    cg_n (u_graph (U nls x)) = cg_n (u_graph (U s x)) /\ u_own (U nls x) = u_own (U s x).
  Proof. unfold U, lu_utt. destruct (lu_ali x) as [[g o]|]; cbn; auto. Qed.

  Lemma nls_utt x : lutt_ok k D l skel s x -> lutt_ok k D l skel nls x.
  Proof.
    unfold lutt_ok. fold (U s x) (U nls x). destruct (same_utt x) as (E1 & E2 & E3 & _).
    intros (A & B & C & E & p & Hp & Hpos). unfold utt_ok. rewrite E1, E2, E3.
    split; [exact A|]. split; [exact B|]. split; [exact C|]. split; [exact E|]. exists p. split; [exact Hp|].
    rewrite prior_new. apply Rmult_lt_0_compat; [exact Hpos|apply exp_pos].
  Qed.

  Lemma expect_sum {A} g ls (f : A -> list nat -> R) (c : A -> R) v :
    expect g ls (fun p => sumf (fun a => f a p * c a) v) = sumf (fun a => expect g ls (f a) * c a) v.
  Proof.
    unfold expect. rewrite (sumf_ext _ (fun p => sumf (fun a => path_prob g ls p / evidence g ls * f a p * c a) v)).
    - rewrite sumf_swap. apply sumf_ext. intros a _. rewrite sumf_scal_r. reflexivity.
    - intros p _. rewrite <- sumf_scal_l. apply sumf_ext. intros; ring.
  Qed.

  Lemma pathgain_expect x : expect (u_graph (U s x)) (fr s x) (pathgain x) = sumf (fun j => mcount s x j * delta j) (seq 0 K).
  Proof.
    unfold pathgain, mcount. destruct (lu_ali x).
    - rewrite sumf_zero by (intros; ring). unfold expect. apply sumf_zero. intros; ring.
    - apply expect_sum.
  Qed.

  Lemma lutt_gain x : lutt_ok k D l skel s x ->
    let Q := allcells (ls_pars s) (params skel) in
    sumf (fun q => sumf (fun i => urow scale skel (ls_pars s) (U s x) q i * (nth i (form nst q) 0 - nth i (form (ls_pars s) q) 0))
       (seq 0 (length (form (ls_pars s) q)))) Q
    + sumf (fun j => mcount s x j * delta j) (seq 0 K) <=
    loglik scale skel nst (u_graph (U nls x)) (U nls x) - loglik scale skel (ls_pars s) (u_graph (U s x)) (U s x).
  Proof.
    intros Hx Q. assert (Hx' := nls_utt x Hx). assert (T := HG). destruct T as (T & _). assert (T' := nst_typed).
    assert (P1 := good_evidence s x HG Hx). assert (P2 := good_evidence nls x nls_good Hx').
    rewrite <- pathgain_expect. unfold loglik. unfold fr in *. cbn [nls ls_pars] in P2.
    destruct (same_utt x) as (E1 & E2 & E3 & _).
    assert (Ee : utt_ems skel nst (U nls x) = utt_ems skel nst (U s x)) by (unfold utt_ems; now rewrite E1).
    rewrite Ee, E2 in *. unfold urow.
    rewrite (utt_ems_einst k D skel (ls_pars s) (U s x) T Hx) in *.
    rewrite (utt_ems_einst k D skel nst (U s x) T' Hx) in *.
    assert (Et := sk_ems_typed k D skel (ls_pars s) (U s x) T Hx). assert (Et' := sk_ems_typed k D skel nst (U s x) T' Hx).
    destruct Hx as (Hne & (xs & Exs & Hxs) & Ho & Hn & _).
    apply (utt_gain_graph k D (ls_pars s) nst (params skel) Q); auto.
    - apply allcells_nodup, Hnd.
    - intros p _. apply prior_new.
    - intros p i Hp Hi. now apply allcells_in.
    - unfold sk_ems. now rewrite map_length.
    - change (U s x) with (lu_utt l (ls_trans s) x). rewrite Exs. apply Forall_map. eapply Forall_impl; [|exact Hxs]. intros y Hy. now apply suff_length.
  Qed.

  Lemma nls_bound :
    loop_bound scale w l skel utts s <= loop_bound scale w l skel utts nls +
      w * sumf (fun x => sumf (fun j => first_count scale l skel s x j * delta j) (seq 0 K)) utts.
  Proof.
    set (st := ls_pars s). set (Q := allcells st (params skel)).
    assert (EQ : allcells nst (params skel) = Q).
    { unfold Q, allcells. rewrite !flat_map_concat_map. f_equal. apply map_ext. intros p. f_equal. f_equal. apply nst_length. }
    unfold loop_bound, loop_kl. rewrite !total_kl_cells. cbn [nls ls_pars]. rewrite EQ. fold st Q pw.
    change (if existsb (Nat.eqb pw) group then on_weights_update (log_weights l nst) (pl_starts l) (pl_ends l) (ls_trans s) else ls_trans s)
      with (ls_trans nls).
    set (lin := fun x => sumf (fun q => sumf (fun i => urow scale skel st (U s x) q i * (nth i (form nst q) 0 - nth i (form st q) 0))
       (seq 0 (length (form st q)))) Q).
    assert (G : sumf (fun x => lin x + sumf (fun j => mcount s x j * delta j) (seq 0 K)) utts <=
      sumf (fun x => loglik scale skel nst (u_graph (U nls x)) (U nls x) - loglik scale skel st (u_graph (U s x)) (U s x)) utts).
    { apply sumf_le. intros x Hx. apply lutt_gain. exact (proj1 (Forall_forall _ _) HU x Hx). }
    rewrite sumf_minus, sumf_plus in G. apply (Rmult_le_compat_l w) in G; [|exact Hw].
    assert (C : sumf (fun q => cell_kl (cell_at nst q) - cell_kl (cell_at st q)) Q <=
      sumf (fun q => sumf (fun i => w * sumf (fun u => urow scale skel st u q i) (map (U s) utts) * (nth i (form nst q) 0 - nth i (form st q) 0))
        (seq 0 (length (form st q)))) Q).
    { apply sumf_le. intros q Hq. now apply ncell_step. }
    rewrite sumf_minus in C.
    assert (E : sumf (fun q => sumf (fun i => w * sumf (fun u => urow scale skel st u q i) (map (U s) utts) * (nth i (form nst q) 0 - nth i (form st q) 0))
        (seq 0 (length (form st q)))) Q = w * sumf lin utts).
    { unfold lin. rewrite sumf_swap, <- sumf_scal_l. apply sumf_ext. intros q _. rewrite sumf_swap, <- sumf_scal_l.
      apply sumf_ext. intros i _. rewrite sumf_map, Rmult_assoc, <- sumf_scal_r. reflexivity. }
    rewrite E in C. destruct weights_update_step as (_ & _ & _ & B). fold st in B.
    assert (Ec : sumf (fun x => sumf (fun j => count s x j * delta j) (seq 0 K)) utts =
      sumf (fun x => sumf (fun j => first_count scale l skel s x j * delta j) (seq 0 K)) utts +
      sumf (fun x => sumf (fun j => mcount s x j * delta j) (seq 0 K)) utts).
    { rewrite <- sumf_plus. apply sumf_ext. intros x _. rewrite <- sumf_plus. apply sumf_ext. intros j _.
      rewrite count_split. ring. }
    rewrite Ec in B. unfold U in G. lra.
  Qed.
  End OneStep.
End Loop.

(** ** C164: one step *)
Theorem C164_step_partial : forall amax k D scale w lrate group l skel utts s,
  0 <= scale -> 0 <= w -> 0 <= lrate <= 1 -> NoDup (params skel) -> ~ In (pl_weights l) (params skel) -> loop_ok l ->
  good k D l skel s -> Forall (lutt_ok k D l skel s) utts ->
  exists s', loop_step amax scale w lrate group l skel utts s = Some s' /\
    good k D l skel s' /\ Forall (lutt_ok k D l skel s') utts /\
    loop_bound scale w l skel utts s <= loop_bound scale w l skel utts s' +
      w * sumf (fun x => sumf (fun j => first_count scale l skel s x j *
        (elogw l (ls_pars s') j - elogw l (ls_pars s) j)) (seq 0 (length (pl_starts l)))) utts.
Proof.
  intros amax k D scale w lrate group l skel utts s Hs Hw Hl Hnd Hpw Hlo HG HU.
  exists (nls amax scale l skel w lrate group utts s).
  split; [now apply (step_eq amax k D scale l skel)|].
  split; [now apply (nls_good amax k D scale l skel)|].
  split; [eapply Forall_impl; [|exact HU]; intros x Hx; now apply (nls_utt amax k D scale l skel)|].
  now apply (nls_bound amax k D scale l skel).
Qed.

(** The posterior of the weights moves to the prior plus the expected number of
    times each phone begins. *)
Theorem C164_weights_update : forall amax k D scale w lrate group l skel utts s s',
  0 <= scale -> 0 <= w -> 0 <= lrate <= 1 -> NoDup (params skel) -> ~ In (pl_weights l) (params skel) -> loop_ok l ->
  good k D l skel s -> Forall (lutt_ok k D l skel s) utts ->
  loop_step amax scale w lrate group l skel utts s = Some s' ->
  exists p q q', ls_pars s (pl_weights l) = [CWeights p q] /\ ls_pars s' (pl_weights l) = [CWeights p q'] /\
    length q' = length (pl_starts l) /\
    (~ In (pl_weights l) group -> q' = q) /\
    (In (pl_weights l) group -> forall j, (j < length (pl_starts l))%nat ->
       nth j q' 0 = (1 - lrate) * nth j q 0 + lrate * (nth j p 0 + w * sumf (fun x =>
         match lu_ali x with
         | Some _ => 0
         | None => let u := lu_utt l (ls_trans s) x in
             expect (u_graph u) (frames scale (utt_ems skel (ls_pars s) u) (u_stats u))
               (phone_starts (pl_ends l) (nth j (pl_starts l) 0%nat))
         end) utts)).
Proof.
  intros amax k D scale w lrate group l skel utts s s' Hs Hw Hl Hnd Hpw Hlo HG HU E.
  rewrite (step_eq amax k D scale l skel Hnd Hlo w lrate group utts s HG HU) in E. injection E as <-. cbn [nls ls_pars].
  destruct (weights_update_step amax k D scale l skel Hnd Hlo w lrate group utts s Hw Hl HG HU) as (W & A & B & _).
  destruct (wform_eq l (ls_pars s) (proj1 (proj2 HG))) as (p & q & Epq & Hp & Hq & _).
  destruct (wform_eq l _ W) as (p1 & q1 & E1 & Hp1 & Hq1 & _).
  assert (p1 = p /\ (~ In (pl_weights l) group -> q1 = q)) as [-> Hqq].
  { destruct (in_dec Nat.eq_dec (pl_weights l) group) as [Hin|Hin].
    - destruct (B Hin) as (p2 & q2 & F1 & F2). rewrite Epq in F1. rewrite E1 in F2. injection F1 as <- <-. injection F2 as F2 _.
      split; [exact F2|]. intros; contradiction.
    - rewrite (A Hin), Epq in E1. injection E1 as <- <-. auto. }
  exists p, q, q1. split; [exact Epq|]. split; [exact E1|]. split; [apply Hq1|]. split; [exact Hqq|].
  intros Hin j Hj. destruct (B Hin) as (p2 & q2 & F1 & F2). rewrite Epq in F1. injection F1 as <- <-.
  rewrite E1 in F2. injection F2 as ->.
  destruct (dir_update_spec (length (pl_starts l)) lrate p q (map (fun x => (w, counts scale l skel s x)) utts)) as [_ S2].
  - apply Hp.
  - apply Hp.
  - apply Hq.
  - unfold frames_of_dim. apply Forall_map, Forall_forall. intros x _. apply counts_length.
  - rewrite S2 by exact Hj. f_equal. f_equal. f_equal. unfold Sw. rewrite sumf_map, <- sumf_scal_l. apply sumf_ext.
    intros x _. cbn [fst snd]. f_equal. now rewrite counts_nth.
Qed.

(** ** When the first phones do not count *)
Theorem C164_unchanged_first_partial : forall amax k D scale w lrate group l skel utts s,
  0 <= scale -> 0 <= w -> 0 <= lrate <= 1 -> NoDup (params skel) -> ~ In (pl_weights l) (params skel) -> loop_ok l ->
  good k D l skel s -> Forall (lutt_ok k D l skel s) utts ->
  ~ In (pl_weights l) group \/ Forall (fun x => lu_ali x <> None) utts ->
  exists s', loop_step amax scale w lrate group l skel utts s = Some s' /\
    good k D l skel s' /\ Forall (lutt_ok k D l skel s') utts /\
    loop_bound scale w l skel utts s <= loop_bound scale w l skel utts s'.
Proof.
  intros amax k D scale w lrate group l skel utts s Hs Hw Hl Hnd Hpw Hlo HG HU Hor.
  destruct (C164_step_partial amax k D scale w lrate group l skel utts s) as (s' & E & G & F & B); auto.
  exists s'. split; [exact E|]. split; [exact G|]. split; [exact F|].
  rewrite (sumf_zero _ utts) in B; [lra|]. intros x Hx. apply sumf_zero. intros j _.
  destruct Hor as [Hn|Ha].
  - destruct (C164_weights_update amax k D scale w lrate group l skel utts s s') as (p & q & q' & E1 & E2 & _ & E3 & _); auto.
    unfold elogw. rewrite E1, E2, (E3 Hn). ring.
  - rewrite Forall_forall in Ha. specialize (Ha x Hx). unfold first_count. destruct (lu_ali x); [ring|congruence].
Qed.

Lemma keep_training amax k D scale w l skel utts (B : lstate -> R) (ok : R * list nat -> Prop) :
  (forall lrate group s, ok (lrate, group) -> good k D l skel s -> Forall (lutt_ok k D l skel s) utts ->
     exists s', loop_step amax scale w lrate group l skel utts s = Some s' /\
       good k D l skel s' /\ Forall (lutt_ok k D l skel s') utts /\ B s <= B s') ->
  forall steps s, Forall ok steps -> good k D l skel s -> Forall (lutt_ok k D l skel s) utts ->
  exists s', loop_train amax scale w steps l skel utts s = Some s' /\
    good k D l skel s' /\ Forall (lutt_ok k D l skel s') utts /\ B s <= B s'.
Proof.
  intros H steps s F. revert s. induction F as [|[lrate group] steps Ho F IH]; intros s G U.
  - exists s. split; [reflexivity|]. split; [exact G|]. split; [exact U|lra].
  - destruct (H lrate group s Ho G U) as (s1 & E1 & G1 & U1 & B1).
    destruct (IH s1 G1 U1) as (s2 & E2 & G2 & U2 & B2).
    exists s2. cbn [loop_train]. rewrite E1. split; [exact E2|]. split; [exact G2|]. split; [exact U2|lra].
Qed.

Theorem C164_unchanged_first_training_partial : forall amax k D scale w steps l skel utts s,
  0 <= scale -> 0 <= w -> Forall (fun lg => 0 <= fst lg <= 1) steps ->
  NoDup (params skel) -> ~ In (pl_weights l) (params skel) -> loop_ok l ->
  good k D l skel s -> Forall (lutt_ok k D l skel s) utts ->
  Forall (fun lg => ~ In (pl_weights l) (snd lg)) steps \/ Forall (fun x => lu_ali x <> None) utts ->
  exists s', loop_train amax scale w steps l skel utts s = Some s' /\
    good k D l skel s' /\ Forall (lutt_ok k D l skel s') utts /\
    loop_bound scale w l skel utts s <= loop_bound scale w l skel utts s'.
Proof.
  intros amax k D scale w steps l skel utts s Hs Hw Hl Hnd Hpw Hlo HG HU Hor.
  apply (keep_training amax k D scale w l skel utts (loop_bound scale w l skel utts)
    (fun lg => 0 <= fst lg <= 1 /\ (~ In (pl_weights l) (snd lg) \/ Forall (fun x => lu_ali x <> None) utts))); auto.
  - intros lrate group s0 [H1 H2] G U. apply C164_unchanged_first_partial; auto.
  - destruct Hor as [Ha|Ha].
    + rewrite Forall_forall in *. intros lg Hin. split; [auto|]. left. auto.
    + eapply Forall_impl; [|exact Hl]. intros lg Hlg. split; [exact Hlg|now right].
Qed.

(** ** One phone at the beginning *)
Lemma position_some i v j : position i v = Some j -> (j < length v)%nat /\ nth j v 0%nat = i.
Proof.
  revert j. induction v as [|a v IH]; intros j H; [discriminate|]. cbn [position] in H.
  destruct (Nat.eqb_spec i a) as [->|N]; [injection H as <-; simpl; split; [lia|reflexivity]|].
  destruct (position i v) as [j0|] eqn:E; [|discriminate]. injection H as <-. destruct (IH j0 eq_refl). simpl. split; [lia|auto].
Qed.

Lemma position_none i v : position i v = None -> ~ In i v.
Proof.
  induction v as [|a v IH]; intros H; [intros []|]. cbn [position] in H.
  destruct (Nat.eqb_spec i a) as [->|N]; [discriminate|].
  destruct (position i v) eqn:E; [discriminate|]. intros [H1|H1]; [congruence|]. now apply IH.
Qed.

Lemma path_prob_first g i0 ls p : one_initial g i0 -> nth 0 p 0%nat <> i0 -> path_prob g ls p = 0.
Proof.
  intros H Hp. unfold path_prob. destruct ls as [|r ls], p as [|j p]; try reflexivity. cbn [nth] in Hp.
  rewrite (H j Hp). cbn [ex]. ring.
Qed.

Lemma expect_first g i0 ls a : one_initial g i0 -> 0 < evidence g ls ->
  expect g ls (fun p => if Nat.eqb (nth 0 p 0%nat) a then 1 else 0) = if Nat.eqb i0 a then 1 else 0.
Proof.
  intros H Hz. unfold expect.
  rewrite (sumf_ext _ (fun p => path_prob g ls p * (/ evidence g ls * (if Nat.eqb i0 a then 1 else 0)))).
  - rewrite sumf_scal_r. fold (evidence g ls). field. lra.
  - intros p _. destruct (Nat.eq_dec (nth 0 p 0%nat) i0) as [->|N]; [unfold Rdiv; ring|].
    rewrite (path_prob_first g i0) by auto. unfold Rdiv. ring.
Qed.

Lemma tail_prob_drawn l st g ls : forall i p, tail_prob (first_drawn l st g) i ls p = tail_prob g i ls p.
Proof. induction ls as [|r ls IH]; intros i [|j p]; cbn [tail_prob]; try reflexivity. rewrite IH. reflexivity. Qed.

Definition first_logw (l : ploop) (st : state) (i0 : nat) : R :=
  match position i0 (pl_starts l) with Some j => elogw l st j | None => 0 end.

Lemma drawn_evidence l st g i0 ls : one_initial g i0 ->
  evidence (first_drawn l st g) ls = exp (first_logw l st i0) * evidence g ls.
Proof.
  intros H. unfold evidence. rewrite <- sumf_scal_l. change (cg_n (first_drawn l st g)) with (cg_n g).
  apply sumf_ext. intros p _. unfold path_prob. destruct ls as [|r ls], p as [|j p]; try ring.
  rewrite tail_prob_drawn. cbn [first_drawn cg_init]. destruct (Nat.eq_dec j i0) as [->|N].
  - unfold first_logw. destruct (position i0 (pl_starts l)) as [a|]; [rewrite ex_ladd; cbn [ex]; ring|rewrite exp_0; ring].
  - rewrite (H j N). destruct (position j (pl_starts l)); cbn [ladd ex]; ring.
Qed.

Lemma drawn_split k D scale w l skel utts s i0 : one_initial (pl_graph l) i0 ->
  good k D l skel s -> Forall (lutt_ok k D l skel s) utts ->
  drawn_bound scale w l skel utts s = loop_bound scale w l skel utts s +
    w * sumf (fun x => match lu_ali x with Some _ => 0 | None => first_logw l (ls_pars s) i0 end) utts.
Proof.
  intros H1 HG HU. unfold drawn_bound, loop_bound. cbv zeta.
  assert (E : sumf (fun x => loglik scale skel (ls_pars s) (if u_own (lu_utt l (ls_trans s) x) then first_drawn l (ls_pars s) (u_graph (lu_utt l (ls_trans s) x)) else u_graph (lu_utt l (ls_trans s) x)) (lu_utt l (ls_trans s) x)) utts =
    sumf (fun x => loglik scale skel (ls_pars s) (u_graph (lu_utt l (ls_trans s) x)) (lu_utt l (ls_trans s) x)) utts +
    sumf (fun x => match lu_ali x with Some _ => 0 | None => first_logw l (ls_pars s) i0 end) utts).
  { rewrite <- sumf_plus. apply sumf_ext. intros x Hx. rewrite Forall_forall in HU.
    assert (P := good_evidence k D scale l skel s x HG (HU x Hx)).
    set (u := lu_utt l (ls_trans s) x) in *. unfold loglik.
    destruct (lu_ali x) as [[g o]|] eqn:Ea.
    - replace (u_own u) with false by (unfold u, lu_utt; now rewrite Ea). ring.
    - replace (u_own u) with true by (unfold u, lu_utt; now rewrite Ea).
      assert (Eg : u_graph u = with_trans (pl_graph l) (ls_trans s)) by (unfold u, lu_utt; now rewrite Ea).
      rewrite (drawn_evidence l (ls_pars s) (u_graph u) i0) by (rewrite Eg; exact H1).
      rewrite ln_mult, ln_exp; [ring|apply exp_pos|exact P]. }
  rewrite E. ring.
Qed.

Theorem C164_one_first_phone_partial : forall amax k D scale w lrate group l skel utts s i0,
  0 <= scale -> 0 <= w -> 0 <= lrate <= 1 -> NoDup (params skel) -> ~ In (pl_weights l) (params skel) -> loop_ok l ->
  one_initial (pl_graph l) i0 ->
  good k D l skel s -> Forall (lutt_ok k D l skel s) utts ->
  exists s', loop_step amax scale w lrate group l skel utts s = Some s' /\
    good k D l skel s' /\ Forall (lutt_ok k D l skel s') utts /\
    drawn_bound scale w l skel utts s <= drawn_bound scale w l skel utts s'.
Proof.
  intros amax k D scale w lrate group l skel utts s i0 Hs Hw Hl Hnd Hpw Hlo H1 HG HU.
  destruct (C164_step_partial amax k D scale w lrate group l skel utts s) as (s' & E & G & F & B); auto.
  exists s'. split; [exact E|]. split; [exact G|]. split; [exact F|].
  rewrite (drawn_split k D scale w l skel utts s i0), (drawn_split k D scale w l skel utts s' i0) by auto.
  assert (Ef : sumf (fun x => sumf (fun j => first_count scale l skel s x j *
        (elogw l (ls_pars s') j - elogw l (ls_pars s) j)) (seq 0 (length (pl_starts l)))) utts =
    sumf (fun x => match lu_ali x with Some _ => 0 | None => first_logw l (ls_pars s') i0 end) utts -
    sumf (fun x => match lu_ali x with Some _ => 0 | None => first_logw l (ls_pars s) i0 end) utts).
  { rewrite <- sumf_minus. apply sumf_ext. intros x Hx. rewrite Forall_forall in HU.
    assert (P := good_evidence k D scale l skel s x HG (HU x Hx)). unfold first_count.
    destruct (lu_ali x) as [[g o]|] eqn:Ea; [rewrite sumf_zero by (intros; ring); ring|]. cbv zeta.
    set (u := lu_utt l (ls_trans s) x) in *.
    assert (Eg : u_graph u = with_trans (pl_graph l) (ls_trans s)) by (unfold u, lu_utt; now rewrite Ea).
    rewrite (sumf_ext _ (fun j => if Nat.eqb i0 (nth j (pl_starts l) 0%nat) then elogw l (ls_pars s') j - elogw l (ls_pars s) j else 0)).
    2:{ intros j _. rewrite (expect_first _ i0); [destruct (Nat.eqb _ _); ring|rewrite Eg; exact H1|exact P]. }
    unfold first_logw. destruct (position i0 (pl_starts l)) as [j0|] eqn:Ep.
    - destruct (position_some _ _ _ Ep) as [Hj <-]. rewrite (sumf_seq_single _ _ j0); auto.
      + now rewrite Nat.eqb_refl.
      + intros j Hj' N. destruct (Nat.eqb_spec (nth j0 (pl_starts l) 0%nat) (nth j (pl_starts l) 0%nat)) as [E0|]; [|reflexivity].
        exfalso. apply N. symmetry. apply (proj1 (NoDup_nth (pl_starts l) 0%nat) (proj1 Hlo)); auto.
    - rewrite sumf_zero; [ring|]. intros j Hj. apply in_seq in Hj.
      destruct (Nat.eqb_spec i0 (nth j (pl_starts l) 0%nat)) as [E0|]; [|reflexivity].
      exfalso. apply (position_none _ _ Ep). rewrite E0. apply nth_In. lia. }
  rewrite Ef in B. lra.
Qed.

Theorem C164_one_first_phone_training_partial : forall amax k D scale w steps l skel utts s i0,
  0 <= scale -> 0 <= w -> Forall (fun lg => 0 <= fst lg <= 1) steps ->
  NoDup (params skel) -> ~ In (pl_weights l) (params skel) -> loop_ok l ->
  one_initial (pl_graph l) i0 ->
  good k D l skel s -> Forall (lutt_ok k D l skel s) utts ->
  exists s', loop_train amax scale w steps l skel utts s = Some s' /\
    good k D l skel s' /\ Forall (lutt_ok k D l skel s') utts /\
    drawn_bound scale w l skel utts s <= drawn_bound scale w l skel utts s'.
Proof.
  intros amax k D scale w steps l skel utts s i0 Hs Hw Hl Hnd Hpw Hlo H1 HG HU.
  apply (keep_training amax k D scale w l skel utts (drawn_bound scale w l skel utts) (fun lg => 0 <= fst lg <= 1)); auto.
  intros lrate group s0 H2 G U. now apply (C164_one_first_phone_partial amax k D scale w lrate group l skel utts s0 i0).
Qed.

(** The transitions of a new loop are those of its weights. *)
Theorem C164_creation : forall k D l skel st, loop_ok l -> typed k D st skel -> weights_ok l st ->
  (forall e, In e (pl_ends l) -> ex (cg_trans (pl_graph l) e e) <= 1) ->
  good k D l skel (loop_init l st).
Proof.
  intros k D l skel st Hlo T W He. split; [exact T|]. split; [exact W|]. now apply update_tuned.
Qed.

(** ** The weights also count the first phones, the graph does not use them *)
Definition rx_skel : mset := Leaf 1 4 [[]; []; []; []] 0.
Definition rx_st : state := fun p =>
  match p with
  | 0%nat => [CWeights [1; 1] [1; 1]]
  | _ => map (fun m => CDiag (ex_ng 0) (ex_ng m)) [0; 1; 2; 3]
  end.
(** Two phones of two states; only the first phone can begin. *)
Definition rx_loop : ploop :=
  {| pl_weights := 0;
     pl_graph := {| cg_n := 4; cg_init := fun i => if Nat.eqb i 0 then Fin 0 else NInf;
                    cg_trans := fun i j =>
                      if Nat.eqb i j || (Nat.even i && Nat.eqb j (S i)) then Fin (- ln 2) else NInf;
                    cg_final := fun i => if Nat.even i then NInf else Fin 0 |};
     pl_order := [0; 1; 2; 3]%nat; pl_starts := [0; 2]%nat; pl_ends := [1; 3]%nat |}.
Definition rx_utt : lutt := {| lu_ali := None; lu_stats := map nd_suff_stats [[0]; [1]] |}.
Definition rx_s : lstate := loop_init rx_loop rx_st.

Lemma rx_loop_ok : loop_ok rx_loop.
Proof.
  unfold loop_ok, rx_loop. cbn [pl_starts pl_ends pl_graph cg_n].
  split; [constructor; [intros [H|[]]; discriminate|constructor; [intros []|constructor]]|].
  split; [constructor; [intros [H|[]]; discriminate|constructor; [intros []|constructor]]|].
  split; [intros e [<-|[<-|[]]] [H|[H|[]]]; discriminate|]. split; [discriminate|].
  split; intros e [<-|[<-|[]]]; lia.
Qed.

Lemma rx_typed : typed KDiag 1 rx_st rx_skel /\ weights_ok rx_loop rx_st.
Proof.
  split.
  - cbn [typed rx_skel]. split; [reflexivity|]. split; [reflexivity|].
    change (Forall (leaf_cell KDiag 1) (map (fun m => CDiag (ex_ng 0) (ex_ng m)) [0; 1; 2; 3])).
    apply Forall_map, Forall_forall. intros m _.
    assert (Hng : forall m, ng_ok 1 (ex_ng m)).
    { intros v. unfold ng_ok, ex_ng. cbn [ng_mean ng_rates ng_scale ng_shape length].
      split; [reflexivity|]. split; [reflexivity|]. split; [lra|]. split; [lra|]. constructor; [lra|constructor]. }
    split; apply Hng.
  - exists (CWeights [1; 1] [1; 1]). split; [reflexivity|].
    assert (H : dir_ok 2 [1; 1]).
    { split; [reflexivity|]. split; [lia|]. constructor; [lra|]. constructor; [lra|constructor]. }
    split; exact H.
Qed.

Lemma rx_half : exp (- ln 2) = 1 / 2.
Proof. rewrite exp_Ropp, exp_ln by lra. lra. Qed.

Lemma rx_trans i j : ~ (In i [1; 3]%nat /\ In j [0; 2]%nat) -> ls_trans rx_s i j = cg_trans (pl_graph rx_loop) i j.
Proof.
  intros H. unfold rx_s, loop_init. cbn [ls_trans].
  apply (update_tuned rx_loop rx_st (cg_trans (pl_graph rx_loop)) rx_loop_ok (proj2 rx_typed)); [|exact H].
  intros e [<-|[<-|[]]]; cbn -[exp ln]; rewrite rx_half; lra.
Qed.

Lemma rx_good : good KDiag 1 rx_loop rx_skel rx_s.
Proof.
  apply C164_creation; [apply rx_loop_ok|apply rx_typed|apply rx_typed|].
  intros e [<-|[<-|[]]]; cbn -[exp ln]; rewrite rx_half; lra.
Qed.

Lemma rx_utt_ok : lutt_ok KDiag 1 rx_loop rx_skel rx_s rx_utt.
Proof.
  unfold lutt_ok, utt_ok, lu_utt, rx_utt. cbn [lu_ali u_stats u_order u_graph lu_stats].
  split; [discriminate|]. split.
  - exists [[0]; [1]]. split; [reflexivity|]. constructor; [split; [reflexivity|exact I]|].
    constructor; [split; [reflexivity|exact I]|constructor].
  - split; [intros o Hin; change (In o [0; 1; 2; 3]%nat) in Hin; change (o < 4)%nat; simpl in Hin; lia|]. split; [reflexivity|].
    exists [0; 1]%nat. split; [simpl; tauto|].
    unfold prior_prob. cbn [length map repeat path_prob tail_prob with_trans cg_init cg_trans cg_final].
    rewrite rx_trans by (simpl; lia). cbn -[exp ln]. rewrite rx_half, exp_0. lra.
Qed.

Lemma paths_two n p : In p (paths n 2) -> exists a b, p = [a; b].
Proof.
  intros H. assert (L := paths_length _ _ _ H). destruct p as [|a [|b [|c p]]]; try discriminate. eauto.
Qed.

Theorem C164_refuted : exists l st skel utts, loop_ok l /\ NoDup (params skel) /\ ~ In (pl_weights l) (params skel) /\
  let s := loop_init l st in
  good KDiag 1 l skel s /\ Forall (lutt_ok KDiag 1 l skel s) utts /\
  forall amax, exists s', loop_step amax 1 1 1 [pl_weights l] l skel utts s = Some s' /\
    loop_bound 1 1 l skel utts s' < loop_bound 1 1 l skel utts s.
Proof.
  assert (N : NoDup (params rx_skel)) by (constructor; [intros []|constructor]).
  assert (Np : ~ In (pl_weights rx_loop) (params rx_skel)) by (intros [H|[]]; discriminate).
  assert (F : Forall (lutt_ok KDiag 1 rx_loop rx_skel rx_s) [rx_utt]) by (constructor; [apply rx_utt_ok|constructor]).
  exists rx_loop, rx_st, rx_skel, [rx_utt]. split; [apply rx_loop_ok|]. split; [exact N|]. split; [exact Np|].
  cbv zeta. fold rx_s. split; [apply rx_good|]. split; [exact F|]. intros amax.
  set (s' := nls amax 1 rx_loop rx_skel 1 1 [0%nat] [rx_utt] rx_s).
  assert (E : loop_step amax 1 1 1 [0%nat] rx_loop rx_skel [rx_utt] rx_s = Some s').
  { apply (step_eq amax KDiag 1 1 rx_loop rx_skel N rx_loop_ok); [apply rx_good|exact F]. }
  exists s'. split; [exact E|].
  assert (H1 : 0 <= 1 <= 1) by lra. assert (H0 : 0 <= 1) by lra.
  destruct (C164_weights_update amax KDiag 1 1 1 1 [0%nat] rx_loop rx_skel [rx_utt] rx_s s' H0 H0 H1 N Np rx_loop_ok rx_good F E)
    as (p & q & q' & E1 & E2 & Lq & _ & Eq).
  change (ls_pars rx_s (pl_weights rx_loop)) with [CWeights [1; 1] [1; 1]] in E1. injection E1 as <- <-.
  specialize (Eq (or_introl eq_refl)). change (length (pl_starts rx_loop)) with 2%nat in *.
  set (u := lu_utt rx_loop (ls_trans rx_s) rx_utt).
  set (fr := frames 1 (utt_ems rx_skel (ls_pars rx_s) u) (u_stats u)).
  assert (Hev : 0 < evidence (u_graph u) fr) by (apply (good_evidence KDiag 1 1 rx_loop rx_skel rx_s rx_utt rx_good rx_utt_ok)).
  assert (Hone : one_initial (u_graph u) 0).
  { intros i Hi. cbn. destruct (Nat.eqb_spec i 0); [contradiction|reflexivity]. }
  assert (Ex : forall a, expect (u_graph u) fr (phone_starts [1; 3]%nat a) = if Nat.eqb 0 a then 1 else 0).
  { intros a. rewrite <- (expect_first (u_graph u) 0 fr a Hone Hev). unfold expect. apply sumf_ext. intros p Hp.
    destruct (Nat.eq_dec (nth 0 p 0%nat) 0) as [E0|E0].
    - f_equal. unfold phone_starts. rewrite (sumf_zero _ (seq 0 _)); [ring|]. intros t Ht. apply in_seq in Ht.
      destruct (paths_two _ _ Hp) as (b & c & ->). cbn [nth length pred] in *. subst b.
      replace t with 0%nat by lia. reflexivity.
    - rewrite (path_prob_first _ 0%nat) by auto. unfold Rdiv. ring. }
  assert (Q : q' = [2; 1]).
  { destruct q' as [|a [|b [|c q']]]; try discriminate.
    assert (A := Eq 0%nat ltac:(lia)). assert (B := Eq 1%nat ltac:(lia)).
    cbn [rx_utt lu_ali] in A, B. rewrite sumf_cons, sumf_nil in A, B. cbv zeta in A, B.
    change {| lu_ali := None; lu_stats := map nd_suff_stats [[0]; [1]] |} with rx_utt in A, B. fold u in A, B. fold fr in A, B.
    change (pl_ends rx_loop) with [1; 3]%nat in A, B. rewrite Ex in A, B. cbn in A, B. f_equal; [lra|]. f_equal. lra. }
  assert (P1 : ls_pars s' 1%nat = rx_st 1%nat) by reflexivity.
  assert (Eb : loglik 1 rx_skel (ls_pars s') (u_graph (lu_utt rx_loop (ls_trans s') rx_utt)) (lu_utt rx_loop (ls_trans s') rx_utt) =
               loglik 1 rx_skel (ls_pars rx_s) (u_graph u) u).
  { unfold loglik. f_equal.
    change (utt_ems rx_skel (ls_pars s') (lu_utt rx_loop (ls_trans s') rx_utt)) with (utt_ems rx_skel (ls_pars rx_s) u).
    change (u_stats (lu_utt rx_loop (ls_trans s') rx_utt)) with (u_stats u). fold fr.
    destruct (nls_tuned amax KDiag 1 1 rx_loop rx_skel N rx_loop_ok 1 1 [0%nat] [rx_utt] rx_s H0 H1 rx_good F) as [_ Ho]. fold s' in Ho.
    unfold evidence. change (cg_n (u_graph (lu_utt rx_loop (ls_trans s') rx_utt))) with (cg_n (u_graph u)). apply sumf_ext.
    intros p Hp. change (length fr) with 2%nat in Hp.
    destruct (paths_two _ _ Hp) as (a & b & ->). destruct (Nat.eq_dec a 0) as [->|Na].
    - unfold fr. cbn [u lu_utt rx_utt lu_ali u_stats lu_stats frames map path_prob tail_prob u_graph with_trans cg_init cg_trans cg_final].
      rewrite Ho; [reflexivity|]. change (~ (In 0%nat [1; 3]%nat /\ In b [0; 2]%nat)). simpl. lia.
    - rewrite !(path_prob_first _ 0%nat); auto. }
  unfold loop_bound. rewrite !sumf_cons, !sumf_nil. cbv zeta. fold u. rewrite Eb.
  unfold loop_kl. rewrite E2. change (ls_pars rx_s (pl_weights rx_loop)) with [CWeights [1; 1] [1; 1]].
  assert (Et : total_kl rx_skel (ls_pars s') = total_kl rx_skel (ls_pars rx_s)) by reflexivity.
  rewrite Et, !sumf_cons, !sumf_nil, Q. cbn [cell_kl].
  assert (D2 : dir_ok 2 [1; 1]).
  { split; [reflexivity|]. split; [lia|]. constructor; [lra|]. constructor; [lra|constructor]. }
  rewrite (proj2 (C40_dirichlet 2 [1; 1] [1; 1] D2 D2)).
  assert (KL : dir_kl [2; 1] [1; 1] = ln 2 - 1 / 2).
  { rewrite dir_kl_dkl by (discriminate || reflexivity). unfold dkl. simpl.
    replace (2 + (1 + 0)) with (1 + 1 + 1) by lra. replace (1 + (1 + 0)) with (1 + 1) by lra.
    replace 2 with (1 + 1) by lra. rewrite !lgamma_rec, !digamma_rec, !lgamma_1, ln_1 by lra. field. }
  rewrite KL. assert (X := exp_ineq1 (- (1 / 2)) ltac:(lra)).
  assert (1 / 2 < ln 2); [|lra]. apply Ropp_lt_cancel. rewrite <- ln_Rinv by lra. rewrite <- (ln_exp (- (1 / 2))). apply ln_increasing; lra.
Qed.

Example C164_ex : one_initial (pl_graph rx_loop) 0 /\
  forall amax, exists s', loop_train amax 1 1 [(1, [0%nat]); (1 / 2, [0; 1]%nat)] rx_loop rx_skel [rx_utt] rx_s = Some s' /\
    drawn_bound 1 1 rx_loop rx_skel [rx_utt] rx_s <= drawn_bound 1 1 rx_loop rx_skel [rx_utt] s'.
Proof.
  assert (H : one_initial (pl_graph rx_loop) 0).
  { intros i Hi. cbn. destruct (Nat.eqb_spec i 0); [contradiction|reflexivity]. }
  split; [exact H|]. intros amax.
  destruct (C164_one_first_phone_training_partial amax KDiag 1 1 1 [(1, [0%nat]); (1 / 2, [0; 1]%nat)] rx_loop rx_skel [rx_utt] rx_s 0)
    as (s' & E & _ & _ & B).
  - lra.
  - lra.
  - constructor; [cbn; lra|]. constructor; [cbn; lra|constructor].
  - constructor; [intros []|constructor].
  - intros [A|[]]; discriminate.
  - apply rx_loop_ok.
  - exact H.
  - apply rx_good.
  - constructor; [apply rx_utt_ok|constructor].
  - exists s'. split; [exact E|exact B].
Qed.

Print Assumptions C164_step_partial.
Print Assumptions C164_weights_update.
Print Assumptions C164_unchanged_first_training_partial.
Print Assumptions C164_one_first_phone_training_partial.
Print Assumptions C164_creation.
Print Assumptions C164_refuted.
