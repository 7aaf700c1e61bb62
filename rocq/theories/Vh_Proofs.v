(** Proofs for Vh_Props.v *)
From Coq Require Import Reals List Arith Bool Lia Lra.
From Verif Require Import Prelude Vec Lgamma FB_Model FB_Spec FB_Proofs FB_Viterbi FB_Props Edit_Model Dec_Model Set_Model Set_Spec Set_Proofs Set_Index
  HMM_Model HMM_Spec HMM_Proofs HMM_Props Dist_Model Dist_Spec Dist_Proofs NG_Proofs KL_Proofs Dist_Props Mat NW_Model NW_Spec NW_Proofs NW_KL NW_Props
  Vt_Model Vt_Spec Vt_Proofs Vt_Props Vh_Model Vh_Spec.
Import ListNotations.
Local Open Scope R_scope.

(** ** One step, for any statistics that come from weighted data *)
Section Cells.
  Variables (k : kind) (D : nat) (skel : mset) (st : state) (Ds : list sdict) (w lrate : R) (group : list nat)
    (tot : nat * nat -> nat -> R).
  Hypothesis Hnd : NoDup (params skel).
  Hypothesis T : typed k D st skel.
  Hypothesis Hl : 0 <= lrate <= 1.
  Hypothesis Hdata : forall q, In q (allcells st (params skel)) ->
    length (Vt_Model.total w (length (form st q)) (fst q) (snd q) Ds) = length (form st q) /\
    (forall i, (i < length (form st q))%nat -> nth i (Vt_Model.total w (length (form st q)) (fst q) (snd q) Ds) 0 = tot q i) /\
    exists data, Forall (fun gx => 0 <= fst gx /\ fits D (cell_at st q) (snd gx)) data /\
      forall i, (i < length (form st q))%nat ->
        tot q i = sumf (fun gx => fst gx * nth i (cell_fn (cell_at st q) (snd gx)) 0) data.
  Let st' := apply_step w lrate group Ds st.

  Lemma g_cell_step q : In q (allcells st (params skel)) ->
    let c := cell_at st q in let c' := cell_at st' q in
    (leaf_cell k D c -> leaf_cell k D c') /\ (forall n, weights_cell n c -> weights_cell n c') /\
    cell_kl c' - cell_kl c <=
    sumf (fun i => tot q i * (nth i (form st' q) 0 - nth i (form st q) 0)) (seq 0 (length (form st q))).
  Proof.
    intros Hq c c'. destruct q as [p i]. assert (Hq' := Hq). apply allcells_in in Hq'. destruct Hq' as [Hp Hi].
    assert (Hst : length (st' p) = length (st p)).
    { unfold st', apply_step. destruct (existsb _ group); [|reflexivity]. rewrite map2_length, seq_length. lia. }
    assert (Ef : form st (p, i) = cell_form c) by (unfold form; cbn [fst snd]; now rewrite forms_nth).
    assert (Ef' : form st' (p, i) = cell_form c') by (unfold form; cbn [fst snd]; rewrite forms_nth by lia; reflexivity).
    destruct (Hdata (p, i) Hq) as (L1 & E1 & data & F & G).
    assert (E2 : Vt_Model.total w (length (form st (p, i))) p i Ds = wstats (length (form st (p, i))) (cell_fn c) data).
    { assert (HL : forall gx, In gx data -> length (cell_fn (cell_at st (p, i)) (snd gx)) = length (form st (p, i))).
      { intros gx Hin. apply (fits_length (fun _ _ => 0%nat) k D skel st (p, i)); auto. now apply (proj1 (Forall_forall _ _) F gx Hin). }
      cbn [fst snd] in L1, E1. apply nth_ext with (d := 0) (d' := 0); [rewrite L1, wstats_length; auto|].
      intros a Ha. rewrite L1 in Ha. rewrite E1, G, wstats_nth by auto. reflexivity. }
    destruct (existsb (Nat.eqb p) group) eqn:Eg.
    - set (stats := Vt_Model.total w (length (form st (p, i))) p i Ds) in *.
      assert (Ec : c' = cell_update lrate stats c).
      { unfold c', cell_at, st', apply_step. cbn [fst snd]. rewrite Eg.
        rewrite (map2_nth _ _ _ _ 0%nat dc) by (rewrite ?seq_length; auto). rewrite seq_nth by auto.
        unfold stats. rewrite Ef. reflexivity. }
      cbn [fst snd] in E1, L1. fold stats in E1, L1. rewrite Ef in E2.
      assert (Hin : length (cell_form c') = length (cell_form c) ->
         dot stats (cell_form c) - cell_kl c <= dot stats (cell_form c') - cell_kl c' ->
         cell_kl c' - cell_kl c <= sumf (fun i0 => tot (p, i) i0 *
           (nth i0 (form st' (p, i)) 0 - nth i0 (form st (p, i)) 0)) (seq 0 (length (form st (p, i))))).
      { intros Hlen Hb.
        rewrite (sumf_ext _ (fun a => nth a stats 0 * (nth a (form st' (p, i)) 0 - nth a (form st (p, i)) 0))).
        2:{ intros a Ha. apply in_seq in Ha. rewrite E1 by lia. reflexivity. }
        rewrite <- dot_diff by (rewrite L1, ?Ef', ?Ef, ?Hlen; reflexivity).
        rewrite Ef, Ef'. lra. }
      destruct (typed_cells k D st skel p i T Hp Hi) as [Lc|(n & Wc)].
      + change (nth i (st p) dc) with c in Lc.
        destruct (leaf_step k D lrate c data Lc Hl F) as [A B]. cbv zeta in A, B. rewrite <- E2, <- Ec in A, B.
        split; [auto|]. split.
        { intros n Wc. destruct (weights_step n D lrate c data Wc Hl F) as [A' _]. cbv zeta in A'. rewrite <- E2, <- Ec in A'. exact A'. }
        apply Hin; auto. now rewrite !(leaf_form_length k D).
      + change (nth i (st p) dc) with c in Wc.
        destruct (weights_step n D lrate c data Wc Hl F) as [A B]. cbv zeta in A, B. rewrite <- E2, <- Ec in A, B.
        split.
        { intros Lc. destruct (leaf_step k D lrate c data Lc Hl F) as [A' _]. cbv zeta in A'. rewrite <- E2, <- Ec in A'. exact A'. }
        split.
        { intros n' Wc'. destruct (weights_step n' D lrate c data Wc' Hl F) as [A' _]. cbv zeta in A'. rewrite <- E2, <- Ec in A'. exact A'. }
        apply Hin; auto. now rewrite !(weights_form_length n).
    - assert (Ec : c' = c) by (unfold c', c, cell_at, st', apply_step; cbn [fst snd]; now rewrite Eg).
      rewrite Ec. split; [auto|]. split; [auto|].
      rewrite Ef, Ef', Ec. rewrite sumf_zero; [lra|]. intros; ring.
  Qed.

  Lemma g_typed : typed k D st' skel.
  Proof.
    apply (typed_keep k D st); auto. intros p Hp. split.
    - unfold st', apply_step. destruct (existsb _ group); [|reflexivity]. rewrite map2_length, seq_length. lia.
    - intros i Hi. destruct (g_cell_step (p, i)) as (A & B & _); [now apply allcells_in|].
      split; [exact A|exact B].
  Qed.

  Lemma g_bound F F' :
    sumf (fun q => sumf (fun i => tot q i * (nth i (form st' q) 0 - nth i (form st q) 0)) (seq 0 (length (form st q))))
      (allcells st (params skel)) <= F' - F ->
    F - total_kl skel st <= F' - total_kl skel st'.
  Proof.
    intros HF. set (Q := allcells st (params skel)) in *.
    assert (EQ : allcells st' (params skel) = Q).
    { unfold Q, allcells. rewrite !flat_map_concat_map. f_equal. apply map_ext. intros p. f_equal. f_equal.
      unfold st', apply_step. destruct (existsb _ group); [|reflexivity]. rewrite map2_length, seq_length. lia. }
    rewrite !total_kl_cells, EQ. fold Q.
    assert (K : sumf (fun q => cell_kl (cell_at st' q) - cell_kl (cell_at st q)) Q <=
      sumf (fun q => sumf (fun i => tot q i * (nth i (form st' q) 0 - nth i (form st q) 0)) (seq 0 (length (form st q)))) Q).
    { apply sumf_le. intros q Hq. now apply g_cell_step. }
    rewrite sumf_minus in K. lra.
  Qed.
End Cells.

(** ** Statistics collected on weighted paths *)
Definition path_ok (u : utt) (p : list nat) : Prop := In p (paths (cg_n (u_graph u)) (length (u_stats u))).

Section Paths.
  Variables (k : kind) (D : nat) (scale : R) (skel : mset).
  Hypothesis Hscale : 0 <= scale.
  Hypothesis Hnd : NoDup (params skel).

  Definition prow (st : state) (u : utt) (q : nat * nat) (i : nat) (p : list nat) : R :=
    scale * path_stats q i (utt_ems skel st u) (u_stats u) p.

  Definition drow (st : state) (u : utt) (d : list (R * list nat)) (q : nat * nat) (i : nat) : R :=
    sumf (fun ap : R * list nat => fst ap * prow st u q i (snd ap)) d.

  Lemma pdata_spec st u q p a : typed k D st skel -> utt_ok k D skel u -> path_ok u p -> 0 <= a ->
    exists data, Forall (fun gx => 0 <= fst gx /\ fits D (cell_at st q) (snd gx)) data /\
      forall i, (i < length (form st q))%nat ->
        a * prow st u q i p = sumf (fun gx => fst gx * nth i (cell_fn (cell_at st q) (snd gx)) 0) data.
  Proof.
    intros T U Hp Ha. assert (Es := utt_ems_einst k D skel st u T U).
    assert (Et := sk_ems_typed k D skel st u T U).
    destruct U as (Hne & (xs & Exs & Hxs) & Ho & Hn & _). unfold path_ok in Hp.
    set (g := u_graph u) in *. assert (Lx : length (u_stats u) = length xs) by (now rewrite Exs, map_length).
    assert (Lsk : length (sk_ems skel u) = cg_n g) by (unfold sk_ems; now rewrite map_length).
    exists (flat_map (fun t =>
        emdata q (nth t xs []) (suff k (nth t xs [])) (einst (forms st) (nth (nth t p 0%nat) (sk_ems skel u) e0))
          (a * scale)) (seq 0 (length xs))).
    split.
    - apply Forall_flat_map, Forall_forall. intros t Ht.
      apply in_seq in Ht. apply emdata_fits with (ps := params skel).
      + apply Forall_nth_in; auto. rewrite Lsk. eapply nth_path_lt; eauto. lia.
      + apply Forall_nth_in; auto. lia.
      + now apply Rmult_le_pos.
    - intros i Hi. rewrite sumf_flat_map. unfold prow, path_stats. rewrite Lx.
      rewrite <- !sumf_scal_l. apply sumf_ext. intros t Ht. apply in_seq in Ht.
      assert (Hj : (nth t p 0 < length (sk_ems skel u))%nat) by (rewrite Lsk; eapply nth_path_lt; eauto; lia).
      rewrite <- (emdata_acc k D st (params skel)); auto; [|now apply Forall_nth_in].
      rewrite Exs, (map_nth_lt _ _ _ []) by lia. rewrite Es, (map_nth_lt _ _ _ e0) by auto.
      rewrite (em_acc_scal _ _ _ _ (a * scale)). ring.
  Qed.

  Lemma ddata_spec st u q d w : typed k D st skel -> utt_ok k D skel u -> 0 <= w ->
    Forall (fun ap => 0 <= fst ap /\ path_ok u (snd ap)) d ->
    exists data, Forall (fun gx => 0 <= fst gx /\ fits D (cell_at st q) (snd gx)) data /\
      forall i, (i < length (form st q))%nat ->
        w * drow st u d q i = sumf (fun gx => fst gx * nth i (cell_fn (cell_at st q) (snd gx)) 0) data.
  Proof.
    intros T U Hw. induction 1 as [|[a p] d [Ha Hp] Hd IH].
    - exists []. split; [constructor|]. intros i _. unfold drow. rewrite !sumf_nil. ring.
    - destruct IH as (d1 & F1 & G1). cbn [fst snd] in Ha, Hp.
      destruct (pdata_spec st u q p (w * a) T U Hp ltac:(now apply Rmult_le_pos)) as (d2 & F2 & G2).
      exists (d2 ++ d1). split; [now apply Forall_app|]. intros i Hi.
      unfold drow. rewrite sumf_cons, sumf_app, Rmult_plus_distr_l, <- G1, <- G2 by auto. cbn [fst snd]. unfold drow. ring.
  Qed.

  (** along each path the log-likelihood grows at least linearly *)
  Lemma path_gain st st' u Q p : NoDup Q -> typed k D st skel -> typed k D st' skel -> utt_ok k D skel u ->
    (forall p i, In p (params skel) -> (i < length (st p))%nat -> In (p, i) Q) -> path_ok u p ->
    sumf (fun q => sumf (fun i => prow st u q i p * (nth i (form st' q) 0 - nth i (form st q) 0))
      (seq 0 (length (form st q)))) Q <=
    path_loglik scale (utt_ems skel st' u) (u_stats u) p - path_loglik scale (utt_ems skel st u) (u_stats u) p.
  Proof.
    intros HQ T T' U HIn Hp.
    assert (T1 := sk_ems_typed k D skel st u T U). assert (T2 := sk_ems_typed k D skel st' u T' U).
    unfold prow. rewrite (utt_ems_einst k D skel st u T U), (utt_ems_einst k D skel st' u T' U).
    destruct U as (Hne & (xs & Exs & Hxs) & Ho & Hn & _).
    set (es0 := sk_ems skel u) in *. set (stats := u_stats u) in *. set (g := u_graph u) in *. unfold path_ok in Hp. fold g stats in Hp.
    set (es := map (einst (forms st)) es0). set (es' := map (einst (forms st')) es0).
    assert (Hl : length es0 = cg_n g) by (unfold es0, sk_ems; now rewrite map_length).
    assert (Hx : Forall (fun x => length x = suff_dim k D) stats).
    { rewrite Exs. apply Forall_map. eapply Forall_impl; [|exact Hxs]. intros x Hx. now apply suff_length. }
    set (T0 := length stats) in *. unfold path_loglik. rewrite <- sumf_minus. fold T0.
    eapply Rle_trans; [|apply (sumf_le (fun t => scale * gain (nth t stats []) st st' (nth (nth t p 0%nat) es0 e0)))].
    - apply Req_le.
      rewrite (sumf_ext _ (fun t => scale * lin_gain Q st st' (nth t stats []) (nth (nth t p 0%nat) es0 e0) 1) (seq 0 T0)).
      2:{ intros t Ht. apply in_seq in Ht. f_equal.
          assert (Hj : (nth t p 0 < length es0)%nat) by (rewrite Hl; eapply nth_path_lt; eauto; lia).
          rewrite <- (gain_acc k D _ st st' (params skel) Q); auto; [ring| | |].
          - now apply Forall_nth_in.
          - now apply Forall_nth_in.
          - apply (Forall_nth_in _ stats t [] Hx). fold T0. lia. }
      unfold lin_gain. rewrite sumf_scal_l. rewrite sumf_swap, <- sumf_scal_l. apply sumf_ext. intros q _.
      rewrite sumf_swap, <- sumf_scal_l. apply sumf_ext. intros i _. unfold path_stats. fold T0.
      rewrite Rmult_assoc. f_equal. rewrite <- sumf_scal_r. apply sumf_ext. intros t Ht. apply in_seq in Ht. f_equal. f_equal.
      unfold es. apply map_nth_lt. rewrite Hl. eapply nth_path_lt; eauto; lia.
    - intros t Ht. apply in_seq in Ht.
      assert (Hj : (nth t p 0 < length es0)%nat) by (rewrite Hl; eapply nth_path_lt; eauto; lia).
      unfold es, es'. rewrite !(map_nth_lt _ _ _ e0) by auto. rewrite <- Rmult_minus_distr_l.
      apply Rmult_le_compat_l; auto. apply (gain_le k D _ st st' (params skel)); now apply Forall_nth_in.
  Qed.

  Lemma dist_gain st st' u Q d : NoDup Q -> typed k D st skel -> typed k D st' skel -> utt_ok k D skel u ->
    (forall p i, In p (params skel) -> (i < length (st p))%nat -> In (p, i) Q) ->
    Forall (fun ap => 0 <= fst ap /\ path_ok u (snd ap)) d ->
    sumf (fun q => sumf (fun i => drow st u d q i * (nth i (form st' q) 0 - nth i (form st q) 0))
      (seq 0 (length (form st q)))) Q <=
    sumf (fun ap : R * list nat => fst ap * (path_loglik scale (utt_ems skel st' u) (u_stats u) (snd ap)
                                             - path_loglik scale (utt_ems skel st u) (u_stats u) (snd ap))) d.
  Proof.
    intros HQ T T' U HIn. induction 1 as [|[a p] d [Ha Hp] Hd IH].
    - rewrite sumf_nil. unfold drow. apply Req_le, sumf_zero. intros q _. apply sumf_zero. intros i _. rewrite sumf_nil. ring.
    - cbn [fst snd] in Ha, Hp. rewrite sumf_cons. cbn [fst snd].
      assert (G := path_gain st st' u Q p HQ T T' U HIn Hp). apply (Rmult_le_compat_l a) in G; [|exact Ha].
      eapply Rle_trans; [|apply Rplus_le_compat; [exact G|exact IH]]. apply Req_le.
      rewrite <- sumf_scal_l, <- sumf_plus. apply sumf_ext. intros q _. rewrite <- sumf_scal_l, <- sumf_plus. apply sumf_ext.
      intros i _. unfold drow. rewrite sumf_cons. cbn [fst snd]. ring.
  Qed.
End Paths.

(** ** The statistics of an utterance *)
Definition unit_list (n s : nat) : list R := map (fun j => if Nat.eqb j s then 1 else 0) (seq 0 n).

Lemma nums_unit n s : nums n (unit_num s) = Some (unit_list n s).
Proof.
  apply nums_spec. intros j Hj. reflexivity.
Qed.

Lemma hard_acc_total q i es stats scale n path : length es = n -> length path = length stats ->
  Forall (fun s => (s < n)%nat) path ->
  acc_total q i es stats (map (vscale scale) (map (unit_list n) path)) = scale * path_stats q i es stats path.
Proof.
  intros Le Lp Hp. unfold acc_total. rewrite (rsum_map2_index _ _ _ [] []) by (now rewrite !map_length).
  unfold path_stats. rewrite <- sumf_scal_l. apply sumf_ext. intros t Ht. apply in_seq in Ht.
  rewrite map_map, (map_nth_lt _ _ _ 0%nat) by lia. set (s := nth t path 0%nat).
  assert (Hs : (s < n)%nat) by (apply (Forall_nth_in _ path t 0%nat Hp); lia).
  rewrite (rsum_map2_index _ _ _ e0 0) by (rewrite vscale_length; unfold unit_list; now rewrite map_length, seq_length).
  rewrite (sumf_ext _ (fun j => if Nat.eqb j s then scale * em_acc q (nth t stats []) i (nth s es e0) 1 else 0)).
  - rewrite Le. rewrite (sumf_seq_single _ n s) by (auto; intros j _ Hj; apply Nat.eqb_neq in Hj; now rewrite Hj).
    now rewrite Nat.eqb_refl.
  - intros j Hj. apply in_seq in Hj. rewrite em_acc_scal, vscale_nth. unfold unit_list.
    rewrite (map_nth_lt _ _ _ 0%nat), seq_nth by (rewrite ?seq_length; lia). cbn [Nat.add].
    destruct (Nat.eqb_spec j s) as [->|]; ring.
Qed.

(** An inference that gives one path *)
Lemma hard_inference amax g llhs mode own path :
  (mode = Aligned path \/ mode = Viterbi /\ best_path amax g (as_rows llhs) = Ok path) ->
  length path = length llhs -> Forall (fun s => (s < cg_n g)%nat /\ (s < length llhs)%nat) path ->
  inference amax g llhs mode own = Ok (map unit_num path, if own then Some (hard_trans path) else None).
Proof.
  intros Hm Hl Hs.
  assert (E1 : existsb (fun s => (cg_n g <=? s)%nat) path = false).
  { apply not_true_is_false. intros E. apply existsb_exists in E. destruct E as (s & Hi & E).
    apply Nat.leb_le in E. destruct (proj1 (Forall_forall _ _) Hs s Hi). lia. }
  assert (E2 : existsb (fun s => (length llhs <=? s)%nat) path = false).
  { apply not_true_is_false. intros E. apply existsb_exists in E. destruct E as (s & Hi & E).
    apply Nat.leb_le in E. destruct (proj1 (Forall_forall _ _) Hs s Hi). lia. }
  unfold inference. destruct Hm as [->|[-> E]].
  - now rewrite E1, E2, Hl, Nat.eqb_refl.
  - rewrite E. cbn [bindr]. now rewrite E1, E2, Hl, Nat.eqb_refl.
Qed.

Section Utt.
  Variables (amax : nat -> (nat -> lp) -> nat) (k : kind) (D : nat) (scale : R) (skel : mset).
  Hypothesis Hmax : is_argmax amax.
  Hypothesis Hscale : 0 <= scale.
  Hypothesis Hnd : NoDup (params skel).

  (** The path of a hard inference *)
  Lemma hard_path st u mode : typed k D st skel -> hutt_ok k D skel (u, mode) -> mode <> Soft ->
    let ls := frames scale (utt_ems skel st u) (u_stats u) in
    exists path, collected scale skel st (u, mode) [(1, path)] /\ path_ok u path /\
      Forall (fun s => (s < cg_n (u_graph u))%nat /\ (s < length (u_stats u))%nat) path /\ length path = length (u_stats u) /\
      (mode = Aligned path \/ mode = Viterbi /\ best_path amax (u_graph u) ls = Ok path /\
         forall p, path_ok u p -> path_prob (u_graph u) ls p <= path_prob (u_graph u) ls path).
  Proof.
    intros T (U & M) Hns ls. destruct U as (Hne & _ & _ & _ & p0 & Hp0 & _).
    assert (Lls : length ls = length (u_stats u)) by apply frames_length.
    destruct mode as [| |path]; [congruence| |].
    - assert (Hn0 : (0 < cg_n (u_graph u))%nat).
      { apply paths_in in Hp0. destruct Hp0 as [L0 F0]. destruct p0 as [|s p0].
        - destruct (u_stats u); [congruence|discriminate].
        - inversion F0; subst. lia. }
      destruct (C10_best_path_optimal amax (u_graph u) ls Hmax Hn0) as (b & E & Lb & Fb & Ob).
      { intros E. rewrite E in Lls. destruct (u_stats u); [congruence|discriminate]. }
      rewrite Lls in Lb.
      assert (Pb : path_ok u b) by (apply paths_in; auto).
      assert (Best : forall p, path_ok u p -> path_prob (u_graph u) ls p <= path_prob (u_graph u) ls b).
      { intros p Hp. apply paths_in in Hp. destruct Hp as [L1 F1]. rewrite <- !ex_path_score.
        apply lp_le_ex. apply Ob; auto. congruence. }
      exists b. split; [now constructor|]. split; [exact Pb|]. split.
      { eapply Forall_impl; [|exact Fb]. cbv beta. intros s Hs. lia. }
      split; [exact Lb|]. right. auto.
    - destruct M as [L1 F1]. exists path. split; [constructor|]. split.
      { apply paths_in. split; [exact L1|]. eapply Forall_impl; [|exact F1]. cbv beta. tauto. }
      split; [exact F1|]. split; [exact L1|]. now left.
  Qed.

  Lemma hard_run st u mode path : typed k D st skel -> utt_ok k D skel u ->
    (mode = Aligned path \/ mode = Viterbi /\ best_path amax (u_graph u) (frames scale (utt_ems skel st u) (u_stats u)) = Ok path) ->
    Forall (fun s => (s < cg_n (u_graph u))%nat /\ (s < length (u_stats u))%nat) path -> length path = length (u_stats u) ->
    hmm_ellh amax (inst (forms st) skel) (u_graph u) (u_order u) (u_own u) mode scale (u_stats u) =
    Ok (map2 (frame_value (cg_n (u_graph u))) (map (fun x => map (fun e => scale * em_llh x e) (utt_ems skel st u)) (u_stats u)) (map unit_num path),
        {| c_resps := map unit_num path; c_trans := if u_own u then Some (hard_trans path) else None; c_scale := scale |}).
  Proof.
    intros T U Hm Hf Hl. destruct U as (Hne & _ & Ho & Hn & _).
    assert (Hw : wf (inst (forms st) skel)) by (now apply (inst_wf k D)).
    unfold hmm_ellh. rewrite pc_llhs_reorder by (auto; intros o Hin; rewrite (inst_size k D); auto).
    change (reorder (denote (inst (forms st) skel)) (u_order u)) with (utt_ems skel st u). cbn [bindr].
    rewrite (hard_inference amax _ _ mode (u_own u) path).
    - reflexivity.
    - destruct Hm as [->|[-> E]]; [now left|]. right. split; [reflexivity|]. now rewrite as_rows_frames.
    - now rewrite map_length.
    - now rewrite map_length.
  Qed.

  Lemma hutt_rows st u mode : typed k D st skel -> hutt_ok k D skel (u, mode) ->
    exists Dc d, hutt_acc amax scale (inst (forms st) skel) (u, mode) = Some Dc /\
      collected scale skel st (u, mode) d /\ Forall (fun ap => 0 <= fst ap /\ path_ok u (snd ap)) d /\
      forall q, In q (allcells st (params skel)) ->
        length (row_of (fst q) (snd q) Dc) = length (form st q) /\
        forall i, (i < length (form st q))%nat -> nth i (row_of (fst q) (snd q) Dc) 0 = drow scale skel st u d q i.
  Proof.
    intros T HU. assert (Hm : mode = Soft \/ mode <> Soft) by (destruct mode; [now left|right; discriminate..]).
    destruct Hm as [->|Hns].
    - destruct HU as (U & _). destruct (utt_rows amax k D scale skel Hnd st u T U) as (E & Rw).
      assert (Hev := utt_evidence k D scale skel st u T U).
      exists (acc_of amax scale skel st u). eexists. split; [exact E|]. split; [constructor|]. split.
      + apply Forall_map, Forall_forall. intros p Hp. cbn [fst snd]. split; [|exact Hp].
        apply Rmult_le_pos; [apply path_prob_nonneg|]. left. now apply Rinv_0_lt_compat.
      + intros q Hq. destruct (Rw q Hq) as [R1 R2]. split; [exact R1|]. intros i Hi. rewrite R2 by auto.
        unfold urow, drow, expect, prow. rewrite sumf_map, frames_length, <- sumf_scal_l. apply sumf_ext. intros p _. cbn [fst snd]. ring.
    - destruct (hard_path st u mode T HU Hns) as (path & Hc & Hp & Hf & Hlp & Hmode). destruct HU as (U & _).
      assert (Hmode' : mode = Aligned path \/ mode = Viterbi /\ best_path amax (u_graph u) (frames scale (utt_ems skel st u) (u_stats u)) = Ok path) by tauto.
      assert (Er := hard_run st u mode path T U Hmode' Hf Hlp). destruct U as (Hne & (xs & Exs & Hxs) & Ho & Hn & _).
      assert (Hw : wf (inst (forms st) skel)) by (now apply (inst_wf k D)).
      set (m := inst (forms st) skel) in *.
      exists (dyn_accumulate m (u_order u) (u_stats u) (map (vscale scale) (map (unit_list (cg_n (u_graph u))) path))), [(1, path)].
      split; [|split; [exact Hc|split]].
      + unfold hutt_acc. rewrite Er. unfold hmm_accumulate. cbn [c_resps c_scale]. rewrite map_map.
        rewrite (map_ext (fun x => nums _ (unit_num x)) (fun x => Some (unit_list (cg_n (u_graph u)) x))) by (intros; apply nums_unit).
        now rewrite all_some_map.
      + constructor; [|constructor]. cbn [fst snd]. split; [lra|exact Hp].
      + intros [p r] Hq. apply allcells_in in Hq. destruct Hq as [Hpp Hr]. cbn [fst snd].
        destruct (proj2 (shape_params m p)) as ([rows cols] & Esh).
        { unfold m. now rewrite inst_params. }
        destruct (inst_shape k D st skel p rows cols T Esh) as [-> Hcol].
        edestruct (dyn_accumulate_denote m (suff_dim k D) (u_order u) (u_stats u)
          (map (vscale scale) (map (unit_list (cg_n (u_graph u))) path)) p (length (st p)) cols)
          as (M & HM & H1 & H2); auto.
        * unfold m. now rewrite inst_params.
        * unfold m. now apply inst_accepts.
        * intros o Hin. unfold m. rewrite (inst_size k D); auto.
        * rewrite Exs. apply Forall_map. eapply Forall_impl; [|exact Hxs]. intros x Hx. now apply suff_length.
        * now rewrite !map_length.
        * unfold row_of. rewrite HM. destruct (H2 r Hr) as [E4 E5].
          assert (Lf : length (form st (p, r)) = cols).
          { unfold form. cbn [fst snd]. rewrite forms_nth by auto. auto. }
          rewrite Lf. split; [exact E4|]. intros i Hi. rewrite E5 by auto.
          rewrite (hard_acc_total _ _ _ _ _ (cg_n (u_graph u))).
          -- unfold drow. rewrite sumf_cons, sumf_nil. cbn [fst snd]. unfold prow. change (reorder (denote m) (u_order u)) with (utt_ems skel st u). ring.
          -- unfold reorder. now rewrite map_length.
          -- exact Hlp.
          -- eapply Forall_impl; [|exact Hf]. cbv beta. tauto.
  Qed.

  (** The score of an utterance grows at least as much as along the paths. *)
  Lemma largest_in {A} (f : A -> R) l a : In a l -> f a <= largest f l.
  Proof.
    induction l as [|b l IH]; [intros []|]. intros [->|H]; cbn [largest fold_right]; [apply Rmax_l|].
    eapply Rle_trans; [now apply IH|]. apply Rmax_r.
  Qed.

  Lemma largest_is {A} (f : A -> R) l a : In a l -> 0 <= f a -> (forall b, In b l -> f b <= f a) -> largest f l = f a.
  Proof.
    intros Ha H0 H. apply Rle_antisym; [|now apply largest_in]. clear Ha. induction l as [|b l IH]; [exact H0|].
    cbn [largest fold_right]. apply Rmax_lub; [apply H; now left|]. apply IH. intros c Hc. apply H. now right.
  Qed.

  Lemma score_gain st st' u mode d : typed k D st skel -> typed k D st' skel -> hutt_ok k D skel (u, mode) ->
    collected scale skel st (u, mode) d ->
    sumf (fun ap : R * list nat => fst ap * (path_loglik scale (utt_ems skel st' u) (u_stats u) (snd ap)
                                             - path_loglik scale (utt_ems skel st u) (u_stats u) (snd ap))) d
    <= utt_score scale skel st' (u, mode) - utt_score scale skel st (u, mode).
  Proof.
    intros T T' HU C. assert (U := proj1 HU).
    assert (P1 := utt_evidence k D scale skel st u T U). assert (P2 := utt_evidence k D scale skel st' u T' U).
    set (es := utt_ems skel st u) in *. set (es' := utt_ems skel st' u) in *. set (g := u_graph u) in *. set (stats := u_stats u) in *.
    set (L := path_loglik scale es stats). set (L' := path_loglik scale es' stats).
    assert (Le : length es = cg_n g) by (unfold es, utt_ems; rewrite map_length; apply U).
    assert (Le' : length es' = cg_n g) by (unfold es', utt_ems; rewrite map_length; apply U).
    assert (Fp : forall p, path_ok u p -> path_prob g (frames scale es stats) p = prior_prob g (length stats) p * exp (L p))
      by (intros p Hp; now apply path_prob_frames).
    assert (Fp' : forall p, path_ok u p -> path_prob g (frames scale es' stats) p = prior_prob g (length stats) p * exp (L' p))
      by (intros p Hp; now apply path_prob_frames).
    set (pr := prior_prob g (length stats)) in *.
    inversion C as [u0 ls E1 E2|u0 p ls Hin Hbest E1 E2|u0 p E1 E2]; subst; cbn [utt_score]; fold g stats es es'.
    - clear C. rewrite sumf_map. cbn [fst snd]. unfold ls. fold g stats es. set (ps0 := paths (cg_n g) (length stats)).
      set (Z := evidence g (frames scale es stats)) in *. set (Z' := evidence g (frames scale es' stats)) in *.
      assert (EZ : Z = sumf (fun p => pr p * exp (L p)) ps0).
      { unfold Z, evidence. rewrite frames_length. apply sumf_ext. intros p Hp. now apply Fp. }
      assert (EZ' : Z' = sumf (fun p => pr p * exp (L' p)) ps0).
      { unfold Z', evidence. rewrite frames_length. apply sumf_ext. intros p Hp. now apply Fp'. }
      assert (Hpr : forall p, 0 <= pr p) by (intros; apply path_prob_nonneg).
      assert (Hw : forall p, 0 <= pr p * exp (L p) / Z).
      { intros p. apply Rmult_le_pos; [apply Rmult_le_pos; [apply Hpr|left; apply exp_pos]|left; now apply Rinv_0_lt_compat]. }
      assert (J := jensen ps0 (fun p => pr p * exp (L p) / Z) (fun p => L' p - L p)). cbv beta in J.
      assert (E1 : sumf (fun p => pr p * exp (L p) / Z) ps0 = 1).
      { unfold Rdiv. rewrite sumf_scal_r, <- EZ. field. lra. }
      assert (E2 : sumf (fun p => pr p * exp (L p) / Z * exp (L' p - L p)) ps0 = Z' * / Z).
      { rewrite EZ', <- sumf_scal_r. apply sumf_ext. intros p _. unfold Rdiv.
        replace (exp (L' p)) with (exp (L p) * exp (L' p - L p)) by (rewrite <- exp_plus; f_equal; ring). ring. }
      rewrite E2, ln_mult, ln_Rinv in J; auto using Rinv_0_lt_compat.
      eapply Rle_trans; [|apply J; auto]. apply Req_le, sumf_ext. intros p Hp. unfold L, L'.
      rewrite (Fp p Hp). reflexivity.
    - rewrite sumf_cons, sumf_nil. cbn [fst snd]. unfold ls in Hbest. fold g stats es in Hin, Hbest. fold L L'.
      assert (Hpos : 0 < path_prob g (frames scale es stats) p).
      { destruct (Rle_lt_dec (path_prob g (frames scale es stats) p) 0) as [N|]; [|auto]. exfalso.
        assert (Z : evidence g (frames scale es stats) <= 0); [|lra]. unfold evidence. rewrite frames_length.
        rewrite <- (sumf_zero (fun _ : list nat => 0) (paths (cg_n g) (length stats))) by auto. apply sumf_le.
        intros p' Hp'. eapply Rle_trans; [now apply Hbest|exact N]. }
      rewrite (largest_is _ _ p Hin (Rlt_le _ _ Hpos) Hbest).
      assert (Hpr : 0 < pr p).
      { rewrite Fp in Hpos by exact Hin. assert (X := exp_pos (L p)). assert (Y := path_prob_nonneg g (repeat (fun _ => Fin 0) (length stats)) p).
        change (0 <= pr p) in Y. destruct Y as [Y|Y]; [exact Y|]. rewrite <- Y in Hpos. lra. }
      assert (Hm := largest_in (path_prob g (frames scale es' stats)) _ p Hin).
      assert (Hpos' : 0 < path_prob g (frames scale es' stats) p).
      { rewrite Fp' by exact Hin. apply Rmult_lt_0_compat; [exact Hpr|apply exp_pos]. }
      assert (Hln := ln_mono _ _ Hpos' Hm). rewrite Fp' in Hln by exact Hin. rewrite Fp by exact Hin.
      rewrite ln_mult, ln_exp in Hln by (auto using exp_pos). rewrite ln_mult, ln_exp by (auto using exp_pos). lra.
    - rewrite sumf_cons, sumf_nil. cbn [fst snd]. fold L L'. lra.
  Qed.

  (** ** One step *)
  Definition used (st : state) (z : (utt * infer) * sdict * list (R * list nat)) : Prop :=
    let um := fst (fst z) in let Dc := snd (fst z) in let d := snd z in
    hutt_ok k D skel um /\ collected scale skel st um d /\
    Forall (fun ap => 0 <= fst ap /\ path_ok (fst um) (snd ap)) d /\
    forall q, In q (allcells st (params skel)) ->
      length (row_of (fst q) (snd q) Dc) = length (form st q) /\
      forall i, (i < length (form st q))%nat -> nth i (row_of (fst q) (snd q) Dc) 0 = drow scale skel st (fst um) d q i.

  Lemma all_rows st utts : typed k D st skel -> Forall (hutt_ok k D skel) utts ->
    exists zs, utts = map (fun z => fst (fst z)) zs /\
      all_some (map (hutt_acc amax scale (inst (forms st) skel)) utts) = Some (map (fun z => snd (fst z)) zs) /\
      Forall (used st) zs.
  Proof.
    intros T. induction 1 as [|[u mode] t HU Ht (zs & -> & E & F)].
    - exists []. repeat split. constructor.
    - destruct (hutt_rows st u mode T HU) as (D1 & d1 & E1 & C1 & F1 & G1).
      exists (((u, mode), D1, d1) :: zs). cbn [map fst snd all_some]. rewrite E1, E. split; [reflexivity|]. split; [reflexivity|].
      constructor; [|exact F]. unfold used. cbn [fst snd]. auto.
  Qed.

  Definition tot_of (w : R) (st : state) (zs : list ((utt * infer) * sdict * list (R * list nat))) (q : nat * nat) (i : nat) : R :=
    w * sumf (fun z => drow scale skel st (fst (fst (fst z))) (snd z) q i) zs.

  Lemma all_data st zs w q : typed k D st skel -> 0 <= w -> Forall (used st) zs -> In q (allcells st (params skel)) ->
    let Ds := map (fun z => snd (fst z)) zs in
    length (Vt_Model.total w (length (form st q)) (fst q) (snd q) Ds) = length (form st q) /\
    (forall i, (i < length (form st q))%nat -> nth i (Vt_Model.total w (length (form st q)) (fst q) (snd q) Ds) 0 = tot_of w st zs q i) /\
    exists data, Forall (fun gx => 0 <= fst gx /\ fits D (cell_at st q) (snd gx)) data /\
      forall i, (i < length (form st q))%nat ->
        tot_of w st zs q i = sumf (fun gx => fst gx * nth i (cell_fn (cell_at st q) (snd gx)) 0) data.
  Proof.
    intros T Hw HU Hq Ds. set (n := length (form st q)).
    assert (Hrows : Forall (fun r => length r = n) (map (row_of (fst q) (snd q)) Ds)).
    { unfold Ds. rewrite map_map. apply Forall_map. eapply Forall_impl; [|exact HU]. intros z (_ & _ & _ & Rw). now apply Rw. }
    split; [|split].
    - unfold Vt_Model.total. rewrite vscale_length. now apply colsum_length.
    - intros i Hi. unfold Vt_Model.total, tot_of. rewrite vscale_nth, colsum_nth by auto. f_equal. unfold Ds. rewrite !sumf_map.
      apply sumf_ext. intros z Hz. destruct (proj1 (Forall_forall _ _) HU z Hz) as (_ & _ & _ & Rw). now apply Rw.
    - clear Hrows. unfold tot_of. induction HU as [|z zs U HU IH].
      + exists []. split; [constructor|]. intros i _. rewrite !sumf_nil. ring.
      + destruct IH as (d1 & F1 & G1). destruct z as [[[u mode] Dc] d]. destruct U as ((U & _) & _ & Fd & _). cbn [fst snd] in *.
        destruct (ddata_spec k D scale skel Hscale st u q d w T U Hw Fd) as (d2 & F2 & G2).
        exists (d2 ++ d1). split; [now apply Forall_app|]. intros i Hi.
        rewrite sumf_cons, sumf_app, Rmult_plus_distr_l, G1, <- G2 by auto. reflexivity.
  Qed.

  Lemma hstep st utts w lrate group : typed k D st skel -> Forall (hutt_ok k D skel) utts -> 0 <= w -> 0 <= lrate <= 1 ->
    exists zs, let st' := apply_step w lrate group (map (fun z => snd (fst z)) zs) st in
      utts = map (fun z => fst (fst z)) zs /\ Forall (used st) zs /\
      htrain_step amax scale w lrate group skel utts st = Some st' /\
      typed k D st' skel /\ hbound scale w skel utts st <= hbound scale w skel utts st'.
  Proof.
    intros T HU Hw Hl. destruct (all_rows st utts T HU) as (zs & Eu & E & F). exists zs. intros st'.
    split; [exact Eu|]. split; [exact F|]. split; [unfold htrain_step; now rewrite E|].
    assert (Hd := fun q Hq => all_data st zs w q T Hw F Hq). cbv zeta in Hd.
    assert (T' : typed k D st' skel) by (apply (g_typed k D skel st _ w lrate group (tot_of w st zs)); auto).
    split; [exact T'|]. unfold hbound.
    apply (g_bound k D skel st _ w lrate group (tot_of w st zs)); auto. fold st'.
    set (Q := allcells st (params skel)). rewrite <- Rmult_minus_distr_l, <- sumf_minus, Eu, sumf_map.
    assert (G : sumf (fun z => sumf (fun q => sumf (fun i => drow scale skel st (fst (fst (fst z))) (snd z) q i * (nth i (form st' q) 0 - nth i (form st q) 0))
        (seq 0 (length (form st q)))) Q) zs <=
      sumf (fun z => utt_score scale skel st' (fst (fst z)) - utt_score scale skel st (fst (fst z))) zs).
    { apply sumf_le. intros z Hz. destruct (proj1 (Forall_forall _ _) F z Hz) as (Hu & Hc & Fd & _).
      destruct z as [[[u mode] Dc] d]. cbn [fst snd] in *.
      eapply Rle_trans; [|now apply (score_gain st st' u mode d)].
      apply (dist_gain k D scale skel Hscale st st' u Q d); auto.
      - now apply allcells_nodup.
      - apply Hu.
      - intros p i Hp Hi. now apply allcells_in. }
    apply (Rmult_le_compat_l w) in G; [|exact Hw]. eapply Rle_trans; [|exact G]. apply Req_le.
    symmetry. rewrite sumf_swap, <- sumf_scal_l. apply sumf_ext. intros q _. rewrite sumf_swap, <- sumf_scal_l.
    apply sumf_ext. intros i _. unfold tot_of. rewrite Rmult_assoc, <- sumf_scal_r. reflexivity.
  Qed.
End Utt.
