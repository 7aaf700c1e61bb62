(** C163: variational training of an HMM never decreases the bound. *)
From Coq Require Import Reals List Arith Bool Lia Lra.
From Verif Require Import Prelude Vec Lgamma FB_Model FB_Spec FB_Proofs Edit_Model Dec_Model Set_Model Set_Spec Set_Proofs
  HMM_Model HMM_Spec HMM_Proofs HMM_Props Dist_Model Dist_Spec Dist_Proofs NG_Proofs KL_Proofs Dist_Props Mat NW_Model NW_Spec NW_Proofs NW_KL NW_Props
  Vt_Model Vt_Spec Vt_Proofs.
Import ListNotations.
Local Open Scope R_scope.

(** ** Typing *)
Lemma inst_shape k D st m p rows cols : typed k D st m -> shape (inst (forms st) m) p = Some (rows, cols) ->
  rows = length (st p) /\ forall i, (i < length (st p))%nat -> length (cell_form (nth i (st p) dc)) = cols.
Proof.
  induction m as [q d nf c|l IH|m r IH|q cf m IH] using mset_rect'; intros H E.
  - destruct H as (-> & H & F). cbn [inst shape] in E. destruct (Nat.eqb_spec q p) as [->|]; [|discriminate].
    injection E as <- <-. split; [apply forms_length|]. intros i Hi. apply leaf_form_length.
    now apply Forall_nth_in.
  - cbn [typed] in H. rewrite typed_joint in H. rewrite inst_joint in E. cbn [shape] in E.
    induction IH as [|m t Hm Ht IHt]; [discriminate|]. inversion H as [|? ? T1 T2]; subst. cbn [map] in E.
    destruct (shape (inst (forms st) m) p) as [s|] eqn:Es; [injection E as ->; auto|auto].
  - destruct H as [H _]. apply IH; auto.
  - destruct H as (H & H0 & H1 & n & Hn & Hs & F). cbn [inst shape] in E.
    destruct (Nat.eqb_spec q p) as [->|]; [|auto].
    injection E as <- <-. split; [apply forms_length|]. intros i Hi.
    rewrite denote_length, (inst_size k D), forms_length, Hs, <- H1, div_size by auto. apply weights_form_length.
    now apply Forall_nth_in.
Qed.

Lemma typed_cells k D st m p i : typed k D st m -> In p (params m) -> (i < length (st p))%nat ->
  leaf_cell k D (nth i (st p) dc) \/ exists n, weights_cell n (nth i (st p) dc).
Proof.
  induction m as [q d nf c|l IH|m r IH|q cf m IH] using mset_rect'; intros H Hp Hi.
  - destruct H as (-> & H & F). destruct Hp as [->|[]]. left. now apply Forall_nth_in.
  - cbn [typed] in H. rewrite typed_joint in H. cbn [params] in Hp.
    induction IH as [|m t Hm Ht IHt]; [destruct Hp|]. inversion H as [|? ? T1 T2]; subst.
    apply in_app_iff in Hp. destruct Hp as [Hp|Hp]; auto.
  - destruct H as [H _]. apply IH; auto.
  - destruct H as (H & H0 & H1 & n & Hn & Hs & F). destruct Hp as [->|Hp]; [|auto].
    right. exists n. now apply Forall_nth_in.
Qed.

Lemma nth_Forall {A} (P : A -> Prop) l d : (forall i, (i < length l)%nat -> P (nth i l d)) -> Forall P l.
Proof.
  intros H. apply Forall_forall. intros a Ha. destruct (In_nth l a d Ha) as (i & Hi & <-). auto.
Qed.

Lemma typed_keep k D st st' m : typed k D st m ->
  (forall p, In p (params m) -> length (st' p) = length (st p) /\
     forall i, (i < length (st p))%nat ->
       (leaf_cell k D (nth i (st p) dc) -> leaf_cell k D (nth i (st' p) dc)) /\
       (forall n, weights_cell n (nth i (st p) dc) -> weights_cell n (nth i (st' p) dc))) ->
  typed k D st' m.
Proof.
  induction m as [q d nf c|l IH|m r IH|q cf m IH] using mset_rect'; intros H K.
  - destruct H as (-> & H & F). destruct (K q (or_introl eq_refl)) as [L1 L2]. cbn [typed].
    split; [reflexivity|]. split; [congruence|]. apply (nth_Forall _ _ dc). intros i Hi. rewrite L1 in Hi.
    apply L2; auto. now apply Forall_nth_in.
  - cbn [typed] in *. rewrite typed_joint in *. cbn [params] in K.
    induction IH as [|m t Hm Ht IHt]; [constructor|]. inversion H as [|? ? T1 T2]; subst.
    constructor; [apply Hm; auto|apply IHt; auto]; intros p Hp; apply K; apply in_app_iff; auto.
  - destruct H as [H Hr]. split; auto.
  - destruct H as (H & H0 & H1 & n & Hn & Hs & F). destruct (K q (or_introl eq_refl)) as [L1 L2].
    split; [apply IH; auto; intros p Hp; apply K; now right|]. split; [auto|]. split; [congruence|].
    exists n. split; [auto|]. split; [auto|]. apply (nth_Forall _ _ dc). intros i Hi. rewrite L1 in Hi.
    apply L2; auto. now apply Forall_nth_in.
Qed.

Definition allcells (st : state) (ps : list nat) : list (nat * nat) :=
  flat_map (fun p => map (pair p) (seq 0 (length (st p)))) ps.

Lemma allcells_in st ps p i : In (p, i) (allcells st ps) <-> In p ps /\ (i < length (st p))%nat.
Proof.
  unfold allcells. rewrite in_flat_map. split.
  - intros (p' & Hp & H). apply in_map_iff in H. destruct H as (j & E & Hj). injection E as -> ->.
    apply in_seq in Hj. split; [auto|lia].
  - intros [Hp Hi]. exists p. split; [auto|]. apply in_map, in_seq. lia.
Qed.

Lemma allcells_nodup st ps : NoDup ps -> NoDup (allcells st ps).
Proof.
  induction 1 as [|p ps Hp H IH]; [constructor|]. cbn.
  assert (G : forall l l' : list (nat * nat), NoDup l -> NoDup l' -> (forall a, In a l -> ~ In a l') -> NoDup (l ++ l')).
  { clear. induction l as [|a l IH]; intros l' N1 N2 Hd; [exact N2|]. inversion N1; subst. cbn. constructor.
    - rewrite in_app_iff. intros [H|H]; [auto|]. now apply (Hd a (or_introl eq_refl)).
    - apply IH; auto. intros b Hb. apply Hd. now right. }
  apply G; auto.
  - apply FinFun.Injective_map_NoDup; [intros a b E; now injection E|apply seq_NoDup].
  - intros [a b] H1 H2. apply in_map_iff in H1. destruct H1 as (j & E & _). injection E as <- <-.
    apply allcells_in in H2. tauto.
Qed.

Lemma total_kl_cells skel st : total_kl skel st = sumf (fun q => cell_kl (cell_at st q)) (allcells st (params skel)).
Proof.
  unfold total_kl, allcells. rewrite sumf_flat_map. apply sumf_ext. intros p _. rewrite sumf_map.
  unfold cell_at. cbn [fst snd].
  assert (G : forall l : list cell, sumf cell_kl l = sumf (fun i => cell_kl (nth i l dc)) (seq 0 (length l))).
  { induction l as [|c l IH]; [reflexivity|]. cbn [length seq]. rewrite !sumf_cons. f_equal.
    rewrite <- seq_shift, sumf_map. exact IH. }
  apply G.
Qed.

(** ** The statistics of one step *)
Section Step.
  Variables (amax : nat -> (nat -> lp) -> nat) (k : kind) (D : nat) (scale : R) (skel : mset).
  Hypothesis Hscale : 0 <= scale.
  Hypothesis Hnd : NoDup (params skel).

  Definition sk_ems (u : utt) : list em := map (fun o => nth o (denote skel) e0) (u_order u).

  Lemma utt_ems_einst st u : typed k D st skel -> utt_ok k D skel u ->
    utt_ems skel st u = map (einst (forms st)) (sk_ems u).
  Proof.
    intros T (_ & _ & Ho & _). unfold utt_ems, sk_ems. rewrite map_map. apply map_ext_in. intros o Hin.
    rewrite (inst_denote k D) by auto. apply map_nth_lt. rewrite denote_length. auto.
  Qed.

  Lemma sk_ems_typed st u : typed k D st skel -> utt_ok k D skel u ->
    Forall (etyped k D st (params skel)) (sk_ems u).
  Proof.
    intros T (_ & _ & Ho & _). unfold sk_ems. apply Forall_map, Forall_forall. intros o Hin.
    apply Forall_nth_in; [now apply typed_etyped|]. rewrite denote_length. auto.
  Qed.

  Lemma utt_evidence st u : typed k D st skel -> utt_ok k D skel u ->
    0 < evidence (u_graph u) (frames scale (utt_ems skel st u) (u_stats u)).
  Proof.
    intros T (_ & _ & Ho & Hn & p & Hp & Hpos). apply (evidence_pos _ _ _ _ p); auto.
    unfold utt_ems. now rewrite map_length.
  Qed.

  Lemma suff_length x : frame_ok k D x -> length (suff k x) = suff_dim k D.
  Proof.
    intros [H H']. destruct k; cbn [suff suff_dim].
    - unfold nd_suff_stats. rewrite !app_length, ?map_length. simpl. lia.
    - unfold in_suff_stats. rewrite !app_length. simpl. lia.
    - now apply nl_suff_length.
    - destruct x as [|a x]; [now destruct H'|]. rewrite <- H. unfold cat_suff_stats, set_last.
      rewrite app_length, removelast_length. simpl. lia.
  Qed.

  Definition acc_of (st : state) (u : utt) : sdict :=
    match utt_acc amax scale (inst (forms st) skel) u with Some d => d | None => [] end.

  Definition urow (st : state) (u : utt) (q : nat * nat) (i : nat) : R :=
    scale * expect (u_graph u) (frames scale (utt_ems skel st u) (u_stats u))
              (path_stats q i (utt_ems skel st u) (u_stats u)).

  Lemma utt_rows st u : typed k D st skel -> utt_ok k D skel u ->
    utt_acc amax scale (inst (forms st) skel) u = Some (acc_of st u) /\
    forall q, In q (allcells st (params skel)) ->
      length (row_of (fst q) (snd q) (acc_of st u)) = length (form st q) /\
      forall i, (i < length (form st q))%nat ->
        nth i (row_of (fst q) (snd q) (acc_of st u)) 0 = urow st u q i.
  Proof.
    intros T U. assert (Hev := utt_evidence st u T U).
    destruct U as (Hne & (xs & Exs & Hxs) & Ho & Hn & _).
    set (m := inst (forms st) skel). assert (Hw : wf m) by (now apply (inst_wf k D)).
    assert (Ho' : forall o, In o (u_order u) -> (o < size m)%nat).
    { intros o Hin. unfold m. rewrite (inst_size k D); auto. }
    destruct (C80_defined amax m (u_graph u) (u_order u) (u_own u) scale (u_stats u) Ho' Hne) as ([v c] & E).
    assert (Ea : exists d, utt_acc amax scale m u = Some d).
    { unfold utt_acc. rewrite E. eexists. eapply (soft_accumulate amax m); eauto. }
    destruct Ea as (d & Ed). unfold acc_of. fold m. rewrite Ed. split; [reflexivity|].
    intros [p r] Hq. apply allcells_in in Hq. destruct Hq as [Hp Hr]. cbn [fst snd].
    destruct (proj2 (shape_params m p)) as ([rows cols] & Esh).
    { unfold m. now rewrite inst_params. }
    destruct (inst_shape k D st skel p rows cols T Esh) as [-> Hc].
    destruct (C80_statistics amax m (suff_dim k D) (u_graph u) (u_order u) (u_own u) scale (u_stats u) v c p (length (st p)) cols) as (d' & M & E1 & E2 & _ & E3); auto.
    - unfold m. now rewrite inst_params.
    - now apply inst_accepts.
    - rewrite Exs. apply Forall_map. eapply Forall_impl; [|exact Hxs]. intros x Hx. now apply suff_length.
    - assert (d' = d). { unfold utt_acc in Ed. rewrite E in Ed. congruence. } subst d'.
      unfold row_of. rewrite E2. destruct (E3 r Hr) as [E4 E5].
      assert (Lf : length (form st (p, r)) = cols).
      { unfold form. cbn [fst snd]. rewrite forms_nth by auto. auto. }
      rewrite Lf. split; [exact E4|]. intros i Hi. rewrite E5 by auto. reflexivity.
  Qed.

  Lemma udata_spec st u q w : typed k D st skel -> utt_ok k D skel u -> 0 <= w ->
    exists data, Forall (fun gx => 0 <= fst gx /\ fits D (cell_at st q) (snd gx)) data /\
      forall i, (i < length (form st q))%nat ->
        w * urow st u q i = sumf (fun gx => fst gx * nth i (cell_fn (cell_at st q) (snd gx)) 0) data.
  Proof.
    intros T U Hw. assert (Hev := utt_evidence st u T U). assert (Es := utt_ems_einst st u T U).
    assert (Et := sk_ems_typed st u T U).
    destruct U as (Hne & (xs & Exs & Hxs) & Ho & Hn & _).
    set (g := u_graph u) in *. set (ls := frames scale (utt_ems skel st u) (u_stats u)) in *.
    assert (Lls : length ls = length xs) by (unfold ls; rewrite frames_length, Exs; apply map_length).
    assert (Lsk : length (sk_ems u) = cg_n g) by (unfold sk_ems; now rewrite map_length).
    exists (flat_map (fun p => flat_map (fun t =>
        emdata q (nth t xs []) (suff k (nth t xs [])) (einst (forms st) (nth (nth t p 0%nat) (sk_ems u) e0))
          (w * scale * (path_prob g ls p / evidence g ls))) (seq 0 (length xs))) (paths (cg_n g) (length ls))).
    split.
    - apply Forall_flat_map, Forall_forall. intros p Hp. apply Forall_flat_map, Forall_forall. intros t Ht.
      apply in_seq in Ht. apply emdata_fits with (ps := params skel).
      + apply Forall_nth_in; auto. rewrite Lsk. eapply nth_path_lt; eauto. lia.
      + apply Forall_nth_in; auto. lia.
      + apply Rmult_le_pos; [now apply Rmult_le_pos|]. apply Rmult_le_pos; [apply path_prob_nonneg|].
        left. now apply Rinv_0_lt_compat.
    - intros i Hi. rewrite sumf_flat_map. unfold urow. fold g ls. unfold expect.
      rewrite <- !sumf_scal_l. apply sumf_ext. intros p Hp. rewrite sumf_flat_map.
      unfold path_stats. replace (length (u_stats u)) with (length xs) by (now rewrite Exs, map_length). rewrite <- !sumf_scal_l.
      apply sumf_ext. intros t Ht. apply in_seq in Ht.
      assert (Hj : (nth t p 0 < length (sk_ems u))%nat) by (rewrite Lsk; eapply nth_path_lt; eauto; lia).
      rewrite <- (emdata_acc k D st (params skel)); auto; [|now apply Forall_nth_in].
      rewrite Exs, (map_nth_lt _ _ _ []) by lia. rewrite Es, (map_nth_lt _ _ _ e0) by auto.
      rewrite (em_acc_scal _ _ _ _ (w * scale * _)). ring.
  Qed.

  Lemma total_data st utts q w : typed k D st skel -> Forall (utt_ok k D skel) utts -> 0 <= w ->
    In q (allcells st (params skel)) ->
    (forall i, (i < length (form st q))%nat ->
       nth i (total w (length (form st q)) (fst q) (snd q) (map (acc_of st) utts)) 0 =
       w * sumf (fun u => urow st u q i) utts) /\
    length (total w (length (form st q)) (fst q) (snd q) (map (acc_of st) utts)) = length (form st q) /\
    exists data, Forall (fun gx => 0 <= fst gx /\ fits D (cell_at st q) (snd gx)) data /\
      ((forall v, fits D (cell_at st q) v -> length (cell_fn (cell_at st q) v) = length (form st q)) ->
       total w (length (form st q)) (fst q) (snd q) (map (acc_of st) utts) =
       wstats (length (form st q)) (cell_fn (cell_at st q)) data).
  Proof.
    intros T HU Hw Hq. set (n := length (form st q)).
    assert (Hrows : Forall (fun r => length r = n) (map (row_of (fst q) (snd q)) (map (acc_of st) utts))).
    { rewrite map_map. apply Forall_map. eapply Forall_impl; [|exact HU]. intros u U.
      destruct (utt_rows st u T U) as [_ R]. now apply R. }
    assert (E1 : forall i, (i < n)%nat ->
       nth i (total w n (fst q) (snd q) (map (acc_of st) utts)) 0 = w * sumf (fun u => urow st u q i) utts).
    { intros i Hi. unfold total. rewrite vscale_nth, colsum_nth by auto. f_equal. rewrite !sumf_map.
      apply sumf_ext. intros u Hu. rewrite Forall_forall in HU. destruct (utt_rows st u T (HU u Hu)) as [_ R].
      now apply R. }
    assert (L1 : length (total w n (fst q) (snd q) (map (acc_of st) utts)) = n).
    { unfold total. rewrite vscale_length. now apply colsum_length. }
    split; [exact E1|]. split; [exact L1|].
    assert (Hd : exists data, Forall (fun gx => 0 <= fst gx /\ fits D (cell_at st q) (snd gx)) data /\
      forall i, (i < n)%nat -> w * sumf (fun u => urow st u q i) utts =
        sumf (fun gx => fst gx * nth i (cell_fn (cell_at st q) (snd gx)) 0) data).
    { clear Hrows E1 L1. induction HU as [|u us U HU IH].
      - exists []. split; [constructor|]. intros i _. rewrite !sumf_nil. ring.
      - destruct IH as (d1 & F1 & G1). destruct (udata_spec st u q w T U Hw) as (d2 & F2 & G2).
        exists (d2 ++ d1). split; [now apply Forall_app|]. intros i Hi.
        rewrite sumf_cons, sumf_app, Rmult_plus_distr_l, G1, G2 by auto. reflexivity. }
    destruct Hd as (data & F & G). exists data. split; [exact F|]. intros Hlen.
    assert (HL : forall gx, In gx data -> length (cell_fn (cell_at st q) (snd gx)) = n).
    { intros gx Hin. apply Hlen. rewrite Forall_forall in F. now apply F. }
    apply nth_ext with (d := 0) (d' := 0); [rewrite L1, wstats_length; auto|].
    intros i Hi. rewrite L1 in Hi. rewrite E1, G, wstats_nth by auto. reflexivity.
  Qed.

  Lemma fits_length st q v : typed k D st skel -> In q (allcells st (params skel)) ->
    fits D (cell_at st q) v -> length (cell_fn (cell_at st q) v) = length (form st q).
  Proof.
    intros T Hq Hv. destruct q as [p i]. apply allcells_in in Hq. destruct Hq as [Hp Hi].
    unfold form. cbn [fst snd]. rewrite forms_nth by auto. unfold cell_at in *. cbn [fst snd] in *.
    destruct (typed_cells k D st skel p i T Hp Hi) as [L|(n & W)].
    - rewrite (leaf_form_length k D) by auto. rewrite (leaf_fn k D) by auto. apply suff_length.
      destruct k, (nth i (st p) dc); simpl in L, Hv |- *; try tauto; try (split; [exact Hv|exact I]).
      destruct L as [(A & B & _) _]. rewrite A in Hv. destruct Hv as [Hv Hv']. split; [exact Hv|]. split; [|exact Hv'].
      intros ->. simpl in Hv. lia.
    - rewrite (weights_form_length n) by auto. rewrite (weights_fn n) by auto.
      destruct (nth i (st p) dc); simpl in W, Hv; try tauto. destruct W as [(A & B & _) _], Hv as [Hv _].
      rewrite A in Hv. destruct v as [|a v]; [simpl in Hv; lia|]. rewrite <- Hv. unfold cat_suff_stats, set_last.
      rewrite app_length, removelast_length. simpl. lia.
  Qed.

  (** One component in one step *)
  Lemma cell_step st utts w lrate group q : typed k D st skel -> Forall (utt_ok k D skel) utts -> 0 <= w ->
    0 <= lrate <= 1 -> In q (allcells st (params skel)) ->
    let st' := apply_step w lrate group (map (acc_of st) utts) st in
    let c := cell_at st q in let c' := cell_at st' q in
    (leaf_cell k D c -> leaf_cell k D c') /\ (forall n, weights_cell n c -> weights_cell n c') /\
    cell_kl c' - cell_kl c <=
    sumf (fun i => w * sumf (fun u => urow st u q i) utts * (nth i (form st' q) 0 - nth i (form st q) 0))
      (seq 0 (length (form st q))).
  Proof.
    intros T HU Hw Hl Hq st' c c'. destruct q as [p i]. assert (Hq' := Hq). apply allcells_in in Hq'. destruct Hq' as [Hp Hi].
    assert (Hst : length (st' p) = length (st p)).
    { unfold st', apply_step. destruct (existsb _ group); [|reflexivity]. rewrite map2_length, seq_length. lia. }
    assert (Ef : form st (p, i) = cell_form c) by (unfold form; cbn [fst snd]; now rewrite forms_nth).
    assert (Ef' : form st' (p, i) = cell_form c') by (unfold form; cbn [fst snd]; rewrite forms_nth by lia; reflexivity).
    destruct (total_data st utts (p, i) w T HU Hw Hq) as (E1 & L1 & data & F & E2).
    specialize (E2 (fun v Hv => fits_length st (p, i) v T Hq Hv)).
    destruct (existsb (Nat.eqb p) group) eqn:Eg.
    - set (stats := total w (length (form st (p, i))) p i (map (acc_of st) utts)).
      assert (Ec : c' = cell_update lrate stats c).
      { unfold c', cell_at, st', apply_step. cbn [fst snd]. rewrite Eg.
        rewrite (map2_nth _ _ _ _ 0%nat dc) by (rewrite ?seq_length; auto). rewrite seq_nth by auto.
        unfold stats. rewrite Ef. reflexivity. }
      cbn [fst snd] in E1, L1, E2. fold stats in E1, L1, E2. rewrite Ef in E2. fold c in E2.
      assert (Hin : forall cc, cell_at st (p, i) = cc -> length (cell_form c') = length (cell_form c) ->
         dot stats (cell_form c) - cell_kl c <= dot stats (cell_form c') - cell_kl c' ->
         cell_kl c' - cell_kl c <= sumf (fun i0 => w * sumf (fun u => urow st u (p, i) i0) utts *
           (nth i0 (form st' (p, i)) 0 - nth i0 (form st (p, i)) 0)) (seq 0 (length (form st (p, i))))).
      { intros _ _ Hlen Hb.
        rewrite (sumf_ext _ (fun a => nth a stats 0 * (nth a (form st' (p, i)) 0 - nth a (form st (p, i)) 0))).
        2:{ intros a Ha. apply in_seq in Ha. rewrite E1 by lia. reflexivity. }
        rewrite <- dot_diff by (rewrite L1, ?Ef', ?Ef, ?Hlen; reflexivity).
        rewrite Ef, Ef'. lra. }
      destruct (typed_cells k D st skel p i T Hp Hi) as [Lc|(n & Wc)].
      + change (nth i (st p) dc) with c in Lc.
        destruct (leaf_step k D lrate c data Lc Hl F) as [A B]. cbv zeta in A, B. rewrite <- E2, <- Ec in A, B.
        split; [auto|]. split.
        { intros n Wc. destruct (weights_step n D lrate c data Wc Hl F) as [A' _]. cbv zeta in A'. rewrite <- E2, <- Ec in A'. exact A'. }
        apply (Hin c eq_refl); auto. now rewrite !(leaf_form_length k D).
      + change (nth i (st p) dc) with c in Wc.
        destruct (weights_step n D lrate c data Wc Hl F) as [A B]. cbv zeta in A, B. rewrite <- E2, <- Ec in A, B.
        split.
        { intros Lc. destruct (leaf_step k D lrate c data Lc Hl F) as [A' _]. cbv zeta in A'. rewrite <- E2, <- Ec in A'. exact A'. }
        split.
        { intros n' Wc'. destruct (weights_step n' D lrate c data Wc' Hl F) as [A' _]. cbv zeta in A'. rewrite <- E2, <- Ec in A'. exact A'. }
        apply (Hin c eq_refl); auto. now rewrite !(weights_form_length n).
    - assert (Ec : c' = c) by (unfold c', c, cell_at, st', apply_step; cbn [fst snd]; now rewrite Eg).
      rewrite Ec. split; [auto|]. split; [auto|].
      rewrite Ef, Ef', Ec. rewrite sumf_zero; [lra|]. intros; ring.
  Qed.

  Lemma step_typed st utts w lrate group : typed k D st skel -> Forall (utt_ok k D skel) utts -> 0 <= w ->
    0 <= lrate <= 1 -> typed k D (apply_step w lrate group (map (acc_of st) utts) st) skel.
  Proof.
    intros T HU Hw Hl. apply (typed_keep k D st); auto. intros p Hp. split.
    - unfold apply_step. destruct (existsb _ group); [|reflexivity]. rewrite map2_length, seq_length. lia.
    - intros i Hi. destruct (cell_step st utts w lrate group (p, i) T HU Hw Hl) as (A & B & _); [now apply allcells_in|].
      split; [exact A|exact B].
  Qed.

  Lemma step_bound st utts w lrate group : typed k D st skel -> Forall (utt_ok k D skel) utts -> 0 <= w ->
    0 <= lrate <= 1 ->
    bound scale w skel utts st <= bound scale w skel utts (apply_step w lrate group (map (acc_of st) utts) st).
  Proof.
    intros T HU Hw Hl. assert (T' := step_typed st utts w lrate group T HU Hw Hl).
    set (st' := apply_step _ _ _ _ _) in *. set (Q := allcells st (params skel)).
    assert (HQ : NoDup Q) by (now apply allcells_nodup).
    assert (EQ : allcells st' (params skel) = Q).
    { unfold Q, allcells. rewrite !flat_map_concat_map. f_equal. apply map_ext. intros p. f_equal. f_equal.
      unfold st', apply_step. destruct (existsb _ group); [|reflexivity]. rewrite map2_length, seq_length. lia. }
    unfold bound. rewrite !total_kl_cells, EQ. fold Q.
    assert (G : sumf (fun u => sumf (fun q => sumf (fun i => urow st u q i * (nth i (form st' q) 0 - nth i (form st q) 0))
                (seq 0 (length (form st q)))) Q) utts <=
      sumf (fun u => ln (evidence (u_graph u) (frames scale (utt_ems skel st' u) (u_stats u))) -
                     ln (evidence (u_graph u) (frames scale (utt_ems skel st u) (u_stats u)))) utts).
    { apply sumf_le. intros u Hu. rewrite Forall_forall in HU. assert (U := HU u Hu).
      assert (P1 := utt_evidence st u T U). assert (P2 := utt_evidence st' u T' U). unfold urow.
      rewrite (utt_ems_einst st u T U) in *. rewrite (utt_ems_einst st' u T' U) in *.
      assert (Et := sk_ems_typed st u T U). assert (Et' := sk_ems_typed st' u T' U).
      destruct U as (Hne & (xs & Exs & Hxs) & Ho & Hn & _).
      apply (utt_gain k D st st' (params skel) Q); auto.
      - intros p i Hp Hi. now apply allcells_in.
      - unfold sk_ems. now rewrite map_length.
      - rewrite Exs. apply Forall_map. eapply Forall_impl; [|exact Hxs]. intros x Hx. now apply suff_length. }
    rewrite sumf_minus in G. apply (Rmult_le_compat_l w) in G; [|exact Hw].
    assert (K : sumf (fun q => cell_kl (cell_at st' q) - cell_kl (cell_at st q)) Q <=
      sumf (fun q => sumf (fun i => w * sumf (fun u => urow st u q i) utts * (nth i (form st' q) 0 - nth i (form st q) 0))
        (seq 0 (length (form st q)))) Q).
    { apply sumf_le. intros q Hq. now apply (cell_step st utts w lrate group q T HU Hw Hl Hq). }
    rewrite sumf_minus in K.
    assert (E : sumf (fun q => sumf (fun i => w * sumf (fun u => urow st u q i) utts * (nth i (form st' q) 0 - nth i (form st q) 0))
        (seq 0 (length (form st q)))) Q =
      w * sumf (fun u => sumf (fun q => sumf (fun i => urow st u q i * (nth i (form st' q) 0 - nth i (form st q) 0))
                (seq 0 (length (form st q)))) Q) utts).
    { rewrite sumf_swap, <- sumf_scal_l. apply sumf_ext. intros q _. rewrite sumf_swap, <- sumf_scal_l.
      apply sumf_ext. intros i _. rewrite Rmult_assoc, <- sumf_scal_r. reflexivity. }
    rewrite E in K. lra.
  Qed.
End Step.

(** ** C163 *)
Theorem C163_step : forall amax k D scale w lrate group skel utts st,
  0 <= scale -> 0 <= w -> 0 <= lrate <= 1 -> NoDup (params skel) ->
  typed k D st skel -> Forall (utt_ok k D skel) utts ->
  exists st', train_step amax scale w lrate group skel utts st = Some st' /\
    typed k D st' skel /\ bound scale w skel utts st <= bound scale w skel utts st'.
Proof.
  intros amax k D scale w lrate group skel utts st Hs Hw Hl Hnd T HU.
  assert (E : all_some (map (utt_acc amax scale (inst (forms st) skel)) utts) = Some (map (acc_of amax scale skel st) utts)).
  { clear - Hnd T HU. induction HU as [|u us U HU IH]; [reflexivity|]. cbn [map all_some].
    rewrite (proj1 (utt_rows amax k D scale skel Hnd st u T U)), IH. reflexivity. }
  unfold train_step. rewrite E. eexists. split; [reflexivity|]. split.
  - now apply step_typed.
  - now apply (step_bound amax k D).
Qed.

Theorem C163_training : forall amax k D scale w steps skel utts st,
  0 <= scale -> 0 <= w -> Forall (fun lg => 0 <= fst lg <= 1) steps -> NoDup (params skel) ->
  typed k D st skel -> Forall (utt_ok k D skel) utts ->
  exists st', train amax scale w steps skel utts st = Some st' /\
    typed k D st' skel /\ bound scale w skel utts st <= bound scale w skel utts st'.
Proof.
  intros amax k D scale w steps skel utts st Hs Hw Hl Hnd. revert st.
  induction Hl as [|[lrate group] steps Hl Hls IH]; intros st T HU.
  - exists st. split; [reflexivity|]. split; [exact T|lra].
  - destruct (C163_step amax k D scale w lrate group skel utts st Hs Hw Hl Hnd T HU) as (s1 & E1 & T1 & B1).
    destruct (IH s1 T1 HU) as (s2 & E2 & T2 & B2). exists s2. cbn [train]. rewrite E1.
    split; [exact E2|]. split; [exact T2|lra].
Qed.

(** What one step does to each component: the parameters of the group move to
    the prior plus the statistics expected over all the state paths. *)
Theorem C163_update : forall amax k D scale w lrate group skel utts st st' p i,
  0 <= scale -> 0 <= w -> 0 <= lrate <= 1 -> NoDup (params skel) ->
  typed k D st skel -> Forall (utt_ok k D skel) utts ->
  train_step amax scale w lrate group skel utts st = Some st' ->
  In p (params skel) -> (i < length (st p))%nat ->
  let c := nth i (st p) dc in
  length (st' p) = length (st p) /\
  (~ In p group -> nth i (st' p) dc = c) /\
  (In p group -> exists stats,
     nth i (st' p) dc = cell_update lrate stats c /\ length stats = length (cell_form c) /\
     forall j, (j < length (cell_form c))%nat ->
       nth j stats 0 = w * sumf (fun u => scale *
         expect (u_graph u) (frames scale (utt_ems skel st u) (u_stats u))
           (path_stats (p, i) j (utt_ems skel st u) (u_stats u))) utts).
Proof.
  intros amax k D scale w lrate group skel utts st st' p i Hs Hw Hl Hnd T HU E Hp Hi c.
  assert (E' : all_some (map (utt_acc amax scale (inst (forms st) skel)) utts) = Some (map (acc_of amax scale skel st) utts)).
  { clear - Hnd T HU. induction HU as [|u us U HU IH]; [reflexivity|]. cbn [map all_some].
    rewrite (proj1 (utt_rows amax k D scale skel Hnd st u T U)), IH. reflexivity. }
  unfold train_step in E. rewrite E' in E. injection E as <-.
  assert (Hq : In (p, i) (allcells st (params skel))) by (now apply allcells_in).
  destruct (total_data amax k D scale skel Hs Hnd st utts (p, i) w T HU Hw Hq) as (E1 & L1 & _).
  assert (Ef : form st (p, i) = cell_form c) by (unfold form; cbn [fst snd]; now rewrite forms_nth).
  rewrite Ef in E1, L1. cbn [fst snd] in E1, L1. split; [|split].
  - unfold apply_step. destruct (existsb _ group); [|reflexivity]. rewrite map2_length, seq_length. lia.
  - intros Hg. unfold apply_step. destruct (existsb (Nat.eqb p) group) eqn:Eg; [|reflexivity].
    apply existsb_exists in Eg. destruct Eg as (x & Hx & Ex). apply Nat.eqb_eq in Ex. subst x. contradiction.
  - intros Hg. exists (total w (length (cell_form c)) p i (map (acc_of amax scale skel st) utts)).
    split; [|split; [exact L1|exact E1]].
    unfold apply_step. replace (existsb (Nat.eqb p) group) with true.
    + rewrite (map2_nth _ _ _ _ 0%nat dc) by (rewrite ?seq_length; auto). rewrite seq_nth by auto. reflexivity.
    + symmetry. apply existsb_exists. exists p. split; [auto|apply Nat.eqb_refl].
Qed.

(** Two states, each a mixture of two one-dimensional Normal densities. *)
Definition ex_skel : mset := Mix 0 [[]; []] (Leaf 1 4 [[]; []; []; []] 0).
Definition ex_ng (m : R) : ng_par := {| ng_mean := [m]; ng_scale := 1; ng_shape := 1; ng_rates := [1] |}.
Definition ex_st : state := fun p =>
  match p with
  | 0%nat => [CWeights [1; 1] [1; 1]; CWeights [1; 1] [1; 2]]
  | _ => map (fun m => CDiag (ex_ng 0) (ex_ng m)) [0; 1; 2; 3]
  end.
Definition ex_graph : cgraph :=
  {| cg_n := 2; cg_init := fun i => if Nat.eqb i 0 then Fin 0 else NInf;
     cg_trans := fun i j => if Nat.leb i j then Fin 0 else NInf;
     cg_final := fun i => if Nat.eqb i 1 then Fin 0 else NInf |}.
Definition ex_utt : utt :=
  {| u_graph := ex_graph; u_order := [0; 1]%nat; u_own := true;
     u_stats := map nd_suff_stats [[0]; [2]; [3]] |}.

Example C163_ex : NoDup (params ex_skel) /\ typed KDiag 1 ex_st ex_skel /\ utt_ok KDiag 1 ex_skel ex_utt /\
  forall amax, exists st', train amax 1 1 [(1, [0%nat]); (1/2, [1%nat]); (1, [0; 1]%nat)] ex_skel [ex_utt] ex_st = Some st' /\
    bound 1 1 ex_skel [ex_utt] ex_st <= bound 1 1 ex_skel [ex_utt] st'.
Proof.
  assert (N : NoDup (params ex_skel)).
  { change (NoDup [0; 1]%nat). constructor; [intros [H|[]]; discriminate|]. constructor; [intros []|constructor]. }
  assert (Hng : forall m, ng_ok 1 (ex_ng m)).
  { intros m. unfold ng_ok, ex_ng. cbn [ng_mean ng_rates ng_scale ng_shape length].
    split; [reflexivity|]. split; [reflexivity|]. split; [lra|]. split; [lra|]. constructor; [lra|constructor]. }
  assert (Hdir : forall a b, 0 < a -> 0 < b -> dir_ok 2 [a; b]).
  { intros a b Ha Hb. split; [reflexivity|]. split; [lia|]. constructor; [exact Ha|]. constructor; [exact Hb|constructor]. }
  assert (T : typed KDiag 1 ex_st ex_skel).
  { cbn [typed ex_skel length size]. split; [split; [reflexivity|]; split; [reflexivity|]|].
    - change (Forall (leaf_cell KDiag 1) (map (fun m => CDiag (ex_ng 0) (ex_ng m)) [0; 1; 2; 3])).
      apply Forall_map, Forall_forall. intros m _. split; apply Hng.
    - split; [lia|]. split; [reflexivity|]. exists 2%nat. split; [lia|]. split; [reflexivity|].
      constructor; [split; apply Hdir; lra|]. constructor; [split; apply Hdir; lra|constructor]. }
  assert (U : utt_ok KDiag 1 ex_skel ex_utt).
  { split; [discriminate|]. split.
    - exists [[0]; [2]; [3]]. split; [reflexivity|]. apply Forall_forall. intros x Hx. split; [|exact I].
      destruct Hx as [<-|[<-|[<-|[]]]]; reflexivity.
    - split; [intros o [<-|[<-|[]]]; cbn; lia|]. split; [reflexivity|]. exists [0; 0; 1]%nat. split.
      + change (In [0; 0; 1]%nat (paths 2 3)). cbn. now right; left.
      + change (0 < path_prob ex_graph [fun _ => Fin 0; fun _ => Fin 0; fun _ => Fin 0] [0; 0; 1]%nat).
        cbn [path_prob tail_prob ex_graph cg_init cg_trans cg_final Nat.eqb Nat.leb ex]. rewrite exp_0. lra. }
  split; [exact N|]. split; [exact T|]. split; [exact U|]. intros amax.
  destruct (C163_training amax KDiag 1 1 1 [(1, [0%nat]); (1/2, [1%nat]); (1, [0; 1]%nat)] ex_skel [ex_utt] ex_st) as (st' & E & _ & B).
  - lra.
  - lra.
  - constructor; [cbn [fst]; lra|]. constructor; [cbn [fst]; lra|]. constructor; [cbn [fst]; lra|constructor].
  - exact N.
  - exact T.
  - constructor; [exact U|constructor].
  - exists st'. split; [exact E|exact B].
Qed.

Print Assumptions C163_step.
Print Assumptions C163_training.
Print Assumptions C163_update.
