(** The evidence lower bound is bounded from above, whatever the posteriors. *)
From Coq Require Import Reals List Arith Bool Lia Lra.
From Verif Require Import Prelude Vec Lgamma FB_Model FB_Spec FB_Proofs Edit_Model Dec_Model Set_Model Set_Spec Set_Proofs
  HMM_Model HMM_Spec HMM_Proofs Dist_Model Dist_Spec Dist_Proofs Dist_Props Mat NW_Model NW_Spec NW_Props
  Ev_Proofs Sk_Proofs Vl_Proofs Vt_Model Vt_Spec Vt_Proofs Vt_Props Cv_Spec.
Import ListNotations.
Local Open Scope R_scope.

(** ** One component *)
Lemma cell_kl_nonneg k D c : leaf_cell k D c -> 0 <= cell_kl c.
Proof.
  destruct k, c; cbn [leaf_cell cell_kl]; try tauto; intros (Hp & Hq).
  - now apply (C40_normal_gamma D).
  - now apply (C40_isotropic_normal_gamma D).
  - destruct (C40_normal_wishart D post prior Hq Hp) as ((kl & -> & H) & _). exact H.
  - now apply (C40_dirichlet D).
Qed.

Lemma weights_kl_nonneg n c : weights_cell n c -> 0 <= cell_kl c.
Proof. destruct c; cbn [weights_cell cell_kl]; try tauto. intros (Hp & Hq). now apply (C40_dirichlet n). Qed.

(** The gain of a component over any data is at most that of the full update,
    which depends on the prior only. *)
Lemma leaf_best k D c0 data : leaf_cell k D c0 -> Forall (fun gx : R * list R => 0 <= fst gx /\ frame_ok k D (snd gx)) data ->
  exists B, forall c, leaf_cell k D c -> prior_kept c0 c -> dot (wstats (suff_dim k D) (suff k) data) (cell_form c) - cell_kl c <= B.
Proof.
  intros W Hd.
  assert (Hw : nonneg_weights data) by (eapply Forall_impl; [|exact Hd]; intros gx (A & _); exact A).
  assert (Hx : frames_of_dim D data) by (eapply Forall_impl; [|exact Hd]; intros gx (_ & A & _); exact A).
  destruct k, c0 as [p q|p q|p q|p q]; cbn [leaf_cell] in W; try tauto; destruct W as [Wp Wq]; cbn [suff_dim suff].
  - eexists. intros c Wc E. destruct c as [p' q'| | |]; cbn in E, Wc; try tauto. subst p'. destruct Wc as (_ & Wc).
    exact (proj2 (C41_normal_gamma D p q data 1 Wp Wq Hx Hw ltac:(lra)) q' Wc).
  - eexists. intros c Wc E. destruct c as [|p' q'| |]; cbn in E, Wc; try tauto. subst p'. destruct Wc as (_ & Wc).
    exact (proj2 (C41_isotropic_normal_gamma D p q data 1 Wp Wq Hx Hw ltac:(lra)) q' Wc).
  - destruct (C41_normal_wishart D p q data 1 Wp Wq Hx Hw ltac:(lra)) as (q1 & full & b & b' & best & _ & _ & _ & _ & _ & _ & Hb).
    exists best. intros c Wc E. destruct c as [| |p' q'|]; cbn in E, Wc; try tauto. subst p'. destruct Wc as (_ & Wc).
    destruct (Hb q' Wc) as (br & E1 & L). unfold nw_elbo in E1. cbn [cell_form cell_kl].
    destruct (nw_ess q') as [e|]; [|discriminate]. cbn [bindr] in E1. destruct (nw_kl q' p) as [kl|]; [|discriminate]. cbn [bindr] in E1.
    injection E1 as <-. exact L.
  - assert (Hv : Forall (fun gx => Forall (fun v => 0 <= v) (snd gx)) data) by (eapply Forall_impl; [|exact Hd]; intros gx (_ & _ & _ & A); exact A).
    eexists. intros c Wc E. destruct c as [| | |p' q']; cbn in E, Wc; try tauto. subst p'. destruct Wc as (_ & Wc).
    exact (proj2 (C41_dirichlet D p q data 1 Wp Wq Hx Hw Hv ltac:(lra)) q' Wc).
Qed.

Lemma dot_wstats n (f : list R -> list R) (data : wdata) v : length v = n -> Forall (fun gx => length (f (snd gx)) = n) data ->
  dot (wstats n f data) v = sumf (fun gx => fst gx * dot (f (snd gx)) v) data.
Proof.
  intros He Hf. unfold wstats.
  assert (Hr : Forall (fun r => length r = n) (map (fun gx : R * list R => vscale (fst gx) (f (snd gx))) data)).
  { apply Forall_map. eapply Forall_impl; [|exact Hf]. intros gx H. unfold vscale. now rewrite map_length. }
  rewrite dot_nth by (rewrite colsum_length; auto). rewrite colsum_length by auto.
  rewrite (sumf_ext (fun gx => fst gx * dot (f (snd gx)) v) (fun gx => sumf (fun k => nth k (vscale (fst gx) (f (snd gx))) 0 * nth k v 0) (seq 0 n)) data).
  2:{ intros x Hx. assert (E := proj1 (Forall_forall _ _) Hf x Hx). cbv beta in E.
      rewrite <- dot_vscale_l, dot_nth by (unfold vscale; rewrite map_length; congruence). unfold vscale at 2. now rewrite map_length, E. }
  rewrite sumf_swap. apply sumf_ext. intros k Hk. apply in_seq in Hk.
  rewrite colsum_nth by (auto; lia). rewrite sumf_scal_r. f_equal.
  rewrite sumf_map. reflexivity.
Qed.

(** The frames for which the component has a positive value can be chosen in
    finitely many ways. *)
Lemma leaf_ub k D c0 K : leaf_cell k D c0 -> 0 <= K -> forall ys, Forall (frame_ok k D) ys ->
  exists B, forall c, leaf_cell k D c -> prior_kept c0 c ->
    K * sumf (fun y => Rmax 0 (dot (suff k y) (cell_form c))) ys - cell_kl c <= B.
Proof.
  intros W HK ys Hy.
  assert (G : forall data, Forall (fun gx : R * list R => 0 <= fst gx /\ frame_ok k D (snd gx)) data ->
    exists B, forall c, leaf_cell k D c -> prior_kept c0 c ->
      K * sumf (fun y => Rmax 0 (dot (suff k y) (cell_form c))) ys + sumf (fun gx => fst gx * dot (suff k (snd gx)) (cell_form c)) data - cell_kl c <= B).
  { induction Hy as [|y ys Hy Hys IH]; intros data Hd.
    - destruct (leaf_best k D c0 data W Hd) as (B & HB). exists B. intros c Wc E. specialize (HB c Wc E).
      rewrite dot_wstats in HB; [rewrite sumf_nil; lra|now apply leaf_form_length|].
      eapply Forall_impl; [|exact Hd]. intros gx (_ & A). now apply suff_length.
    - destruct (IH data Hd) as (B1 & H1). destruct (IH ((K, y) :: data)) as (B2 & H2); [constructor; auto|].
      exists (Rmax B1 B2). intros c Wc E. specialize (H1 c Wc E). specialize (H2 c Wc E). rewrite !sumf_cons in *. cbn [fst snd] in H2.
      destruct (Rle_dec (dot (suff k y) (cell_form c)) 0) as [N|N].
      + rewrite (Rmax_left 0) by lra. pose proof (Rmax_l B1 B2). lra.
      + rewrite (Rmax_right 0) by lra. pose proof (Rmax_r B1 B2). lra. }
  destruct (G [] (Forall_nil _)) as (B & HB). exists B. intros c Wc E. specialize (HB c Wc E). rewrite sumf_nil in HB. lra.
Qed.

(** ** Emissions *)
Fixpoint leafs (m : mset) : list nat :=
  match m with
  | Leaf p _ _ _ => [p]
  | Joint l => (fix go l := match l with [] => [] | m :: t => leafs m ++ go t end) l
  | Rep m _ => leafs m
  | Mix _ _ m => leafs m
  end.

Fixpoint ecst (e : em) : R :=
  match e with
  | EComp _ _ _ c => Rabs c
  | EMix _ _ _ subs => Rabs (ln (INR (length subs))) + rsum (map ecst subs)
  end.

Lemma ecst_nonneg e : 0 <= ecst e.
Proof.
  induction e as [p i nf c|p i cf subs IH] using em_rect'; cbn [ecst]; [apply Rabs_pos|].
  pose proof (Rabs_pos (ln (INR (length subs)))). assert (0 <= rsum (map ecst subs)); [|lra].
  clear H. induction IH as [|e l He Hl IHl]; cbn; [lra|]. lra.
Qed.

Fixpoint ein (ls : list nat) (e : em) : Prop :=
  match e with
  | EComp p _ _ _ => In p ls
  | EMix _ _ _ subs => (fix es l := match l with [] => True | e :: t => ein ls e /\ es t end) subs
  end.

Lemma ein_subs ls l : (fix es l := match l with [] => True | e :: t => ein ls e /\ es t end) l <-> Forall (ein ls) l.
Proof.
  induction l as [|e l IH]; [split; auto|]. rewrite IH. split.
  - intros [A B]. now constructor.
  - intros H. inversion H; auto.
Qed.

Lemma ein_mono ls ls' e : incl ls ls' -> ein ls e -> ein ls' e.
Proof.
  intros Hi. induction e as [p i nf c|p i cf subs IH] using em_rect'; simpl; [auto|].
  rewrite !ein_subs. rewrite !Forall_forall in *. auto.
Qed.

Lemma typed_ein k D st m : typed k D st m -> Forall (ein (leafs m)) (denote m).
Proof.
  induction m as [p d nf c|l IH|m r IH|p cf m IH] using mset_rect'; intros H; apply Forall_forall; intros e He.
  - cbn [denote] in He. apply in_map_iff in He. destruct He as (i & <- & Hi). cbn. now left.
  - cbn [typed] in H. rewrite typed_joint in H. cbn [denote] in He. cbn [leafs].
    induction IH as [|m t Hm Ht IHt]; [destruct He|]. inversion H as [|? ? T1 T2]; subst.
    apply in_app_iff in He. destruct He as [He|He].
    + eapply ein_mono; [|exact (proj1 (Forall_forall _ _) (Hm T1) e He)]. apply incl_appl, incl_refl.
    + eapply ein_mono; [|apply IHt; auto]. apply incl_appr, incl_refl.
  - destruct H as [H Hr]. cbn [denote] in He. cbn [leafs]. apply in_map_iff in He. destruct He as (i & <- & Hi).
    apply in_seq in Hi. apply Forall_nth_in; auto. apply Nat.mod_upper_bound. lia.
  - destruct H as (H & H0 & H1 & n & Hn & Hs & F). cbn [denote] in He. apply in_map_iff in He.
    destruct He as (i & <- & Hi). apply in_seq in Hi.
    assert (En : (length (denote m) / length cf = n)%nat) by (rewrite denote_length, Hs; now apply div_size).
    rewrite En. cbn [ein leafs]. rewrite ein_subs.
    apply Forall_map, Forall_forall. intros j Hj. apply in_seq in Hj.
    apply Forall_nth_in; [apply IH; auto|]. rewrite denote_length, Hs. nia.
Qed.

Lemma leafs_sum (f : nat -> R) m : (forall p, In p (params m) -> 0 <= f p) -> sumf f (leafs m) <= sumf f (params m).
Proof.
  induction m as [p d nf c|l IH|m r IH|p cf m IH] using mset_rect'; intros H; cbn [leafs params] in *.
  - lra.
  - induction IH as [|m t Hm Ht IHt]; [lra|]. rewrite !sumf_app.
    assert (A := Hm (fun p Hp => H p (in_or_app _ _ _ (or_introl Hp)))). specialize (IHt (fun p Hp => H p (in_or_app _ _ _ (or_intror Hp)))). lra.
  - auto.
  - rewrite sumf_cons. assert (A := H p (or_introl eq_refl)). specialize (IH (fun q Hq => H q (or_intror Hq))). lra.
Qed.

Lemma leafs_incl m : incl (leafs m) (params m).
Proof.
  induction m as [p d nf c|l IH|m r IH|p cf m IH] using mset_rect'; cbn [leafs params] in *; [apply incl_refl| |auto|now apply incl_tl].
  induction IH as [|m t Hm Ht IHt]; [apply incl_refl|]. apply incl_app; [apply incl_appl; exact Hm|apply incl_appr; exact IHt].
Qed.

Lemma leafs_cells k D st m p i : typed k D st m -> In p (leafs m) -> (i < length (st p))%nat -> leaf_cell k D (nth i (st p) dc).
Proof.
  induction m as [q d nf c|l IH|m r IH|q cf m IH] using mset_rect'; intros H Hp Hi.
  - destruct H as (-> & H & F). destruct Hp as [->|[]]. now apply Forall_nth_in.
  - cbn [typed] in H. rewrite typed_joint in H. cbn [leafs] in Hp.
    induction IH as [|m t Hm Ht IHt]; [destruct Hp|]. inversion H as [|? ? T1 T2]; subst.
    apply in_app_iff in Hp. destruct Hp as [Hp|Hp]; auto.
  - destruct H as [H _]. apply IH; auto.
  - destruct H as (H & _). now apply IH.
Qed.

(** Expected log-weights are negative *)
Lemma weights_logprob n c j : weights_cell n c -> (j < n)%nat -> cat_logprob (cell_form c) j <= 0.
Proof.
  destruct c as [| | |p q]; cbn [weights_cell]; try tauto. intros (_ & Hq) Hj. cbn [cell_form]. destruct Hq as (Lq & Hn & Pq).
  rewrite cat_logprob_ess by lia.
  assert (A : 0 < nth j q 0) by (apply Forall_nth_in; [exact Pq|lia]).
  assert (B : nth j q 0 <= rsum q).
  { assert (Hin : In (nth j q 0) q) by (apply nth_In; lia). clear - Pq Hin. revert Hin. generalize (nth j q 0). intros a Hin.
    induction Pq as [|b q Hb Pq IH]; [destruct Hin|]. assert (0 <= rsum q) by (clear - Pq; induction Pq; cbn; lra).
    cbn [rsum fold_right]. change (fold_right Rplus 0 q) with (rsum q). destruct Hin as [->|Hin]; [lra|]. specialize (IH Hin). lra. }
  pose proof (digamma_mono_le _ _ A B). lra.
Qed.

Definition spike (st : state) (Q : list (nat * nat)) (x : list R) : R := sumf (fun q => Rmax 0 (dot x (form st q))) Q.

Lemma spike_nonneg st Q x : 0 <= spike st Q x.
Proof. apply sumf_nonneg. intros q _. apply Rmax_l. Qed.

Lemma em_upper k D st ps ls Q x e : etyped k D st ps e -> ein ls e ->
  (forall p i, In p ls -> (i < length (st p))%nat -> In (p, i) Q) ->
  em_llh x (einst (forms st) e) <= ecst e + spike st Q x.
Proof.
  intros T I HQ. induction e as [p i nf c|p i cf subs IH] using em_rect'; cbn [einst em_llh ecst].
  - cbn [etyped ein] in T, I. destruct T as (_ & Hi & _).
    assert (A : dot x (form st (p, i)) <= spike st Q x).
    { eapply Rle_trans; [apply (Rmax_r 0)|]. apply (sumf_ge_term (fun q => Rmax 0 (dot x (form st q)))); [intros; apply Rmax_l|now apply HQ]. }
    unfold form in A. cbn [fst snd] in A. pose proof (Rle_abs c). lra.
  - cbn [etyped ein] in T, I. destruct T as (_ & Hi & W & Hne & T). rewrite etyped_subs in T. rewrite ein_subs in I.
    set (M := spike st Q x) in *. set (C := rsum (map ecst subs)).
    assert (Lc : length (nth i (forms st p) []) = length subs) by (rewrite forms_nth by exact Hi; now apply weights_form_length).
    rewrite joint_sum by (now rewrite !map_length). rewrite !map_length.
    assert (Hs : forall j, (j < length subs)%nat -> em_llh x (einst (forms st) (nth j subs e0)) <= C + M).
    { intros j Hj. assert (Hin : In (nth j subs e0) subs) by (now apply nth_In).
      assert (A := proj1 (Forall_forall _ _) IH _ Hin (proj1 (Forall_forall _ _) T _ Hin) (proj1 (Forall_forall _ _) I _ Hin)).
      assert (B : ecst (nth j subs e0) <= C) by (apply (sumf_ge_term ecst); [intros; apply ecst_nonneg|exact Hin]). lra. }
    assert (Hn : (0 < length subs)%nat) by (destruct subs; [congruence|cbn; lia]).
    assert (Hnr : 0 < INR (length subs)) by (now apply lt_0_INR).
    eapply Rle_trans; [apply (ln_mono _ (INR (length subs) * exp (C + M)))|].
    + apply (sumf_pos _ _ 0%nat); [intros; left; apply exp_pos|apply in_seq; lia|apply exp_pos].
    + rewrite <- (seq_length (length subs) 0) at 2. rewrite <- sumf_const. apply sumf_le. intros j Hj. apply in_seq in Hj.
      rewrite (map_nth_lt _ _ _ e0) by (rewrite map_length; lia). rewrite (map_nth_lt _ _ _ e0) by lia.
      rewrite forms_nth by exact Hi. assert (A := weights_logprob _ _ j W ltac:(lia)). specialize (Hs j ltac:(lia)).
      destruct (Rle_lt_or_eq_dec _ _ (Rplus_le_compat _ _ _ _ A Hs)) as [L|L]; [|rewrite L, Rplus_0_l; lra]. left. rewrite Rplus_0_l in L. now apply exp_increasing.
    + rewrite ln_mult by (auto; apply exp_pos). rewrite ln_exp. pose proof (Rle_abs (ln (INR (length subs)))). lra.
Qed.

(** ** One utterance *)
Lemma sumf_seq_nth {A} (f : A -> R) l d : sumf (fun t => f (nth t l d)) (seq 0 (length l)) = sumf f l.
Proof.
  induction l as [|a l IH]; [reflexivity|]. cbn [length seq]. rewrite !sumf_cons. f_equal.
  rewrite <- seq_shift, sumf_map. exact IH.
Qed.

Definition prior_mass (u : utt) : R :=
  sumf (prior_prob (u_graph u) (length (u_stats u))) (paths (cg_n (u_graph u)) (length (u_stats u))).
Definition ucst (scale : R) (skel : mset) (u : utt) : R :=
  ln (prior_mass u) + scale * (INR (length (u_stats u)) * sumf ecst (sk_ems skel u)).

Lemma utt_upper k D scale skel st u Q : 0 <= scale -> typed k D st skel -> utt_ok k D skel u ->
  (forall p i, In p (leafs skel) -> (i < length (st p))%nat -> In (p, i) Q) ->
  ln (evidence (u_graph u) (frames scale (utt_ems skel st u) (u_stats u))) <=
  ucst scale skel u + scale * sumf (spike st Q) (u_stats u).
Proof.
  intros Hs T U HQ. assert (U' := U). destruct U' as (_ & _ & Ho & Hn & p0 & Hp0 & Hpos).
  assert (Hl : length (utt_ems skel st u) = cg_n (u_graph u)) by (unfold utt_ems; rewrite map_length; exact Hn).
  assert (Hm : 0 < prior_mass u).
  { unfold prior_mass. eapply Rlt_le_trans; [exact Hpos|].
    apply (sumf_ge_term (prior_prob (u_graph u) (length (u_stats u)))); [intros; apply path_prob_nonneg|exact Hp0]. }
  assert (He := sk_ems_typed k D skel st u T U). assert (Ee := utt_ems_einst k D skel st u T U).
  assert (Hi : Forall (ein (leafs skel)) (sk_ems skel u)).
  { unfold sk_ems. apply Forall_map, Forall_forall. intros o Hin. apply Forall_nth_in; [now apply (typed_ein k D st)|]. rewrite denote_length. auto. }
  set (C := sumf ecst (sk_ems skel u)) in *. set (X := sumf (spike st Q) (u_stats u)).
  set (G := scale * (INR (length (u_stats u)) * C) + scale * X).
  assert (HP : forall p, In p (paths (cg_n (u_graph u)) (length (u_stats u))) ->
     path_loglik scale (utt_ems skel st u) (u_stats u) p <= G).
  { intros p Hp. unfold path_loglik, G.
    replace (scale * (INR (length (u_stats u)) * C) + scale * X)
      with (sumf (fun t => scale * (C + spike st Q (nth t (u_stats u) []))) (seq 0 (length (u_stats u)))).
    2:{ rewrite sumf_scal_l, sumf_plus, sumf_const, seq_length. rewrite (sumf_seq_nth (spike st Q)). unfold X. ring. }
    apply sumf_le. intros t Ht. apply in_seq in Ht. apply Rmult_le_compat_l; [exact Hs|].
    assert (Hj : (nth t p 0 < length (sk_ems skel u))%nat).
    { unfold sk_ems. rewrite map_length, Hn. eapply nth_path_lt; [exact Hp|]. lia. }
    rewrite Ee, (map_nth_lt _ _ _ e0) by exact Hj.
    assert (Hin : In (nth (nth t p 0%nat) (sk_ems skel u) e0) (sk_ems skel u)) by (now apply nth_In).
    eapply Rle_trans; [eapply (em_upper k D st (params skel) (leafs skel) Q); [exact (proj1 (Forall_forall _ _) He _ Hin)|exact (proj1 (Forall_forall _ _) Hi _ Hin)|exact HQ]|].
    apply Rplus_le_compat_r. apply (sumf_ge_term ecst); [intros; apply ecst_nonneg|exact Hin]. }
  eapply Rle_trans; [apply (ln_mono _ (prior_mass u * exp G))|].
  - now apply (utt_evidence k D scale skel st u).
  - unfold evidence, prior_mass. unfold frames at 2. rewrite map_length. rewrite <- sumf_scal_r. apply sumf_le. intros p Hp.
    rewrite path_prob_frames by auto. apply Rmult_le_compat_l; [apply path_prob_nonneg|].
    destruct (HP p Hp) as [L|E]; [left; now apply exp_increasing|rewrite E; lra].
  - rewrite ln_mult by (auto; apply exp_pos). rewrite ln_exp. unfold ucst, G, C. lra.
Qed.

(** ** All the utterances *)
Lemma all_frames k D skel utts : Forall (utt_ok k D skel) utts ->
  exists ys, concat (map u_stats utts) = map (suff k) ys /\ Forall (frame_ok k D) ys.
Proof.
  induction 1 as [|u us U HU (ys & E & F)]; [exists []; split; [reflexivity|constructor]|].
  destruct U as (_ & (xs & Ex & Fx) & _). exists (xs ++ ys). cbn [map concat]. rewrite Ex, E, map_app. split; [reflexivity|].
  apply Forall_app. auto.
Qed.

Lemma same_length skel a b p : priors_kept skel a b -> In p (params skel) -> length (b p) = length (a p).
Proof. intros H Hp. specialize (H p Hp). induction H; cbn; congruence. Qed.

Lemma same_at skel a b p i : priors_kept skel a b -> In p (params skel) -> (i < length (a p))%nat ->
  prior_kept (nth i (a p) dc) (nth i (b p) dc).
Proof.
  intros H Hp. specialize (H p Hp). revert i. induction H as [|x y l l' Hxy H IH]; intros i Hi; [cbn in Hi; lia|].
  destruct i; cbn [nth]; [exact Hxy|]. apply IH. cbn in Hi. lia.
Qed.

Lemma cells_ub k D K skel st0 ys : 0 <= K -> typed k D st0 skel -> Forall (frame_ok k D) ys ->
  forall Q, (forall q, In q Q -> In (fst q) (leafs skel) /\ (snd q < length (st0 (fst q)))%nat) ->
  exists B, forall st, typed k D st skel -> priors_kept skel st0 st ->
    sumf (fun q => K * sumf (fun y => Rmax 0 (dot (suff k y) (form st q))) ys - cell_kl (cell_at st q)) Q <= B.
Proof.
  intros HK T0 Hy. induction Q as [|[p i] Q IH]; intros HQ.
  - exists 0. intros st _ _. rewrite sumf_nil. lra.
  - destruct (HQ (p, i) (or_introl eq_refl)) as (Hp & Hi). cbn [fst snd] in Hp, Hi.
    destruct IH as (B & HB); [intros q Hq; apply HQ; now right|].
    destruct (leaf_ub k D (nth i (st0 p) dc) K (leafs_cells k D st0 skel p i T0 Hp Hi) HK ys Hy) as (B1 & HB1).
    exists (B1 + B). intros st T Hsm. rewrite sumf_cons. specialize (HB st T Hsm).
    assert (Hpp := leafs_incl skel p Hp). assert (Hi' : (i < length (st p))%nat) by (rewrite (same_length skel st0 st); auto).
    specialize (HB1 (nth i (st p) dc) (leafs_cells k D st skel p i T Hp Hi') (same_at skel st0 st p i Hsm Hpp Hi)).
    unfold form at 1, cell_at at 1. cbn [fst snd]. rewrite forms_nth by exact Hi'. lra.
Qed.

Lemma bound_ub k D scale w skel utts0 st0 : 0 <= scale -> 0 <= w ->
  typed k D st0 skel -> Forall (utt_ok k D skel) utts0 ->
  exists B, forall st utts, typed k D st skel -> priors_kept skel st0 st -> Forall (utt_ok k D skel) utts ->
    map u_stats utts = map u_stats utts0 -> bound scale w skel utts st <= w * sumf (ucst scale skel) utts + B.
Proof.
  intros Hs Hw T0 HU0. set (Q := allcells st0 (leafs skel)).
  destruct (all_frames k D skel utts0 HU0) as (ys & Ey & Fy).
  destruct (cells_ub k D (w * scale) skel st0 ys (Rmult_le_pos _ _ Hw Hs) T0 Fy Q) as (B & HB).
  { intros [p i] Hq. now apply allcells_in in Hq. }
  exists B. intros st utts T Hsm HU Es. rewrite <- Es in Ey. specialize (HB st T Hsm).
  assert (HQ : forall p i, In p (leafs skel) -> (i < length (st p))%nat -> In (p, i) Q).
  { intros p i Hp Hi. apply allcells_in. split; [exact Hp|]. rewrite <- (same_length skel st0 st); auto. now apply leafs_incl. }
  assert (HE : sumf (fun u => ln (evidence (u_graph u) (frames scale (utt_ems skel st u) (u_stats u)))) utts <=
    sumf (ucst scale skel) utts + scale * sumf (spike st Q) (concat (map u_stats utts))).
  { rewrite sumf_concat, map_map. change (rsum (map (fun x => sumf (spike st Q) (u_stats x)) utts)) with (sumf (fun u => sumf (spike st Q) (u_stats u)) utts).
    rewrite <- sumf_scal_l, <- sumf_plus. apply sumf_le. intros u Hu. apply (utt_upper k D); auto. exact (proj1 (Forall_forall _ _) HU u Hu). }
  assert (HK : sumf (fun q => cell_kl (cell_at st q)) Q <= total_kl skel st).
  { unfold total_kl. eapply Rle_trans; [|apply (leafs_sum (fun p => sumf cell_kl (st p)))].
    - right. unfold Q, allcells. rewrite sumf_flat_map. apply sumf_ext. intros p Hp. rewrite sumf_map. unfold cell_at. cbn [fst snd].
      rewrite <- (same_length skel st0 st) by (auto; now apply leafs_incl). apply (sumf_seq_nth cell_kl).
    - intros p Hp. apply sumf_nonneg. intros c Hc. destruct (In_nth _ _ dc Hc) as (i & Hi & <-).
      destruct (typed_cells k D st skel p i T Hp Hi) as [L|(n & W)]; [now apply (cell_kl_nonneg k D)|now apply (weights_kl_nonneg n)]. }
  rewrite sumf_minus, sumf_scal_l in HB. rewrite <- sumf_swap in HB.
  unfold bound. rewrite Ey, sumf_map in HE. unfold spike in HE.
  apply (Rmult_le_compat_l w) in HE; [|exact Hw]. lra.
Qed.

Theorem bound_bounded k D scale w skel utts st0 : 0 <= scale -> 0 <= w ->
  typed k D st0 skel -> Forall (utt_ok k D skel) utts ->
  exists B, forall st, typed k D st skel -> priors_kept skel st0 st -> bound scale w skel utts st <= B.
Proof.
  intros Hs Hw T0 HU. destruct (bound_ub k D scale w skel utts st0 Hs Hw T0 HU) as (B & HB).
  exists (w * sumf (ucst scale skel) utts + B). intros st T Hsm. now apply HB.
Qed.
