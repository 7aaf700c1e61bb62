(** Proofs about the training of phone-loops. *)
From Coq Require Import Reals List Arith Bool Lia Lra.
From Verif Require Import Prelude Vec Lgamma FB_Model FB_Spec FB_Proofs Edit_Model Dec_Model Set_Model Set_Spec Set_Proofs
  HMM_Model HMM_Spec HMM_Proofs HMM_Props Dist_Model Dist_Spec Dist_Proofs NG_Proofs KL_Proofs Dist_Props Mat NW_Model NW_Spec NW_Proofs NW_KL NW_Props
  Vt_Model Vt_Spec Vt_Proofs Vt_Props Vl_Model Vl_Spec.
Import ListNotations.
Local Open Scope R_scope.

(** ** One utterance, when the graph changes too *)
Lemma utt_gain_graph k D st st' ps Q g g' d scale es0 stats : NoDup Q -> 0 <= scale ->
  cg_n g' = cg_n g ->
  (forall p, In p (paths (cg_n g) (length stats)) ->
     prior_prob g' (length stats) p = prior_prob g (length stats) p * exp (d p)) ->
  (forall p i, In p ps -> (i < length (st p))%nat -> In (p, i) Q) ->
  length es0 = cg_n g -> Forall (etyped k D st ps) es0 -> Forall (etyped k D st' ps) es0 ->
  Forall (fun x => length x = suff_dim k D) stats ->
  let es := map (einst (forms st)) es0 in let es' := map (einst (forms st')) es0 in
  0 < evidence g (frames scale es stats) -> 0 < evidence g' (frames scale es' stats) ->
  sumf (fun q => sumf (fun i => scale * expect g (frames scale es stats) (path_stats q i es stats) *
      (nth i (form st' q) 0 - nth i (form st q) 0)) (seq 0 (length (form st q)))) Q
  + expect g (frames scale es stats) d <=
  ln (evidence g' (frames scale es' stats)) - ln (evidence g (frames scale es stats)).
Proof.
  intros HQ Hs Hg Hd HIn Hl T1 T2 Hx es es' P1 P2.
  assert (Le : length es = cg_n g) by (unfold es; now rewrite map_length).
  assert (Le' : length es' = cg_n g) by (unfold es'; now rewrite map_length).
  set (T := length stats). set (ps0 := paths (cg_n g) T).
  set (Z := evidence g (frames scale es stats)) in *. set (Z' := evidence g' (frames scale es' stats)) in *.
  set (L := path_loglik scale es stats). set (L0 := path_loglik scale es' stats). set (L' := fun p => L0 p + d p).
  set (pr := prior_prob g T).
  assert (EZ : Z = sumf (fun p => pr p * exp (L p)) ps0).
  { unfold Z, evidence. rewrite frames_length. apply sumf_ext. intros p Hp. now apply path_prob_frames. }
  assert (EZ' : Z' = sumf (fun p => pr p * exp (L' p)) ps0).
  { unfold Z', evidence. rewrite frames_length, Hg. apply sumf_ext. intros p Hp.
    rewrite path_prob_frames by (rewrite ?Hg; auto). fold T. rewrite Hd by exact Hp. fold L0. unfold L'. rewrite exp_plus. fold T pr. ring. }
  assert (Ew : forall f, expect g (frames scale es stats) f = sumf (fun p => pr p * exp (L p) / Z * f p) ps0).
  { intros f. unfold expect. rewrite frames_length. apply sumf_ext. intros p Hp.
    rewrite path_prob_frames by auto. reflexivity. }
  assert (Hpr : forall p, 0 <= pr p) by (intros; apply path_prob_nonneg).
  assert (Hw : forall p, 0 <= pr p * exp (L p) / Z).
  { intros p. apply Rmult_le_pos; [apply Rmult_le_pos; [apply Hpr|left; apply exp_pos]|left; now apply Rinv_0_lt_compat]. }
  assert (J := jensen ps0 (fun p => pr p * exp (L p) / Z) (fun p => L' p - L p)). cbv beta in J.
  assert (E1 : sumf (fun p => pr p * exp (L p) / Z) ps0 = 1).
  { unfold Rdiv. rewrite sumf_scal_r, <- EZ. field. lra. }
  assert (E2 : sumf (fun p => pr p * exp (L p) / Z * exp (L' p - L p)) ps0 = Z' * / Z).
  { rewrite EZ', <- sumf_scal_r. apply sumf_ext. intros p _. unfold Rdiv.
    replace (exp (L' p)) with (exp (L p) * exp (L' p - L p)) by (rewrite <- exp_plus; f_equal; ring). ring. }
  rewrite E2, ln_mult, ln_Rinv in J; auto using Rinv_0_lt_compat.
  eapply Rle_trans; [|apply J; auto]. clear J.
  assert (Ep : forall p, In p ps0 ->
    sumf (fun q => sumf (fun i => scale * path_stats q i es stats p * (nth i (form st' q) 0 - nth i (form st q) 0))
      (seq 0 (length (form st q)))) Q + d p <= L' p - L p).
  { intros p Hp. unfold L'. apply Rplus_le_reg_r with (- d p). replace (L0 p + d p - L p + - d p) with (L0 p - L p) by ring.
    rewrite Rplus_assoc, Rplus_opp_r, Rplus_0_r. unfold L, L0, path_loglik. rewrite <- sumf_minus. fold T.
    eapply Rle_trans; [|apply (sumf_le (fun t => scale * gain (nth t stats []) st st' (nth (nth t p 0%nat) es0 e0)))].
    - apply Req_le.
      rewrite (sumf_ext _ (fun t => scale * lin_gain Q st st' (nth t stats []) (nth (nth t p 0%nat) es0 e0) 1) (seq 0 T)).
      2:{ intros t Ht. apply in_seq in Ht. f_equal.
          assert (Hj : (nth t p 0 < length es0)%nat) by (rewrite Hl; eapply nth_path_lt; eauto; lia).
          rewrite <- (gain_acc k D _ st st' ps Q); auto; [ring| | |].
          - now apply Forall_nth_in.
          - now apply Forall_nth_in.
          - apply (Forall_nth_in _ stats t [] Hx). fold T. lia. }
      unfold lin_gain. rewrite sumf_scal_l. rewrite sumf_swap, <- sumf_scal_l. apply sumf_ext. intros q _.
      rewrite sumf_swap, <- sumf_scal_l. apply sumf_ext. intros i _. unfold path_stats. fold T.
      rewrite Rmult_assoc. f_equal. rewrite <- sumf_scal_r. apply sumf_ext. intros t Ht. apply in_seq in Ht. f_equal. f_equal.
      unfold es. apply map_nth_lt. rewrite Hl. eapply nth_path_lt; eauto; lia.
    - intros t Ht. apply in_seq in Ht.
      assert (Hj : (nth t p 0 < length es0)%nat) by (rewrite Hl; eapply nth_path_lt; eauto; lia).
      unfold es, es'. rewrite !(map_nth_lt _ _ _ e0) by auto. rewrite <- Rmult_minus_distr_l.
      apply Rmult_le_compat_l; auto. apply (gain_le k D _ st st' ps); now apply Forall_nth_in. }
  eapply Rle_trans; [|apply sumf_le; intros p Hp; apply Rmult_le_compat_l; [apply Hw|apply (Ep p Hp)]].
  rewrite (Ew d).
  rewrite (sumf_ext (fun p => pr p * exp (L p) / Z * (_ + d p)) (fun p => pr p * exp (L p) / Z *
    sumf (fun q => sumf (fun i => scale * path_stats q i es stats p * (nth i (form st' q) 0 - nth i (form st q) 0))
      (seq 0 (length (form st q)))) Q + pr p * exp (L p) / Z * d p)) by (intros; ring).
  rewrite sumf_plus. apply Rplus_le_compat_r. apply Req_le.
  rewrite (sumf_ext (fun p => _ * sumf _ Q) (fun p => sumf (fun q => pr p * exp (L p) / Z *
    sumf (fun i => scale * path_stats q i es stats p * (nth i (form st' q) 0 - nth i (form st q) 0)) (seq 0 (length (form st q)))) Q))
    by (intros; now rewrite sumf_scal_l).
  rewrite sumf_swap. apply sumf_ext. intros q _.
  rewrite (sumf_ext (fun p => _ * sumf _ _) (fun p => sumf (fun i => pr p * exp (L p) / Z *
    (scale * path_stats q i es stats p * (nth i (form st' q) 0 - nth i (form st q) 0))) (seq 0 (length (form st q)))))
    by (intros; now rewrite sumf_scal_l).
  rewrite sumf_swap. apply sumf_ext. intros i _. rewrite Ew. rewrite Rmult_assoc, (Rmult_comm (sumf _ _)), <- Rmult_assoc, <- sumf_scal_l.
  apply sumf_ext. intros; ring.
Qed.

(** ** The weights *)
Lemma cat_logprob_ess q k : (k < length q)%nat -> cat_logprob (dir_ess q) k = digamma (nth k q 0) - digamma (rsum q).
Proof.
  intros Hk. assert (Hne : q <> []) by (intros ->; simpl in Hk; lia).
  unfold cat_logprob. rewrite dir_ess_length by auto. unfold dir_ess.
  assert (Lr : length (removelast q) = pred (length q)) by apply removelast_length.
  assert (La : last q 0 = nth (pred (length q)) q 0) by apply last_nth.
  destruct (Nat.eqb_spec (S k) (length q)) as [E|N].
  - rewrite app_nth2 by (rewrite map_length, Lr; lia). rewrite map_length, Lr.
    replace (k - pred (length q))%nat with 0%nat by lia. cbn [nth]. rewrite La. now replace (pred (length q)) with k by lia.
  - rewrite app_nth1 by (rewrite map_length, Lr; lia). rewrite (map_nth_lt _ _ _ 0) by (rewrite Lr; lia).
    rewrite last_last. rewrite nth_removelast by lia. lra.
Qed.

Lemma wform_eq l st : weights_ok l st -> exists p q, st (pl_weights l) = [CWeights p q] /\
  dir_ok (length (pl_starts l)) p /\ dir_ok (length (pl_starts l)) q /\
  nth 0 (forms st (pl_weights l)) [] = dir_ess q.
Proof.
  intros (c & E & W). destruct c as [| | |p q]; simpl in W; try tauto. exists p, q.
  unfold forms. rewrite E. split; [reflexivity|]. split; [apply W|]. split; [apply W|reflexivity].
Qed.

Lemma log_weights_ok l st : weights_ok l st -> length (log_weights l st) = length (pl_starts l) /\
  forall k, (k < length (pl_starts l))%nat -> nth k (log_weights l st) 0 = elogw l st k.
Proof.
  intros H. destruct (wform_eq l st H) as (p & q & E & Hp & Hq & Ef). unfold log_weights.
  rewrite mixture_log_weights_eq, Ef. destruct Hq as (Lq & Hpos & _).
  assert (Le : length (dir_ess q) = length (pl_starts l)).
  { rewrite dir_ess_length; auto. intros ->. simpl in Lq. lia. }
  split; [now rewrite cat_logprobs_length|]. intros k Hk. unfold cat_logprobs.
  rewrite (map_nth_lt _ _ _ 0%nat), seq_nth by (rewrite ?seq_length, Le; auto). cbn [plus].
  rewrite cat_logprob_ess by (rewrite Lq; auto). unfold elogw. now rewrite E.
Qed.

Lemma update_tuned l st tr : loop_ok l -> weights_ok l st ->
  (forall e, In e (pl_ends l) -> ex (tr e e) <= 1) ->
  tuned l {| ls_pars := st; ls_trans := on_weights_update (log_weights l st) (pl_starts l) (pl_ends l) tr |} /\
  (forall i j, ~ (In i (pl_ends l) /\ In j (pl_starts l)) ->
     on_weights_update (log_weights l st) (pl_starts l) (pl_ends l) tr i j = tr i j).
Proof.
  intros (Ns & Ne & Hd & Hne & Hs & He) W Hle. destruct (log_weights_ok l st W) as [Ll El].
  assert (Ho : forall i j, ~ (In i (pl_ends l) /\ In j (pl_starts l)) ->
     on_weights_update (log_weights l st) (pl_starts l) (pl_ends l) tr i j = tr i j).
  { intros i j H. apply C19_others_unchanged; auto.
    destruct (in_dec Nat.eq_dec i (pl_ends l)); [|now left]. right. tauto. }
  split; [|exact Ho]. split; cbn [ls_trans ls_pars].
  - intros e Hin. rewrite Ho; [auto|]. intros [_ H]. now apply (Hd e).
  - intros e k Hin Hk. rewrite (Ho e e) by (intros [_ H]; now apply (Hd e)).
    rewrite C19_entries by auto. now rewrite El.
Qed.

(** ** Change of the prior over the paths *)
Definition moves (ends : list nat) (s : nat) (p : list nat) : R :=
  sumf (fun t => if existsb (Nat.eqb (nth t p 0%nat)) ends && Nat.eqb (nth (S t) p 0%nat) s then 1 else 0)
    (seq 0 (pred (length p))).

Definition edge (ends starts : list nat) (d : nat -> R) (i j : nat) : R :=
  sumf (fun k => (if existsb (Nat.eqb i) ends && Nat.eqb j (nth k starts 0%nat) then 1 else 0) * d k)
    (seq 0 (length starts)).

Definition same_frame (g g' : cgraph) (c : nat -> nat -> R) : Prop :=
  cg_n g' = cg_n g /\ cg_init g' = cg_init g /\ cg_final g' = cg_final g /\
  forall i j, ex (cg_trans g' i j) = ex (cg_trans g i j) * exp (c i j).

Lemma tail_prob_change g g' c : same_frame g g' c -> forall ls s p,
  tail_prob g' s ls p = tail_prob g s ls p *
    exp (sumf (fun t => c (nth t (s :: p) 0%nat) (nth t p 0%nat)) (seq 0 (length p))).
Proof.
  intros (_ & _ & Hf & Ht) ls. induction ls as [|r ls IH]; intros s [|j p]; cbn [tail_prob].
  - cbn [length seq]. rewrite sumf_nil, exp_0, Hf. ring.
  - ring.
  - ring.
  - rewrite IH, Ht. cbn [length seq]. rewrite sumf_cons, exp_plus, <- seq_shift, sumf_map. cbn [nth]. ring.
Qed.

Lemma prior_change g g' c T p : same_frame g g' c ->
  prior_prob g' T p = prior_prob g T p *
    exp (sumf (fun t => c (nth t p 0%nat) (nth (S t) p 0%nat)) (seq 0 (pred (length p)))).
Proof.
  intros H. unfold prior_prob. destruct T as [|T], p as [|j p]; cbn [repeat path_prob]; try ring.
  rewrite (tail_prob_change g g' c H). destruct H as (_ & Hi & _). rewrite Hi. cbn [length pred].
  change (fun t => c (nth t (j :: p) 0%nat) (nth (S t) (j :: p) 0%nat)) with
    (fun t => c (nth t (j :: p) 0%nat) (nth t p 0%nat)). ring.
Qed.

Lemma edge_moves ends starts d p :
  sumf (fun t => edge ends starts d (nth t p 0%nat) (nth (S t) p 0%nat)) (seq 0 (pred (length p))) =
  sumf (fun k => moves ends (nth k starts 0%nat) p * d k) (seq 0 (length starts)).
Proof.
  unfold edge, moves. rewrite sumf_swap. apply sumf_ext. intros k _. rewrite <- sumf_scal_r.
  apply sumf_ext. intros; reflexivity.
Qed.

Lemma edge_out ends starts d i j : ~ (In i ends /\ In j starts) -> edge ends starts d i j = 0.
Proof.
  intros H. unfold edge. apply sumf_zero. intros k Hk. apply in_seq in Hk.
  destruct (existsb (Nat.eqb i) ends) eqn:E1; [|cbn; ring].
  destruct (Nat.eqb_spec j (nth k starts 0%nat)) as [E2|]; [|cbn; ring]. exfalso. apply H. split.
  - apply existsb_exists in E1. destruct E1 as (x & Hx & Ex). apply Nat.eqb_eq in Ex. now subst.
  - subst j. apply nth_In. lia.
Qed.

Lemma edge_in ends starts d i k : NoDup starts -> In i ends -> (k < length starts)%nat ->
  edge ends starts d i (nth k starts 0%nat) = d k.
Proof.
  intros N Hi Hk. unfold edge. replace (existsb (Nat.eqb i) ends) with true.
  2:{ symmetry. apply existsb_exists. exists i. split; [auto|apply Nat.eqb_refl]. }
  cbn [andb]. rewrite (sumf_ext _ (fun k' => if Nat.eqb k k' then d k' else 0)).
  - rewrite (sumf_seq_single _ _ k); auto; [now rewrite Nat.eqb_refl|].
    intros x _ Hx. destruct (Nat.eqb_spec k x); [congruence|reflexivity].
  - intros k' Hk'. apply in_seq in Hk'. destruct (Nat.eqb_spec k k') as [->|Nk]; [rewrite Nat.eqb_refl; ring|].
    destruct (Nat.eqb_spec (nth k starts 0%nat) (nth k' starts 0%nat)) as [E|]; [|ring].
    exfalso. apply Nk. eapply NoDup_nth; eauto. lia.
Qed.

Lemma tuned_change l s s' : loop_ok l -> tuned l s -> tuned l s' ->
  (forall i j, ~ (In i (pl_ends l) /\ In j (pl_starts l)) -> ls_trans s' i j = ls_trans s i j) ->
  same_frame (with_trans (pl_graph l) (ls_trans s)) (with_trans (pl_graph l) (ls_trans s'))
    (edge (pl_ends l) (pl_starts l) (fun k => elogw l (ls_pars s') k - elogw l (ls_pars s) k)).
Proof.
  intros (Ns & Ne & Hd & _) [_ T1] [_ T2] Ho. split; [reflexivity|]. split; [reflexivity|]. split; [reflexivity|].
  intros i j. cbn [with_trans cg_trans].
  destruct (in_dec Nat.eq_dec i (pl_ends l)) as [Hi|Hi].
  2:{ rewrite Ho, edge_out, exp_0 by tauto. ring. }
  destruct (in_dec Nat.eq_dec j (pl_starts l)) as [Hj|Hj].
  2:{ rewrite Ho, edge_out, exp_0 by tauto. ring. }
  apply (In_nth _ _ 0%nat) in Hj. destruct Hj as (k & Hk & <-).
  rewrite edge_in, T1, T2 by auto. rewrite (Ho i i) by (intros [_ H]; now apply (Hd i)).
  rewrite Rmult_assoc, <- exp_plus. f_equal. f_equal. ring.
Qed.
