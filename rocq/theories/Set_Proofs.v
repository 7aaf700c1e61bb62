(** Lemmas on model sets. *)
From Coq Require Import Reals List Arith Bool Lia Lra ZArith Permutation.
From Verif Require Import Prelude Vec Edit_Model Edit_Proofs Dec_Model Dec_Proofs Set_Model Set_Spec.
Import ListNotations.
Local Open Scope R_scope.

(** ** Induction principle *)
Section MsetInd.
  Variable P : mset -> Prop.
  Hypothesis HL : forall p d nf c, P (Leaf p d nf c).
  Hypothesis HJ : forall l, Forall P l -> P (Joint l).
  Hypothesis HR : forall m r, P m -> P (Rep m r).
  Hypothesis HM : forall p cf m, P m -> P (Mix p cf m).

  Fixpoint mset_rect' (m : mset) : P m :=
    match m with
    | Leaf p d nf c => HL p d nf c
    | Joint l => HJ l ((fix go l : Forall P l :=
        match l with [] => Forall_nil P | m :: t => Forall_cons m (mset_rect' m) (go t) end) l)
    | Rep m r => HR m r (mset_rect' m)
    | Mix p cf m => HM p cf m (mset_rect' m)
    end.
End MsetInd.

Section EmInd.
  Variable P : em -> Prop.
  Hypothesis HC : forall p k nf c, P (EComp p k nf c).
  Hypothesis HM : forall p k cf l, Forall P l -> P (EMix p k cf l).

  Fixpoint em_rect' (e : em) : P e :=
    match e with
    | EComp p k nf c => HC p k nf c
    | EMix p k cf l => HM p k cf l ((fix go l : Forall P l :=
        match l with [] => Forall_nil P | m :: t => Forall_cons m (em_rect' m) (go t) end) l)
    end.
End EmInd.

(** ** Lists *)
Lemma map2_ext {A B C} (f g : A -> B -> C) l m :
  (forall a b, In (a, b) (combine l m) -> f a b = g a b) -> map2 f l m = map2 g l m.
Proof.
  revert m; induction l as [|a l IH]; intros [|b m] H; simpl; auto.
  f_equal; [apply H; now left|apply IH; intros; apply H; now right].
Qed.

Lemma map2_map_r {A B C D} (f : A -> B -> C) (g : D -> B) l m :
  map2 f l (map g m) = map2 (fun a d => f a (g d)) l m.
Proof. revert m; induction l; intros [|]; simpl; auto; congruence. Qed.

Lemma map2_map_l {A B C D} (f : A -> B -> C) (g : D -> A) l m :
  map2 f (map g l) m = map2 (fun d b => f (g d) b) l m.
Proof. revert m; induction l; intros [|]; simpl; auto; congruence. Qed.

Lemma map2_swap {A B C} (f : A -> B -> C) l m : map2 f l m = map2 (fun b a => f a b) m l.
Proof. revert m; induction l; intros [|]; simpl; auto; congruence. Qed.

Lemma rsum_map2_plus {A B} (f g : A -> B -> R) l m :
  rsum (map2 (fun a b => f a b + g a b) l m) = rsum (map2 f l m) + rsum (map2 g l m).
Proof. revert m; induction l; intros [|]; simpl; try lra. rewrite IHl. lra. Qed.

Lemma rsum_map2_zero {A B} (f : A -> B -> R) l m :
  (forall a b, In (a, b) (combine l m) -> f a b = 0) -> rsum (map2 f l m) = 0.
Proof.
  revert m; induction l as [|a l IH]; intros [|b m] H; simpl; auto.
  rewrite (H a b), IH; [lra| |now left]. intros; apply H; now right.
Qed.

Lemma rsum_map2_index {A B} (f : A -> B -> R) l m da db : length l = length m ->
  rsum (map2 f l m) = sumf (fun k => f (nth k l da) (nth k m db)) (seq 0 (length l)).
Proof.
  intros H. rewrite rsum_nth, map2_length, <- H, Nat.min_id. apply sumf_ext.
  intros k Hk. apply in_seq in Hk. apply map2_nth; lia.
Qed.

Lemma in_combine_Forall {A B} (P : A -> Prop) (Q : B -> Prop) l m a b :
  Forall P l -> Forall Q m -> In (a, b) (combine l m) -> P a /\ Q b.
Proof.
  intros HP HQ H. rewrite Forall_forall in HP, HQ. split.
  - apply HP. now apply in_combine_l in H.
  - apply HQ. now apply in_combine_r in H.
Qed.

Lemma map_nth_seq {A B} (f : A -> B) (l : list A) d :
  map (fun k => f (nth k l d)) (seq 0 (length l)) = map f l.
Proof.
  induction l as [|a l IH]; [reflexivity|]. simpl. f_equal. rewrite <- IH, <- seq_shift, map_map.
  reflexivity.
Qed.

Lemma skipn_nth {A} (l : list A) a k d : nth k (skipn a l) d = nth (a + k) l d.
Proof. revert l; induction a; intros [|x l]; simpl; auto. now destruct k. Qed.

Lemma firstn_nth {A} (l : list A) n k d : (k < n)%nat -> nth k (firstn n l) d = nth k l d.
Proof. revert l k; induction n; intros [|x l] [|k] H; simpl; auto; try lia. apply IHn; lia. Qed.

Lemma blocks_length {A} c w (l : list A) : length (blocks c w l) = c.
Proof. unfold blocks. now rewrite map_length, seq_length. Qed.

Lemma blocks_nth {A} c w (l : list A) i d : (i < c)%nat ->
  nth i (blocks c w l) d = firstn w (skipn (i * w) l).
Proof.
  intros H. unfold blocks.
  rewrite (nth_indep _ d (firstn w (skipn (c * w) l))) by (rewrite map_length, seq_length; lia).
  rewrite (map_nth (fun i => firstn w (skipn (i * w) l))), seq_nth by lia. reflexivity.
Qed.

Lemma blocks_row_length {A} c w (l : list A) : length l = (c * w)%nat ->
  Forall (fun r => length r = w) (blocks c w l).
Proof.
  intros H. unfold blocks. apply Forall_forall. intros r Hr. apply in_map_iff in Hr.
  destruct Hr as (i & <- & Hi). apply in_seq in Hi.
  rewrite firstn_length, skipn_length. nia.
Qed.

Lemma blocks_nth_nth {A} c w (l : list A) i j d : (i < c)%nat -> (j < w)%nat ->
  nth j (nth i (blocks c w l) []) d = nth (i * w + j) l d.
Proof. intros Hi Hj. now rewrite blocks_nth, firstn_nth, skipn_nth. Qed.

Lemma seq_map_S a n : seq (S a) n = map S (seq a n).
Proof. now rewrite seq_shift. Qed.

Lemma sumf_seq_shift (f : nat -> R) a n : sumf f (seq a n) = sumf (fun k => f (a + k)%nat) (seq 0 n).
Proof.
  revert a; induction n as [|n IH]; intros a; [reflexivity|].
  simpl seq. rewrite !sumf_cons, IH. rewrite Nat.add_0_r. f_equal.
  rewrite (seq_map_S 0 n), sumf_map. apply sumf_ext. intros k _. f_equal. lia.
Qed.

Lemma sumf_seq_mul (f : nat -> R) c w :
  sumf f (seq 0 (c * w)) =
  sumf (fun i => sumf (fun j => f (i * w + j)%nat) (seq 0 w)) (seq 0 c).
Proof.
  induction c as [|c IH]; [reflexivity|].
  rewrite seq_S, sumf_app, <- IH. replace (S c * w)%nat with (c * w + w)%nat by lia.
  rewrite seq_app, sumf_app. simpl. rewrite sumf_cons, sumf_nil, (sumf_seq_shift f (c * w)). lra.
Qed.

Lemma NoDup_split {A} (a b : list A) : NoDup (a ++ b) ->
  NoDup a /\ NoDup b /\ (forall x, In x a -> ~ In x b).
Proof.
  induction a as [|y a IH]; simpl; intros H.
  - split; [constructor|split; [exact H|intros x []]].
  - inversion_clear H. destruct (IH H1) as (Ha & Hb & Hd). split; [|split; [exact Hb|]].
    + constructor; [|exact Ha]. intros Hy. apply H0. apply in_app_iff. now left.
    + intros x [<-|Hx]; [|now apply Hd]. intros Hy. apply H0. apply in_app_iff. now right.
Qed.

(** ** Sizes *)
Lemma denote_length m : length (denote m) = size m.
Proof.
  induction m as [p d nf c|l IH|m r IH|p cf m IH] using mset_rect'; simpl.
  - now rewrite map_length, seq_length.
  - induction IH as [|m t Hm Ht IHt]; [reflexivity|]. now rewrite app_length, Hm, IHt.
  - now rewrite map_length, seq_length, IH.
  - now rewrite map_length, seq_length.
Qed.

Lemma concat_repeat_length {A} (l : list A) r :
  length (concat (repeat l r)) = (length l * r)%nat.
Proof. induction r; simpl; [lia|]. rewrite app_length, IHr. lia. Qed.

Lemma log_weights_length n cf : length (log_weights n cf) = length cf.
Proof. unfold log_weights, transpose. now rewrite map_length, seq_length. Qed.

Lemma ellh_length m x : length (ellh m x) = size m.
Proof.
  induction m as [p d nf c|l IH|m r IH|p cf m IH] using mset_rect'; simpl.
  - unfold lin. now rewrite !map_length.
  - induction IH as [|m t Hm Ht IHt]; [reflexivity|]. now rewrite app_length, Hm, IHt.
  - now rewrite concat_repeat_length, IH.
  - unfold weighted. rewrite map_length, map2_length, blocks_length, log_weights_length. lia.
Qed.

(** ** Weights *)
Lemma cat_stats_unit n j : (j < n)%nat ->
  cat_stats (unit_row n j) = removelast (unit_row n j) ++ [1].
Proof. intros H. unfold cat_stats. now rewrite rsum_unit_row. Qed.

Lemma dot_cat_stats_unit n j cf : length cf = n -> (j < n)%nat ->
  dot (cat_stats (unit_row n j)) cf = cat_logprob cf j.
Proof.
  intros Hl Hj. rewrite cat_stats_unit by auto.
  assert (Hne : cf <> []) by (destruct cf; simpl in *; [lia|discriminate]).
  rewrite (app_removelast_last 0 Hne) at 1.
  rewrite dot_app by (rewrite !removelast_length, unit_row_length; congruence).
  assert (Hd : dot (removelast (unit_row n j)) (removelast cf) =
               if Nat.eqb (S j) n then 0 else nth j cf 0).
  { rewrite dot_nth by (rewrite !removelast_length, unit_row_length; congruence).
    rewrite removelast_length, unit_row_length.
    rewrite (sumf_ext _ (fun k => if Nat.eqb k j then nth j cf 0 else 0)).
    - destruct (Nat.eqb_spec (S j) n) as [E|E].
      + apply sumf_zero. intros k Hk. apply in_seq in Hk.
        destruct (Nat.eqb_spec k j); [lia|reflexivity].
      + rewrite (sumf_seq_single _ (pred n) j); [now rewrite Nat.eqb_refl|lia|].
        intros k Hk Hne'. destruct (Nat.eqb_spec k j); [congruence|reflexivity].
    - intros k Hk. apply in_seq in Hk.
      rewrite !removelast_nth, unit_row_nth by (rewrite ?unit_row_length; lia).
      destruct (Nat.eqb_spec k j) as [->|]; lra. }
  rewrite Hd. unfold cat_logprob. rewrite Hl.
  unfold dot, vmul. cbn [map2 rsum fold_right]. destruct (Nat.eqb_spec (S j) n) as [E|E].
  - rewrite last_nth. replace (pred (length cf)) with j by lia. unfold rsum. simpl. lra.
  - unfold rsum. simpl. lra.
Qed.

Lemma log_weights_nth n cf i : (i < length cf)%nat -> Forall (fun w => length w = n) cf ->
  nth i (log_weights n cf) [] = cat_logprobs (nth i cf []).
Proof.
  intros Hi Hf. unfold log_weights, transpose.
  rewrite (map_nth_lt _ _ _ 0%nat) by (rewrite seq_length; lia).
  rewrite seq_nth by lia. simpl. unfold cat_logprobs, eye. rewrite !map_map.
  assert (Hl : length (nth i cf []) = n).
  { rewrite Forall_forall in Hf. apply Hf. now apply nth_In. }
  rewrite Hl. apply map_ext_in. intros j Hj. apply in_seq in Hj.
  unfold lin. rewrite (map_nth_lt _ _ _ []) by auto.
  apply dot_cat_stats_unit; [auto|lia].
Qed.

Lemma cat_logprobs_length cf : length (cat_logprobs cf) = length cf.
Proof. unfold cat_logprobs. now rewrite map_length, seq_length. Qed.

(** ** log-sum-exp *)
Lemma rsum_exp_pos l : l <> [] -> 0 < rsum (map exp l).
Proof.
  intros H. destruct l as [|a l]; [congruence|]. simpl.
  assert (0 <= rsum (map exp l)).
  { induction l; simpl; [lra|]. pose proof (exp_pos a0). assert (a :: l <> []) by discriminate.
    specialize (IHl ltac:(discriminate)). lra. }
  pose proof (exp_pos a). lra.
Qed.

Lemma logsumexp_eq l : l <> [] -> logsumexp l = ln (rsum (map exp l)).
Proof.
  intros H. unfold logsumexp. set (t := lmax l).
  assert (E : rsum (map (fun v => exp (v - t)) l) = exp (- t) * rsum (map exp l)).
  { clear H. generalize t as s. clear t. intros s.
    induction l as [|a l IH]; simpl; [lra|]. rewrite IH.
    replace (a - s) with (a + - s) by ring. rewrite exp_plus. ring. }
  rewrite E, ln_mult, ln_exp; [ring|apply exp_pos|now apply rsum_exp_pos].
Qed.

(** ** The likelihood *)
Lemma nth_concat_repeat {A} (l : list A) r k d : (k < length l * r)%nat ->
  nth k (concat (repeat l r)) d = nth (k mod length l) l d.
Proof.
  revert k; induction r as [|r IH]; intros k H; [lia|]. simpl.
  destruct (Nat.lt_ge_cases k (length l)).
  - rewrite app_nth1, Nat.mod_small by lia. reflexivity.
  - rewrite app_nth2 by lia. rewrite IH by nia. f_equal.
    rewrite <- (Nat.mod_add (k - length l) 1 (length l)) by lia. f_equal. lia.
Qed.

Lemma div_size c n : (0 < c)%nat -> (c * n / c)%nat = n.
Proof. intros. rewrite Nat.mul_comm. apply Nat.div_mul. lia. Qed.

Lemma weighted_nth n cf llhs i : (i < length cf)%nat -> length llhs = (length cf * n)%nat ->
  Forall (fun w => length w = n) cf ->
  nth i (weighted n cf llhs) [] =
  map2 (fun w l => w + l) (cat_logprobs (nth i cf []))
       (map (fun j => nth (i * n + j) llhs 0) (seq 0 n)).
Proof.
  intros Hi Hl Hf. unfold weighted.
  rewrite (map2_nth _ _ _ _ [] []) by (rewrite ?blocks_length, ?log_weights_length; auto).
  rewrite log_weights_nth by auto. unfold vadd. rewrite map2_swap.
  rewrite (map2_ext _ (fun w l => w + l)) by (intros; lra). f_equal.
  rewrite blocks_nth by auto. apply vec_ext.
  - rewrite map_length, seq_length, firstn_length, skipn_length. nia.
  - intros k Hk. rewrite firstn_length, skipn_length in Hk.
    rewrite firstn_nth, skipn_nth by lia.
    rewrite (map_nth_lt _ _ _ 0%nat) by (rewrite seq_length; lia).
    rewrite seq_nth by lia. reflexivity.
Qed.

Lemma joint_probs_exp cf llhs : map exp (map2 (fun w l => w + l) (cat_logprobs cf) llhs) =
  joint_probs cf llhs.
Proof. unfold joint_probs. apply map_map2. Qed.

Theorem ellh_denote m x : wf m -> ellh m x = map (em_llh x) (denote m).
Proof.
  induction m as [p d nf c|l IH|m r IH|p cf m IH] using mset_rect'; intros Hw.
  - simpl. unfold lin. rewrite !map_map.
    rewrite <- (map_nth_seq (fun w => dot x w + c) nf []). reflexivity.
  - induction IH as [|m t Hm Ht IHt]; [reflexivity|].
    simpl in Hw |- *. destruct Hw as [Hw1 Hw2]. rewrite map_app, Hm by auto. f_equal. now apply IHt.
  - simpl in Hw |- *. destruct Hw as [Hw Hr]. rewrite IH by auto. rewrite map_map.
    apply vec_ext.
    + rewrite concat_repeat_length, !map_length, seq_length. reflexivity.
    + intros k Hk. rewrite concat_repeat_length in Hk. rewrite nth_concat_repeat by auto.
      rewrite map_length in Hk |- *.
      assert (Hm : (k mod length (denote m) < length (denote m))%nat)
        by (apply Nat.mod_upper_bound; lia).
      rewrite (map_nth_lt _ _ _ e0) by auto.
      rewrite (map_nth_lt _ _ _ 0%nat) by (rewrite seq_length; lia).
      rewrite seq_nth by lia. reflexivity.
  - simpl in Hw |- *. destruct Hw as (Hw & Hc & n & Hn & Hs & Hf). rewrite map_map.
    unfold ncpm. rewrite denote_length, Hs, div_size by auto.
    apply vec_ext.
    + unfold weighted. rewrite !map_length, map2_length, blocks_length, log_weights_length, seq_length. lia.
    + intros k Hk. unfold weighted in Hk.
      rewrite map_length, map2_length, blocks_length, log_weights_length in Hk.
      assert (Hk' : (k < length cf)%nat) by lia. clear Hk.
      rewrite (map_nth_lt _ _ _ []) by
        (unfold weighted; rewrite map2_length, blocks_length, log_weights_length; lia).
      rewrite (map_nth_lt _ _ _ 0%nat) by (rewrite seq_length; lia).
      rewrite seq_nth by lia. cbn [Nat.add em_llh].
      rewrite weighted_nth by (rewrite ?ellh_length; auto).
      assert (Hlk : length (nth k cf []) = n).
      { rewrite Forall_forall in Hf. apply Hf. now apply nth_In. }
      rewrite logsumexp_eq, joint_probs_exp.
      * f_equal. f_equal. f_equal. rewrite map_map. apply map_ext_in. intros j Hj.
        apply in_seq in Hj. rewrite IH by auto.
        rewrite (map_nth_lt _ _ _ e0); [reflexivity|]. rewrite denote_length, Hs. nia.
      * intros E. apply (f_equal (@length _)) in E.
        rewrite map2_length, cat_logprobs_length, map_length, seq_length, Hlk in E. simpl in E. lia.
Qed.

(** Mixture responsibilities are the posteriors. *)
Lemma softmax_div row v : row <> [] -> exp (v - logsumexp row) = exp v / rsum (map exp row).
Proof.
  intros H. rewrite logsumexp_eq by auto. unfold Rminus. rewrite exp_plus, exp_Ropp, exp_ln.
  - reflexivity.
  - now apply rsum_exp_pos.
Qed.

Definition subs_of (m : mset) (n i : nat) : list em :=
  map (fun j => nth (i * n + j) (denote m) e0) (seq 0 n).

Lemma mix_resps_post cf m x i n : wf m -> (i < length cf)%nat -> (0 < n)%nat ->
  size m = (length cf * n)%nat -> Forall (fun w => length w = n) cf ->
  nth i (mix_resps (weighted n cf (ellh m x))) [] = em_post x (nth i cf []) (subs_of m n i).
Proof.
  intros Hw Hi Hn Hs Hf. unfold mix_resps.
  rewrite (map_nth_lt _ _ _ []) by
    (unfold weighted; rewrite map2_length, blocks_length, log_weights_length; lia).
  set (row := nth i (weighted n cf (ellh m x)) []).
  assert (Hlk : length (nth i cf []) = n).
  { rewrite Forall_forall in Hf. apply Hf. now apply nth_In. }
  assert (Hrow : map exp row = joint_probs (nth i cf []) (map (em_llh x) (subs_of m n i))).
  { unfold row. rewrite weighted_nth by (rewrite ?ellh_length; auto).
    rewrite joint_probs_exp. f_equal. unfold subs_of. rewrite map_map. apply map_ext_in.
    intros j Hj. apply in_seq in Hj. rewrite ellh_denote by auto.
    rewrite (map_nth_lt _ _ _ e0); [reflexivity|]. rewrite denote_length, Hs. nia. }
  assert (Hne : row <> []).
  { intros E. rewrite E in Hrow. apply (f_equal (@length _)) in Hrow.
    unfold joint_probs, subs_of in Hrow.
    rewrite map2_length, cat_logprobs_length, !map_length, seq_length, Hlk in Hrow.
    simpl in Hrow. lia. }
  unfold em_post. rewrite <- Hrow, map_map. apply map_ext. intros v. now apply softmax_div.
Qed.

Lemma em_post_length x cf subs : length cf = length subs -> length (em_post x cf subs) = length subs.
Proof.
  intros H. unfold em_post, joint_probs.
  rewrite map_length, map2_length, cat_logprobs_length, map_length. lia.
Qed.

Lemma joint_probs_pos cf llhs j : In j (joint_probs cf llhs) -> 0 < j.
Proof.
  unfold joint_probs. generalize (cat_logprobs cf) as l. intros l. revert llhs.
  induction l as [|a l IH]; intros [|b m]; simpl; try tauto.
  intros [<-|H]; [apply exp_pos|eauto].
Qed.

Lemma rsum_pos l : l <> [] -> (forall x, In x l -> 0 < x) -> 0 < rsum l.
Proof.
  intros Hne H. destruct l as [|a l]; [congruence|]. simpl.
  assert (0 <= rsum l).
  { clear Hne. assert (H' : forall x, In x l -> 0 < x) by (intros; apply H; now right).
    clear H. induction l as [|b l IH]; simpl; [lra|].
    pose proof (H' b (or_introl eq_refl)). assert (0 <= rsum l) by (apply IH; intros; apply H'; now right).
    lra. }
  pose proof (H a (or_introl eq_refl)). lra.
Qed.

Lemma em_post_sum x cf subs : length cf = length subs -> subs <> [] -> rsum (em_post x cf subs) = 1.
Proof.
  intros Hl Hne. unfold em_post. set (js := joint_probs cf (map (em_llh x) subs)).
  assert (Hp : 0 < rsum js).
  { apply rsum_pos; [|intros; now apply (joint_probs_pos cf (map (em_llh x) subs))].
    intros E. apply (f_equal (@length _)) in E. unfold js, joint_probs in E.
    rewrite map2_length, cat_logprobs_length, map_length, <- Hl in E.
    destruct subs; [congruence|simpl in *; lia]. }
  change (sumf (fun j => j / rsum js) js = 1).
  rewrite (sumf_ext _ (fun j => / rsum js * j)) by (intros; unfold Rdiv; ring).
  rewrite sumf_scal_l, <- rsum_sumf. field. lra.
Qed.

Lemma em_post_nonneg x cf subs p : In p (em_post x cf subs) -> 0 < p.
Proof.
  unfold em_post. intros H. apply in_map_iff in H. destruct H as (j & <- & Hj).
  pose proof (joint_probs_pos _ _ _ Hj). apply Rdiv_lt_0_compat; auto.
  apply rsum_pos; [|intros; eapply joint_probs_pos; eauto].
  intros E. rewrite E in Hj. destruct Hj.
Qed.

(** ** Linearity of the statistics in the responsibilities *)
Lemma em_acc_plus q x i e a b : em_acc q x i e (a + b) = em_acc q x i e a + em_acc q x i e b.
Proof.
  revert a b; induction e as [p k nf c|p k cf subs IH] using em_rect'; intros a b; simpl.
  - destruct (_ && _); lra.
  - assert (E : rsum (map2 (fun pr f => f ((a + b) * pr)) (em_post x cf subs) (map (em_acc q x i) subs)) =
      rsum (map2 (fun pr f => f (a * pr)) (em_post x cf subs) (map (em_acc q x i) subs)) +
      rsum (map2 (fun pr f => f (b * pr)) (em_post x cf subs) (map (em_acc q x i) subs))).
    { rewrite !map2_map_r, <- rsum_map2_plus. f_equal. apply map2_ext. intros pr e He.
      apply in_combine_r in He. rewrite Forall_forall in IH.
      rewrite Rmult_plus_distr_r. now apply IH. }
    rewrite E. destruct (_ && _); ring.
Qed.

Lemma em_acc_zero q x i e : em_acc q x i e 0 = 0.
Proof. pose proof (em_acc_plus q x i e 0 0). rewrite Rplus_0_l in H. lra. Qed.

Lemma em_acc_sumf {A} q x i e (f : A -> R) l :
  em_acc q x i e (sumf f l) = sumf (fun a => em_acc q x i e (f a)) l.
Proof.
  induction l as [|a l IH]; [apply em_acc_zero|]. rewrite !sumf_cons, em_acc_plus, IH. reflexivity.
Qed.

(** ** Parameters of other models receive nothing *)
Fixpoint mentions (p : nat) (e : em) : Prop :=
  match e with
  | EComp p' _ _ _ => p' = p
  | EMix p' _ _ subs => p' = p \/
      (fix ms l := match l with [] => False | e :: t => mentions p e \/ ms t end) subs
  end.

Lemma mentions_subs p l :
  (fix ms l := match l with [] => False | e :: t => mentions p e \/ ms t end) l <->
  exists e, In e l /\ mentions p e.
Proof.
  induction l as [|e l IH]; simpl; [split; [tauto|intros (e & [] & _)]|].
  rewrite IH. split.
  - intros [H|(e' & H1 & H2)]; eauto.
  - intros (e' & [->|H1] & H2); eauto.
Qed.

Lemma em_acc_other q x i e r : ~ mentions (fst q) e -> em_acc q x i e r = 0.
Proof.
  revert r; induction e as [p k nf c|p k cf subs IH] using em_rect'; intros r H; simpl in *.
  - destruct (Nat.eqb_spec p (fst q)); [contradiction|reflexivity].
  - rewrite mentions_subs in H.
    destruct (Nat.eqb_spec p (fst q)) as [E|_]; [exfalso; apply H; now left|]. cbn [andb].
    rewrite rsum_map2_zero; [lra|]. intros pr f Hf. apply in_combine_r, in_map_iff in Hf.
    destruct Hf as (e & <- & He). rewrite Forall_forall in IH. apply IH; auto.
    intros Hm. apply H. right. eauto.
Qed.

Lemma denote_mentions m p e : wf m -> In e (denote m) -> mentions p e -> In p (params m).
Proof.
  revert e; induction m as [q d nf c|l IH|m r IH|q cf m IH] using mset_rect'; intros e Hw He Hm; simpl in *.
  - apply in_map_iff in He. destruct He as (k & <- & Hk). simpl in Hm. auto.
  - induction IH as [|m t Hm' Ht IHt]; [destruct He|].
    destruct Hw as [Hw1 Hw2]. apply in_app_iff in He. apply in_app_iff.
    destruct He as [He|He]; [left; eauto|right; auto].
  - destruct Hw as [Hw Hr]. apply in_map_iff in He. destruct He as (k & <- & Hk).
    apply in_seq in Hk. eapply IH; [auto| |exact Hm]. apply nth_In. apply Nat.mod_upper_bound. lia.
  - destruct Hw as (Hw & Hc & n & Hn & Hs & Hf). apply in_map_iff in He.
    destruct He as (k & <- & Hk). apply in_seq in Hk. simpl in Hm. rewrite mentions_subs in Hm.
    destruct Hm as [->|(e & He & Hm)]; [now left|]. right.
    apply in_map_iff in He. destruct He as (j & <- & Hj). apply in_seq in Hj.
    eapply IH; [auto| |exact Hm]. apply nth_In.
    rewrite denote_length, Hs, div_size in * by auto. nia.
Qed.

Definition S_row (q : nat * nat) (i : nat) (es : list em) (x r : list R) : R :=
  rsum (map2 (em_acc q x i) es r).

Lemma S_row_other m q i x r : wf m -> ~ In (fst q) (params m) -> S_row q i (denote m) x r = 0.
Proof.
  intros Hw H. apply rsum_map2_zero. intros e a He. apply em_acc_other. intros Hm.
  apply H. eapply denote_mentions; eauto. now apply in_combine_l in He.
Qed.

Lemma acc_total_other m q i stats resps : wf m -> ~ In (fst q) (params m) ->
  acc_total q i (denote m) stats resps = 0.
Proof.
  intros Hw H. apply rsum_map2_zero. intros x r _. now apply S_row_other.
Qed.

Lemma S_row_app q i e1 e2 x r1 r2 : length e1 = length r1 ->
  S_row q i (e1 ++ e2) x (r1 ++ r2) = S_row q i e1 x r1 + S_row q i e2 x r2.
Proof. intros H. unfold S_row. rewrite map2_app by auto. apply rsum_app. Qed.

Lemma acc_total_ext q i es es' stats resps resps' :
  length resps = length resps' ->
  (forall t, (t < length stats)%nat -> (t < length resps)%nat ->
     S_row q i es (nth t stats []) (nth t resps []) =
     S_row q i es' (nth t stats []) (nth t resps' [])) ->
  acc_total q i es stats resps = acc_total q i es' stats resps'.
Proof.
  unfold acc_total. revert resps resps'; induction stats as [|x s IH];
    intros [|r resps] [|r' resps'] Hl H; simpl in *; try discriminate; auto.
  f_equal.
  - exact (H 0%nat ltac:(lia) ltac:(lia)).
  - apply IH; [congruence|]. intros t H1 H2. exact (H (S t) ltac:(lia) ltac:(lia)).
Qed.

(** ** Dictionaries *)
Lemma dset_keys {V} (d : list (nat * V)) k v k' :
  In k' (map fst (dset d k v)) <-> In k' (map fst d) \/ k' = k.
Proof.
  induction d as [|[a b] d IH]; simpl; [intuition|].
  destruct (Nat.eq_dec k a) as [->|]; simpl; [intuition|]. rewrite IH. intuition.
Qed.

Lemma dset_NoDup {V} (d : list (nat * V)) k v : NoDup (map fst d) -> NoDup (map fst (dset d k v)).
Proof.
  induction d as [|[a b] d IH]; simpl; intros H.
  - repeat constructor. tauto.
  - inversion_clear H. destruct (Nat.eq_dec k a) as [->|]; simpl; constructor; auto.
    rewrite dset_keys. intros [H|H]; [contradiction|congruence].
Qed.

Lemma dupdate_NoDup d e : NoDup (map fst d) -> NoDup (map fst (dupdate d e)).
Proof.
  unfold dupdate. revert d; induction e as [|[k v] e IH]; intros d H; simpl; auto.
  apply IH. now apply dset_NoDup.
Qed.

Lemma dget_dupdate d e k : NoDup (map fst e) ->
  dget Nat.eq_dec (dupdate d e) k =
  match dget Nat.eq_dec e k with Some v => Some v | None => dget Nat.eq_dec d k end.
Proof.
  unfold dupdate. revert d; induction e as [|[a v] e IH]; intros d H; simpl; auto.
  inversion_clear H. rewrite IH, dget_dset by auto.
  destruct (Nat.eq_dec k a) as [->|]; [|reflexivity].
  destruct (dget Nat.eq_dec e a) eqn:E; [|reflexivity].
  exfalso. apply H0. apply dget_some_in. eauto.
Qed.

(** The loop of JointModelSet.accumulate *)
Fixpoint accs (l : list mset) (start : nat) (stats resps : mat) (acc : sdict) : sdict :=
  match l with
  | [] => acc
  | m :: t => accs t (start + size m) stats resps
                (dupdate acc (accumulate m stats (columns start (size m) resps)))
  end.

Lemma accumulate_joint l stats resps :
  accumulate (Joint l) stats resps = accs l 0 stats resps [].
Proof.
  simpl. generalize 0%nat, (@nil (nat * mat)).
  induction l as [|m t IH]; intros s a; [reflexivity|]. simpl. apply IH.
Qed.

Lemma accumulate_NoDup m stats resps : NoDup (map fst (accumulate m stats resps)).
Proof.
  revert resps; induction m as [p d nf c|l IH|m r IH|p cf m IH] using mset_rect'; intros resps.
  - repeat constructor. simpl. tauto.
  - rewrite accumulate_joint. assert (H : NoDup (map fst (@nil (nat * mat)))) by constructor.
    revert H. generalize 0%nat, (@nil (nat * mat)). clear IH.
    induction l as [|m t IHt]; intros s a H; [exact H|]. simpl. apply IHt. now apply dupdate_NoDup.
  - apply IH.
  - cbn [accumulate]. apply dupdate_NoDup. repeat constructor. simpl. tauto.
Qed.

Lemma accumulate_keys m stats resps p :
  dget Nat.eq_dec (accumulate m stats resps) p <> None -> In p (params m).
Proof.
  revert resps; induction m as [q d nf c|l IH|m r IH|q cf m IH] using mset_rect'; intros resps H.
  - simpl in *. destruct (Nat.eq_dec p q); [auto|congruence].
  - rewrite accumulate_joint in H.
    assert (G : forall s a, dget Nat.eq_dec (accs l s stats resps a) p <> None ->
      In p (params (Joint l)) \/ dget Nat.eq_dec a p <> None).
    { clear H. induction IH as [|m t Hm Ht IHt]; intros s a H; [now right|].
      simpl in H |- *. rewrite in_app_iff. destruct (IHt _ _ H) as [Hi|Hi]; [auto|].
      rewrite dget_dupdate in Hi by apply accumulate_NoDup.
      destruct (dget Nat.eq_dec (accumulate m stats (columns s (size m) resps)) p) eqn:E; [|auto].
      left; left. eapply Hm. rewrite E. discriminate. }
    destruct (G _ _ H) as [Hi|Hi]; [exact Hi|]. simpl in Hi. congruence.
  - eapply IH. exact H.
  - cbn [accumulate] in H. rewrite dget_dupdate in H by apply accumulate_NoDup.
    destruct (dget Nat.eq_dec (accumulate m stats _) p) eqn:E.
    + right. eapply IH. rewrite E. discriminate.
    + simpl in H. destruct (Nat.eq_dec p q); [left; auto|congruence].
Qed.

Lemma shape_params m p : (exists s, shape m p = Some s) <-> In p (params m).
Proof.
  induction m as [q d nf c|l IH|m r IH|q cf m IH] using mset_rect'; simpl.
  - destruct (Nat.eqb_spec q p) as [->|]; split; eauto; [intros [s [=]]|intros [E|[]]; congruence].
  - induction IH as [|m t Hm Ht IHt]; [split; [intros [s [=]]|intros []]|].
    rewrite in_app_iff, <- Hm, <- IHt. destruct (shape m p) as [s|]; [split; eauto|].
    split; [eauto|]. intros [[s [=]]|H]; exact H.
  - exact IH.
  - destruct (Nat.eqb_spec q p) as [->|]; [split; eauto|]. rewrite IH. split; [auto|].
    intros [E|H]; [congruence|auto].
Qed.

(** ** The accumulated statistics *)
Definition acc_ok (m : mset) (stats resps : mat) (M : mat) (p rows cols : nat) : Prop :=
  length M = rows /\
  forall k, (k < rows)%nat -> length (nth k M []) = cols /\
    forall i, (i < cols)%nat -> nth i (nth k M []) 0 = acc_total (p, k) i (denote m) stats resps.

Lemma columns_row start len (r : list R) : (start + len <= length r)%nat ->
  length (firstn len (skipn start r)) = len.
Proof. intros H. rewrite firstn_length, skipn_length. lia. Qed.

Lemma firstn_split {A} a b (l : list A) : firstn (a + b) l = firstn a l ++ firstn b (skipn a l).
Proof. revert l; induction a; intros [|x l]; simpl; auto; [now rewrite firstn_nil|]. now rewrite IHa. Qed.

Lemma skipn_skipn_add {A} a b (l : list A) : skipn a (skipn b l) = skipn (b + a) l.
Proof. revert l; induction b; intros [|x l]; simpl; auto. now rewrite skipn_nil. Qed.

Lemma columns_split_total q i e1 e2 start a b stats resps :
  length e1 = a -> Forall (fun r => (start + (a + b) <= length r)%nat) resps ->
  acc_total q i (e1 ++ e2) stats (columns start (a + b) resps) =
  acc_total q i e1 stats (columns start a resps) +
  acc_total q i e2 stats (columns (start + a) b resps).
Proof.
  intros He Hf. unfold acc_total, columns. rewrite !map2_map_r, <- rsum_map2_plus. f_equal.
  apply map2_ext. intros x r Hr. apply in_combine_r in Hr. rewrite Forall_forall in Hf.
  specialize (Hf r Hr). rewrite firstn_split, skipn_skipn_add.
  apply (S_row_app q i e1 e2 x). rewrite columns_row; lia.
Qed.

Lemma rep_row q i m r x row : wf m -> (0 < r)%nat -> length row = (size m * r)%nat ->
  S_row q i (denote (Rep m r)) x row =
  S_row q i (denote m) x (colsum (size m) (blocks r (length row / r) row)).
Proof.
  intros Hw Hr Hl. set (K := size m) in *.
  assert (Hdiv : (length row / r = K)%nat) by (rewrite Hl; apply Nat.div_mul; lia).
  rewrite Hdiv.
  assert (HB : Forall (fun l => length l = K) (blocks r K row))
    by (apply blocks_row_length; lia).
  assert (Hd : length (denote m) = K) by apply denote_length.
  unfold S_row. rewrite (rsum_map2_index _ _ _ e0 0).
  2:{ rewrite denote_length. simpl. fold K. lia. }
  rewrite (rsum_map2_index _ _ _ e0 0) by (rewrite colsum_length; auto).
  rewrite denote_length. cbn [size]. fold K. rewrite Hd.
  rewrite (Nat.mul_comm K r), sumf_seq_mul, sumf_swap.
  apply sumf_ext. intros k Hk. apply in_seq in Hk.
  rewrite colsum_nth by (auto; lia). rewrite em_acc_sumf. unfold blocks. rewrite sumf_map.
  apply sumf_ext. intros b Hb. apply in_seq in Hb.
  cbn [denote]. rewrite Hd.
  rewrite (map_nth_lt _ _ _ 0%nat) by (rewrite seq_length; nia).
  rewrite seq_nth by nia. rewrite firstn_nth, skipn_nth by lia.
  f_equal. f_equal. rewrite Nat.add_0_l, Nat.add_comm, Nat.mod_add, Nat.mod_small by lia. reflexivity.
Qed.

(** One frame of a mixture set. *)
Lemma joint_resps_nth cf m x r i n : wf m -> (i < length cf)%nat -> (0 < n)%nat ->
  size m = (length cf * n)%nat -> Forall (fun w => length w = n) cf -> length r = length cf ->
  nth i (joint_resps cf m x r) [] =
  vscale (nth i r 0) (em_post x (nth i cf []) (subs_of m n i)).
Proof.
  intros Hw Hi Hn Hs Hf Hr. unfold joint_resps, ncpm. rewrite Hs, div_size by lia.
  rewrite (map2_nth _ _ _ _ 0 []).
  - now rewrite mix_resps_post.
  - lia.
  - unfold mix_resps, weighted. rewrite map_length, map2_length, blocks_length, log_weights_length. lia.
Qed.

Lemma joint_resps_length cf m x r : length r = length cf -> length (joint_resps cf m x r) = length cf.
Proof.
  intros H. unfold joint_resps, mix_resps, weighted.
  rewrite map2_length, map_length, map2_length, blocks_length, log_weights_length. lia.
Qed.

Lemma subs_of_length m n i : length (subs_of m n i) = n.
Proof. unfold subs_of. now rewrite map_length, seq_length. Qed.

Lemma nth_length_cf (cf : mat) n i : Forall (fun w => length w = n) cf -> (i < length cf)%nat ->
  length (nth i cf []) = n.
Proof. intros Hf Hi. rewrite Forall_forall in Hf. apply Hf. now apply nth_In. Qed.

Lemma concat_nth_rows (M : mat) n i j : Forall (fun r => length r = n) M ->
  (i < length M)%nat -> (j < n)%nat -> nth (i * n + j) (concat M) 0 = nth j (nth i M []) 0.
Proof.
  revert i; induction M as [|r M IH]; intros i Hf Hi Hj; [simpl in Hi; lia|].
  inversion_clear Hf. destruct i as [|i]; simpl.
  - rewrite app_nth1 by lia. reflexivity.
  - rewrite app_nth2 by lia. rewrite <- IH by (auto; simpl in Hi; lia). f_equal. lia.
Qed.

Lemma joint_rows cf m x r n : wf m -> (0 < n)%nat ->
  size m = (length cf * n)%nat -> Forall (fun w => length w = n) cf -> length r = length cf ->
  Forall (fun l => length l = n) (joint_resps cf m x r).
Proof.
  intros Hw Hn Hs Hf Hr. apply Forall_forall. intros l Hl.
  destruct (In_nth _ _ [] Hl) as (i & Hi & <-). rewrite joint_resps_length in Hi by auto.
  rewrite (joint_resps_nth cf m x r i n) by auto.
  rewrite vscale_length, em_post_length; rewrite subs_of_length; auto.
  now apply nth_length_cf.
Qed.

Lemma concat_length_rows (M : mat) n : Forall (fun r => length r = n) M ->
  length (concat M) = (length M * n)%nat.
Proof. induction 1; simpl; [reflexivity|]. rewrite app_length. congruence. Qed.

Lemma mix_row q i p cf m x r n : wf m -> (0 < n)%nat -> (0 < length cf)%nat ->
  size m = (length cf * n)%nat -> Forall (fun w => length w = n) cf -> length r = length cf ->
  S_row q i (denote (Mix p cf m)) x r =
  (if Nat.eqb p (fst q) && Nat.ltb (snd q) (length cf)
   then nth (snd q) r 0 *
        (if Nat.eqb (S i) n then 1
         else nth i (em_post x (nth (snd q) cf []) (subs_of m n (snd q))) 0)
   else 0) +
  S_row q i (denote m) x (concat (joint_resps cf m x r)).
Proof.
  intros Hw Hn Hc Hs Hf Hr.
  pose proof (joint_rows cf m x r n Hw Hn Hs Hf Hr) as HJ.
  assert (HJl : length (joint_resps cf m x r) = length cf) by now apply joint_resps_length.
  unfold S_row. rewrite (rsum_map2_index _ _ _ e0 0) by (rewrite denote_length; auto).
  rewrite (rsum_map2_index _ (denote m) _ e0 0)
    by (rewrite denote_length, (concat_length_rows _ n); congruence).
  rewrite !denote_length. cbn [size]. rewrite Hs, sumf_seq_mul.
  rewrite (sumf_ext _ (fun k =>
    (if Nat.eqb p (fst q) && Nat.eqb k (snd q)
     then nth k r 0 * (if Nat.eqb (S i) n then 1
                       else nth i (em_post x (nth k cf []) (subs_of m n k)) 0) else 0) +
    sumf (fun j => em_acc q x i (nth (k * n + j) (denote m) e0)
                     (nth (k * n + j) (concat (joint_resps cf m x r)) 0)) (seq 0 n))).
  - rewrite sumf_plus. f_equal.
    destruct (Nat.eqb p (fst q)); cbn [andb]; [|now apply sumf_zero].
    destruct (Nat.ltb_spec (snd q) (length cf)).
    + rewrite (sumf_seq_single _ (length cf) (snd q)); auto.
      * now rewrite Nat.eqb_refl.
      * intros k Hk Hne. destruct (Nat.eqb_spec k (snd q)); [congruence|reflexivity].
    + apply sumf_zero. intros k Hk. apply in_seq in Hk.
      destruct (Nat.eqb_spec k (snd q)); [lia|reflexivity].
  - intros k Hk. apply in_seq in Hk. cbn [denote]. rewrite denote_length, Hs, div_size by auto.
    rewrite (map_nth_lt _ _ _ 0%nat) by (rewrite seq_length; lia).
    rewrite seq_nth by lia. cbn [Nat.add em_acc].
    fold (subs_of m n k). rewrite subs_of_length. f_equal.
    rewrite map2_map_r.
    assert (Hpl : length (em_post x (nth k cf []) (subs_of m n k)) = n).
    { rewrite em_post_length; rewrite subs_of_length; auto. apply nth_length_cf; auto; lia. }
    rewrite (rsum_map2_index _ _ _ 0 e0) by (rewrite Hpl, subs_of_length; reflexivity).
    rewrite Hpl. apply sumf_ext. intros j Hj. apply in_seq in Hj.
    rewrite (concat_nth_rows _ n) by (auto; lia).
    rewrite (joint_resps_nth cf m x r k n) by (auto; lia). rewrite vscale_nth.
    f_equal. unfold subs_of. rewrite (map_nth_lt _ _ _ 0%nat) by (rewrite seq_length; lia).
    rewrite seq_nth by lia. reflexivity.
Qed.

Lemma cat_stats_length row : row <> [] -> length (cat_stats row) = length row.
Proof.
  intros H. unfold cat_stats. rewrite app_length, removelast_length. destruct row; [congruence|].
  simpl. lia.
Qed.

Lemma cat_stats_nth row i : (i < length row)%nat ->
  nth i (cat_stats row) 0 = if Nat.eqb (S i) (length row) then rsum row else nth i row 0.
Proof.
  intros H. unfold cat_stats. destruct (Nat.eqb_spec (S i) (length row)) as [E|E].
  - rewrite app_nth2; rewrite removelast_length; [|lia].
    replace (i - pred (length row))%nat with 0%nat by lia. reflexivity.
  - rewrite app_nth1 by (rewrite removelast_length; lia). apply removelast_nth. lia.
Qed.

Lemma dget_inner m stats resps p rows cols :
  shape m p = Some (rows, cols) -> dget Nat.eq_dec (accumulate m stats resps) p <> None ->
  In p (params m).
Proof. intros _. apply accumulate_keys. Qed.

Theorem accumulate_denote m d stats resps p rows cols :
  wf m -> NoDup (params m) -> accepts d m ->
  Forall (fun x => length x = d) stats -> length stats = length resps ->
  Forall (fun r => length r = size m) resps ->
  shape m p = Some (rows, cols) ->
  exists M, dget Nat.eq_dec (accumulate m stats resps) p = Some M /\
    acc_ok m stats resps M p rows cols.
Proof.
  revert resps p rows cols;
  induction m as [q d' nf c|l IH|m r IH|q cf m IH] using mset_rect';
  intros resps p rows cols Hw Hnd Ha Hst Hls Hlr Hsh.
  - (* Leaf *)
    simpl in Hsh, Ha. subst d'. destruct (Nat.eqb_spec q p) as [->|]; [|discriminate].
    injection Hsh as <- <-. eexists. split.
    { simpl. destruct (Nat.eq_dec p p); [reflexivity|congruence]. }
    unfold resps_t_stats. split; [now rewrite map_length, seq_length|].
    intros k Hk. rewrite (map_nth_lt _ _ _ 0%nat) by (rewrite seq_length; lia).
    rewrite seq_nth by lia. cbn [Nat.add].
    assert (HF : Forall (fun r => length r = d) (map2 (fun r x => vscale (nth k r 0) x) resps stats)).
    { clear -Hst. revert resps; induction Hst; intros [|r0 rs]; simpl; constructor; auto.
      now rewrite vscale_length. }
    split; [now apply colsum_length|]. intros i Hi. rewrite colsum_nth by auto.
    unfold sumf. rewrite map_map2. rewrite map2_swap. unfold acc_total. f_equal.
    apply map2_ext. intros x r Hr.
    assert (Hlen : length r = length nf).
    { apply in_combine_r in Hr. rewrite Forall_forall in Hlr. exact (Hlr r Hr). }
    rewrite vscale_nth. rewrite (rsum_map2_index _ _ _ e0 0) by (rewrite denote_length; auto).
    rewrite denote_length. cbn [size denote].
    rewrite (sumf_seq_single _ (length nf) k); auto.
    + rewrite (map_nth_lt _ _ _ 0%nat) by (rewrite seq_length; lia). rewrite seq_nth by lia.
      simpl. now rewrite !Nat.eqb_refl.
    + intros k' Hk' Hne. rewrite (map_nth_lt _ _ _ 0%nat) by (rewrite seq_length; lia).
      rewrite seq_nth by lia. simpl. destruct (Nat.eqb_spec k' k); [congruence|].
      now rewrite andb_false_r.
  - (* Joint *)
    rewrite accumulate_joint.
    assert (G : forall start acc,
      Forall (fun r => (start + size (Joint l) <= length r)%nat) resps ->
      (forall p, ~ In p (params (Joint l)) ->
         dget Nat.eq_dec (accs l start stats resps acc) p = dget Nat.eq_dec acc p) /\
      (forall p rows cols, shape (Joint l) p = Some (rows, cols) ->
        exists M, dget Nat.eq_dec (accs l start stats resps acc) p = Some M /\
          acc_ok (Joint l) stats (columns start (size (Joint l)) resps) M p rows cols)).
    { clear p rows cols Hsh Hlr. induction IH as [|m t Hm Ht IHt]; intros start acc Hlr.
      - split; [auto|]. intros p rows cols H. discriminate H.
      - change (size (Joint (m :: t))) with (size m + size (Joint t))%nat in *.
        simpl in Hw, Ha, Hnd. destruct Hw as [Hw1 Hw2]. destruct Ha as [Ha1 Ha2].
        assert (Hnd1 : NoDup (params m)) by (exact (proj1 (NoDup_split _ _ Hnd))).
        assert (Hnd2 : NoDup (params (Joint t))) by (exact (proj1 (proj2 (NoDup_split _ _ Hnd)))).
        assert (Hdis : forall p, In p (params m) -> ~ In p (params (Joint t))).
        { exact (proj2 (proj2 (NoDup_split _ _ Hnd))). }
        assert (Hlr2 : Forall (fun r => (start + size m + size (Joint t) <= length r)%nat) resps)
          by (eapply Forall_impl; [|exact Hlr]; simpl; intros; lia).
        destruct (IHt Hw2 Hnd2 Ha2 (start + size m)%nat
          (dupdate acc (accumulate m stats (columns start (size m) resps))) Hlr2) as [G1 G2].
        assert (Hlc : Forall (fun r => length r = size m) (columns start (size m) resps)).
        { unfold columns. apply Forall_forall. intros r Hr. apply in_map_iff in Hr.
          destruct Hr as (r' & <- & Hr'). rewrite Forall_forall in Hlr. specialize (Hlr r' Hr').
          apply columns_row. lia. }
        assert (Hlsc : length stats = length (columns start (size m) resps))
          by (unfold columns; now rewrite map_length).
        split.
        + intros p Hp. simpl in Hp. rewrite in_app_iff in Hp. cbn [accs]. rewrite G1 by tauto.
          rewrite dget_dupdate by apply accumulate_NoDup.
          destruct (dget Nat.eq_dec (accumulate m stats _) p) eqn:E; [|reflexivity].
          exfalso. apply Hp. left. eapply accumulate_keys. rewrite E. discriminate.
        + intros p rows cols Hsh. simpl in Hsh. cbn [accs].
          destruct (shape m p) as [[rows' cols']|] eqn:Es.
          * injection Hsh as -> ->.
            assert (Hp : In p (params m)) by (apply shape_params; eauto).
            destruct (Hm (columns start (size m) resps) p rows cols Hw1 Hnd1 Ha1 Hst Hlsc Hlc Es)
              as (M & HM & HO1 & HO2).
            exists M. rewrite G1 by auto. rewrite dget_dupdate by apply accumulate_NoDup. rewrite HM.
            split; [reflexivity|]. split; [exact HO1|]. intros k Hk. destruct (HO2 k Hk) as [A B].
            split; [exact A|]. intros i Hi. rewrite B by auto.
            change (denote (Joint (m :: t))) with (denote m ++ denote (Joint t)).
            rewrite columns_split_total by (auto using denote_length).
            rewrite (acc_total_other (Joint t)) by (auto; simpl; auto). ring.
          * change (shape (Joint t) p = Some (rows, cols)) in Hsh.
            destruct (G2 p rows cols Hsh) as (M & HM & HO1 & HO2).
            exists M. split; [exact HM|]. split; [exact HO1|]. intros k Hk. destruct (HO2 k Hk) as [A B].
            split; [exact A|]. intros i Hi. rewrite B by auto.
            change (denote (Joint (m :: t))) with (denote m ++ denote (Joint t)).
            rewrite columns_split_total by (auto using denote_length).
            rewrite (acc_total_other m); [ring|auto|]. simpl. intros Hp.
            apply (Hdis p Hp). apply shape_params. eauto. }
    destruct (G 0%nat []) as [_ G2].
    { eapply Forall_impl; [|exact Hlr]. simpl. intros; lia. }
    destruct (G2 p rows cols Hsh) as (M & HM & HO). exists M. split; [exact HM|].
    replace (columns 0 (size (Joint l)) resps) with resps in HO; [exact HO|].
    unfold columns. rewrite <- (map_id resps) at 1. apply map_ext_in. intros r Hr.
    rewrite Forall_forall in Hlr. rewrite <- (Hlr r Hr). simpl. now rewrite firstn_all.
  - (* Rep *)
    simpl in Hw, Ha, Hnd, Hsh. destruct Hw as [Hw Hr]. cbn [accumulate].
    set (resps' := map (fun row => colsum (size m) (blocks r (length row / r) row)) resps).
    assert (Hrow : forall row, In row resps -> length row = (size m * r)%nat).
    { rewrite Forall_forall in Hlr. exact Hlr. }
    destruct (IH resps' p rows cols Hw Hnd Ha Hst) as (M & HM & HO1 & HO2); auto.
    + unfold resps'. now rewrite map_length.
    + unfold resps'. apply Forall_forall. intros r' Hr'. apply in_map_iff in Hr'.
      destruct Hr' as (row & <- & Hin). apply colsum_length. rewrite (Hrow row Hin).
      rewrite Nat.div_mul by lia. apply blocks_row_length. rewrite (Hrow row Hin). lia.
    + exists M. split; [exact HM|]. split; [exact HO1|]. intros k Hk. destruct (HO2 k Hk) as [A B].
      split; [exact A|]. intros i Hi. rewrite B by auto. symmetry. apply acc_total_ext.
      * unfold resps'. now rewrite map_length.
      * intros t Ht1 Ht2. unfold resps'. rewrite (map_nth_lt _ _ _ []) by auto.
        apply rep_row; auto. apply Hrow. now apply nth_In.
  - (* Mix *)
    simpl in Hw, Ha, Hnd. destruct Hw as (Hw & Hc & n & Hn & Hs & Hf). inversion_clear Hnd.
    cbn [accumulate]. cbv zeta.
    set (joint := map2 (joint_resps cf m) stats resps).
    assert (Hncpm : ncpm cf m = n) by (unfold ncpm; rewrite Hs; now apply div_size).
    assert (Hden : (length (denote m) / length cf = n)%nat)
      by (rewrite denote_length, Hs; now apply div_size).
    rewrite Hncpm.
    assert (Hlrow : forall x r, In (x, r) (combine stats resps) -> length r = length cf).
    { intros x r Hr. apply in_combine_r in Hr. rewrite Forall_forall in Hlr. exact (Hlr r Hr). }
    assert (Hjl : length joint = length stats).
    { unfold joint. rewrite map2_length. lia. }
    assert (Hjn : forall t, (t < length stats)%nat ->
      nth t joint [] = joint_resps cf m (nth t stats []) (nth t resps [])).
    { intros t Ht. unfold joint. rewrite (map2_nth _ _ _ _ [] []) by lia. reflexivity. }
    assert (Hrl : forall t, (t < length stats)%nat -> length (nth t resps []) = length cf).
    { intros t Ht. rewrite Forall_forall in Hlr. apply (Hlr (nth t resps [])). apply nth_In. lia. }
    rewrite dget_dupdate by apply accumulate_NoDup.
    cbn [shape] in Hsh. destruct (Nat.eqb_spec q p) as [->|Hqp].
    + (* the weights *)
      injection Hsh as <- <-. rewrite Hden.
      destruct (dget Nat.eq_dec (accumulate m stats (map (@concat R) joint)) p) eqn:E.
      { exfalso. apply H. eapply accumulate_keys. rewrite E. discriminate. }
      simpl. destruct (Nat.eq_dec p p); [|congruence]. eexists. split; [reflexivity|].
      split; [now rewrite map_length, seq_length|]. intros k Hk.
      rewrite (map_nth_lt _ _ _ 0%nat) by (rewrite seq_length; lia).
      rewrite seq_nth by lia. cbn [Nat.add].
      set (rowsk := map (fun j => nth k j []) (map (map cat_stats) joint)).
      assert (Hlk : length (nth k cf []) = n) by now apply nth_length_cf.
      assert (Hrk : rowsk = map (fun t => cat_stats (vscale (nth k (nth t resps []) 0)
                 (em_post (nth t stats []) (nth k cf []) (subs_of m n k)))) (seq 0 (length stats))).
      { unfold rowsk. rewrite map_map. rewrite <- (map_nth_seq _ joint []), Hjl.
        apply map_ext_in. intros t Ht. apply in_seq in Ht. rewrite Hjn by lia.
        rewrite (map_nth_lt _ _ _ []) by (rewrite joint_resps_length; [lia|apply Hrl; lia]).
        rewrite (joint_resps_nth cf m _ _ k n); auto. apply Hrl; lia. }
      assert (Hpl : forall t, length (em_post (nth t stats []) (nth k cf []) (subs_of m n k)) = n).
      { intros t. rewrite em_post_length; rewrite subs_of_length; auto. }
      assert (HrkF : Forall (fun r => length r = n) rowsk).
      { rewrite Hrk. apply Forall_forall. intros r Hr. apply in_map_iff in Hr.
        destruct Hr as (t & <- & Ht). rewrite cat_stats_length.
        - now rewrite vscale_length.
        - intros E0. apply (f_equal (@length _)) in E0. rewrite vscale_length, Hpl in E0.
          simpl in E0. lia. }
      split; [now apply colsum_length|]. intros i Hi. rewrite colsum_nth by auto.
      rewrite Hrk, sumf_map. unfold acc_total.
      rewrite (rsum_map2_index _ _ _ [] []) by auto. apply sumf_ext. intros t Ht. apply in_seq in Ht.
      rewrite cat_stats_nth by (rewrite vscale_length, Hpl; auto).
      rewrite vscale_length, Hpl, vscale_nth, rsum_vscale.
      fold (S_row (p, k) i (denote (Mix p cf m)) (nth t stats []) (nth t resps [])).
      rewrite (mix_row (p, k) i p cf m _ _ n) by (auto; apply Hrl; lia).
      cbn [fst snd]. rewrite Nat.eqb_refl.
      destruct (Nat.ltb_spec k (length cf)); [|lia]. cbn [andb].
      rewrite S_row_other by auto. rewrite Rplus_0_r.
      rewrite em_post_sum; [|rewrite subs_of_length; auto|].
      * destruct (Nat.eqb (S i) n); reflexivity.
      * intros E0. apply (f_equal (@length _)) in E0. rewrite subs_of_length in E0. simpl in E0. lia.
    + (* the components *)
      destruct (IH (map (@concat R) joint) p rows cols Hw H0 Ha Hst) as (M & HM & HO1 & HO2); auto.
      * etransitivity; [|symmetry; apply map_length]. exact (eq_sym Hjl).
      * apply Forall_forall. intros r Hr. apply in_map_iff in Hr. destruct Hr as (j & <- & Hj).
        destruct (In_nth _ _ [] Hj) as (t & Ht0 & <-).
        assert (Ht : (t < length stats)%nat) by (rewrite <- Hjl; exact Ht0). rewrite Hjn by lia.
        rewrite (concat_length_rows _ n).
        -- rewrite joint_resps_length; [congruence|apply Hrl; lia].
        -- apply (joint_rows cf m _ _ n); auto.
      * exists M. rewrite HM. split; [reflexivity|]. split; [exact HO1|]. intros k Hk.
        destruct (HO2 k Hk) as [A B]. split; [exact A|]. intros i Hi. rewrite B by auto.
        symmetry. apply acc_total_ext;
          [etransitivity; [|symmetry; apply map_length]; etransitivity; [symmetry; exact Hls|exact (eq_sym Hjl)]|].
        intros t Ht1 Ht2. rewrite (mix_row (p, k) i q cf m _ _ n) by (auto; apply Hrl; lia).
        cbn [fst]. destruct (Nat.eqb_spec q p); [contradiction|]. cbn [andb]. rewrite Rplus_0_l.
        rewrite (map_nth_lt _ _ _ []) by (eapply Nat.lt_le_trans; [exact Ht1|]; rewrite <- Hjl; apply Nat.le_refl).
        rewrite Hjn by lia. reflexivity.
Qed.
