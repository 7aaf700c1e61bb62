(** C131: the command creating a phone-loop; C132: the command creating a
    bigram phone-loop from a unigram one; C19: the rows of the end states of a
    phone-loop with its actual weights. *)
From Coq Require Import Reals String List Arith Bool Lia Lra Permutation.
From Verif Require Import Prelude Vec Gibbs Lgamma FB_Model Dist_Model Dist_Spec Dist_Proofs KL_Proofs Llh_Proofs
  Edit_Model Dec_Model Set_Model Set_Spec Set_Proofs Set_Index HMM_Model HMM_Proofs HMM_Props Sp_Proofs Df_Model
  SB_Model SB_Spec SB_Proofs SB_Props Pl_Model.
Import ListNotations.
Local Open Scope R_scope.

(** ** Log-weights *)

Lemma cat_logprob_dir a k : Forall (fun x => 0 < x) a -> (k < length a)%nat ->
  cat_logprob (dir_ess a) k = digamma (nth k a 0) - digamma (rsum a).
Proof.
  intros Ha Hk. assert (Hne : a <> []) by (destruct a; simpl in *; [lia|discriminate]).
  assert (E := dir_exp_llh (length a) a k ltac:(repeat split; auto; lia) Hk).
  unfold cat_llh, cat_suff_stats, set_last in E. rewrite <- E. symmetry.
  apply (dot_cat_stats_unit (length a)); auto. now apply dir_ess_length.
Qed.

Lemma cat_logw a : Forall (fun x => 0 < x) a -> a <> [] ->
  mixture_log_weights (dir_ess a) = map (fun x => digamma x - digamma (rsum a)) a.
Proof.
  intros Ha Hne. rewrite mixture_log_weights_eq. unfold cat_logprobs. rewrite dir_ess_length by auto.
  apply (nth_ext _ _ 0 0); [now rewrite !map_length, seq_length|].
  intros k Hk. rewrite map_length, seq_length in Hk.
  rewrite (map_nth_lt _ _ _ 0%nat) by (rewrite seq_length; lia). rewrite seq_nth by lia.
  rewrite (map_nth_lt _ _ _ 0) by lia. cbn [plus]. now apply cat_logprob_dir.
Qed.

Lemma sb_logw n ord c : is_order n ord ->
  map (sb_ellh ord c) (Vec.eye n) = sb_log_weights ord c.
Proof.
  intros Ho. assert (L := sb_log_weights_length n ord c Ho).
  apply (nth_ext _ _ 0 0); [now rewrite map_length, eye_length, L|].
  intros k Hk. rewrite map_length, eye_length in Hk.
  rewrite (map_nth_lt _ _ _ []) by (rewrite eye_length; lia). rewrite eye_nth by lia.
  unfold sb_ellh. now apply dot_unit_row.
Qed.

(** *** The exponentials of the expected log-weights do not sum to one *)

Lemma ln1p_decr x y : 0 < y -> y < x -> ln (1 + x) - x < ln (1 + y) - y.
Proof.
  intros Hy Hx. assert (H := ln_le_sub1 ((1 + x) / (1 + y)) ltac:(apply Rdiv_lt_0_compat; lra)).
  rewrite ln_div in H by lra.
  assert (E : (1 + x) / (1 + y) - 1 = (x - y) - (x - y) * y / (1 + y)) by (field; lra).
  assert (0 < (x - y) * y / (1 + y)) by (apply Rdiv_lt_0_compat; [apply Rmult_lt_0_compat|]; lra). lra.
Qed.

Lemma digamma_ln_strict a A : 0 < a -> a < A -> digamma a - digamma A < ln (a / A).
Proof.
  intros Ha HA. rewrite ln_div by lra.
  assert (M := digamma_ln_mono (a + 1) (A + 1) ltac:(lra) ltac:(lra)). rewrite !digamma_rec in M by lra.
  assert (D := ln1p_decr (/ a) (/ A) ltac:(apply Rinv_0_lt_compat; lra) ltac:(apply Rinv_lt_contravar; [apply Rmult_lt_0_compat|]; lra)).
  replace (1 + / a) with ((a + 1) / a) in D by (field; lra). replace (1 + / A) with ((A + 1) / A) in D by (field; lra).
  rewrite !ln_div in D by lra. lra.
Qed.

Lemma sumf_lt_some {A} (f g : A -> R) l : l <> [] -> (forall x, In x l -> f x < g x) -> sumf f l < sumf g l.
Proof.
  induction l as [|a l IH]; [congruence|]. intros _ H. rewrite !sumf_cons.
  assert (f a < g a) by (apply H; now left).
  destruct l as [|b l]; [rewrite !sumf_nil; lra|].
  assert (sumf f (b :: l) < sumf g (b :: l)) by (apply IH; [discriminate|intros; apply H; now right]). lra.
Qed.

Lemma rsum_gt_term a k : Forall (fun x => 0 < x) a -> (2 <= length a)%nat -> (k < length a)%nat -> nth k a 0 < rsum a.
Proof.
  revert k. induction a as [|x a IH]; intros k Ha Hl Hk; [simpl in Hk; lia|].
  inversion_clear Ha. change (rsum (x :: a)) with (x + rsum a).
  assert (P : forall b, Forall (fun x => 0 < x) b -> b <> [] -> 0 < rsum b).
  { induction b as [|y b IHb]; [congruence|]. intros Hb _. inversion_clear Hb. change (rsum (y :: b)) with (y + rsum b).
    destruct b as [|z b]; [change (rsum []) with 0; lra|]. assert (0 < rsum (z :: b)) by (apply IHb; [auto|discriminate]). lra. }
  destruct k as [|k]; cbn [nth].
  - assert (0 < rsum a) by (apply P; [auto|destruct a; [simpl in Hl; lia|discriminate]]). lra.
  - destruct a as [|y [|z a]]; [simpl in Hl; lia| |].
    + simpl in Hk. destruct k as [|k]; [|lia]. cbn [nth]. change (rsum [y]) with (y + 0). lra.
    + assert (nth k (y :: z :: a) 0 < rsum (y :: z :: a)) by (apply IH; [auto|simpl; lia|simpl in *; lia]). lra.
Qed.

Lemma cat_logw_sum a : Forall (fun x => 0 < x) a -> (2 <= length a)%nat ->
  rsum (map exp (mixture_log_weights (dir_ess a))) < 1.
Proof.
  intros Ha Hl. assert (Hne : a <> []) by (destruct a; simpl in *; [lia|discriminate]).
  assert (P : forall k, (k < length a)%nat -> 0 < nth k a 0 < rsum a).
  { intros k Hk. split; [|now apply rsum_gt_term]. rewrite Forall_forall in Ha. now apply Ha, nth_In. }
  assert (0 < rsum a) by (specialize (P 0%nat ltac:(lia)); lra).
  rewrite cat_logw by auto. rewrite map_map.
  apply Rlt_le_trans with (sumf (fun x => x / rsum a) a).
  - apply sumf_lt_some; auto. intros x Hx. destruct (In_nth _ _ 0 Hx) as (k & Hk & <-).
    rewrite <- (exp_ln (nth k a 0 / rsum a)) by (apply Rdiv_lt_0_compat; apply P in Hk; lra).
    apply exp_increasing, digamma_ln_strict; apply P in Hk; lra.
  - unfold Rdiv. rewrite sumf_scal_r. replace (sumf (fun x => x) a) with (rsum a) by (unfold sumf; now rewrite map_id).
    rewrite Rinv_r by lra. lra.
Qed.

Lemma rprod_pos l : Forall (fun x => 0 < x) l -> 0 < rprod l.
Proof. induction 1; simpl; [lra|]. now apply Rmult_lt_0_compat. Qed.

Lemma sb_logw_sum n ord c : is_order n ord -> length c = n -> positive_sticks c ->
  rsum (map exp (sb_log_weights ord c)) < 1.
Proof.
  intros Ho Hc Hp. destruct (C91_expected_log_weights n ord c Ho Hc Hp) as (_ & _ & J & _).
  assert (Q : Forall (fun ab => 0 < fst ab /\ 0 < snd ab) c) by exact Hp. rewrite Forall_forall in Q.
  assert (Q' : Forall (fun ab : R * R => 0 <= fst ab /\ 0 <= snd ab /\ 0 < fst ab + snd ab) c).
  { apply Forall_forall. intros ab Hab. specialize (Q ab Hab). lra. }
  destruct (C44_weights_exact n ord c Ho Hc Q') as (_ & E).
  assert (L := sb_log_weights_length n ord c Ho). assert (M : length (sb_mean 0 ord c) = n) by (now apply sb_mean_length).
  assert (B : rsum (map exp (sb_log_weights ord c)) <= rsum (sb_mean 0 ord c)).
  { rewrite !rsum_nth, map_length, L, M. apply sumf_le. intros k Hk. apply in_seq in Hk.
    rewrite (map_nth_lt exp _ _ 0 0) by lia. apply J. lia. }
  eapply Rle_lt_trans; [exact B|]. rewrite E.
  match goal with |- 1 - rprod ?l < 1 => assert (0 < rprod l); [apply rprod_pos|lra] end.
  apply Forall_forall. intros x Hx. apply in_map_iff in Hx. destruct Hx as (k & <- & Hk). apply in_seq in Hk.
  assert (Z := Q (nth k c (0, 0)) ltac:(apply nth_In; lia)).
  set (a := fst _) in *. set (b := snd _) in *. replace (1 - a / (a + b)) with (b / (a + b)) by (field; lra).
  apply Rdiv_lt_0_compat; lra.
Qed.

(** ** C19: with the weights of a Dirichlet or of a stick-breaking process the
    probabilities leaving the end states always sum to less than one *)
Section Rows.
  Variables (starts ends : list nat) (trans : nat -> nat -> lp) (n e : nat).
  Hypothesis Hs : NoDup starts.
  Hypothesis He : NoDup ends.
  Hypothesis Hd : forall x, In x ends -> ~ In x starts.
  Hypothesis Hin : In e ends.
  Hypothesis Hen : (e < n)%nat.
  Hypothesis Hsn : forall s, In s starts -> (s < n)%nat.
  Hypothesis Hloop : ex (trans e e) < 1.
  Hypothesis Hz : forall j, (j < n)%nat -> j <> e -> ~ In j starts -> ex (trans e j) = 0.

  Lemma row_deficit logw : length logw = length starts -> rsum (map exp logw) < 1 ->
    sumf (fun j => ex (on_weights_update logw starts ends trans e j)) (seq 0 n) < 1.
  Proof using Hs He Hd Hin Hen Hsn Hloop Hz.
    intros Hl H1. rewrite C19_row_sum by (auto; lra).
    assert (0 < (1 - ex (trans e e)) * (1 - rsum (map exp logw))) by (apply Rmult_lt_0_compat; lra). lra.
  Qed.

  Theorem C19_dirichlet_rows_refuted a : length a = length starts -> (2 <= length a)%nat -> Forall (fun x => 0 < x) a ->
    sumf (fun j => ex (on_weights_update (mixture_log_weights (dir_ess a)) starts ends trans e j)) (seq 0 n) < 1.
  Proof using Hs He Hd Hin Hen Hsn Hloop Hz.
    intros Hl H2 Ha. apply row_deficit; [|now apply cat_logw_sum].
    assert (Hne : a <> []) by (destruct a; simpl in *; [lia|discriminate]).
    rewrite cat_logw by auto. now rewrite map_length.
  Qed.

  Theorem C19_stick_breaking_rows_refuted ord c : is_order (length starts) ord -> length c = length starts -> positive_sticks c ->
    sumf (fun j => ex (on_weights_update (map (sb_ellh ord c) (Vec.eye (length starts))) starts ends trans e j)) (seq 0 n) < 1.
  Proof using Hs He Hd Hin Hen Hsn Hloop Hz.
    intros Ho Hc Hp. rewrite sb_logw by auto. apply row_deficit; [now apply sb_log_weights_length|].
    now apply (sb_logw_sum (length starts)).
  Qed.
End Rows.

(** ** C131: the commands *)

Definition row_const (n : nat) (logw : list R) (logm : mat) : Prop :=
  length logm = n /\ forall i, (i < n)%nat -> nth i logm [] = logw.

Lemma bigram_as_unigram logw logm starts ends trans : row_const (length ends) logw logm ->
  bigram_on_weights_update logm starts ends trans = on_weights_update logw starts ends trans.
Proof.
  intros (_ & H). unfold bigram_on_weights_update, on_weights_update. f_equal.
  rewrite (combine_index (seq 0 (length ends)) ends 0%nat 0%nat) by apply seq_length.
  rewrite map_map, seq_length. rewrite (map_seq_nth _ ends 0%nat). apply map_ext_in. intros j Hj.
  apply in_seq in Hj. cbn [fst snd]. rewrite seq_nth by lia. now rewrite H by lia.
Qed.

Lemma map_repeat_R {A B} (f : A -> B) v n : map f (repeat v n) = repeat (f v) n.
Proof. induction n; simpl; congruence. Qed.

Lemma uniform_repeat n c : categorical_default (uniform_weights n) c = repeat (c / INR n) n.
Proof.
  unfold categorical_default, uniform_weights. rewrite !map_repeat_R. f_equal. unfold Rdiv. ring.
Qed.

Lemma rsum_repeat_v v n : rsum (repeat v n) = INR n * v.
Proof.
  induction n as [|n IH]; [simpl; lra|]. cbn [repeat]. change (rsum (v :: repeat v n)) with (v + rsum (repeat v n)).
  rewrite IH, S_INR. ring.
Qed.

Lemma repeat_pos v n : 0 < v -> Forall (fun x => 0 < x) (repeat v n).
Proof. intros H. apply Forall_forall. intros x Hx. apply repeat_spec in Hx. now subst. Qed.

(** Log-weights of the initial models. *)
Definition cat_init (n : nat) (c : R) : R := digamma (c / INR n) - digamma c.
Definition sb_init (c : R) (k : nat) : R :=
  (digamma 1 - digamma (1 + c)) + INR k * (digamma c - digamma (1 + c)).

Lemma cat_init_logw n c : (0 < n)%nat -> 0 < c ->
  mixture_log_weights (dir_ess (categorical_default (uniform_weights n) c)) = repeat (cat_init n c) n.
Proof.
  intros Hn Hc. assert (0 < INR n) by (now apply lt_0_INR).
  assert (0 < c / INR n) by (now apply Rdiv_lt_0_compat).
  rewrite uniform_repeat, cat_logw; [|now apply repeat_pos|destruct n; [lia|discriminate]].
  rewrite map_repeat_R. f_equal. unfold cat_init. rewrite rsum_repeat_v. do 2 f_equal. field. lra.
Qed.

Lemma nth_firstn_lt' {A} (l : list A) n i d : (i < n)%nat -> nth i (firstn n l) d = nth i l d.
Proof. revert n i. induction l as [|a l IH]; intros [|n] [|i] H; cbn; auto; try lia. apply IH. lia. Qed.

Lemma seq_order n : is_order n (seq 0 n).
Proof. unfold is_order. reflexivity. Qed.

Lemma sb_init_logw n c : 0 < c ->
  sb_log_weights (seq 0 n) (sb_default n c) = map (sb_init c) (seq 0 n).
Proof.
  intros Hc. assert (Lr : length (sb_default n c) = n) by apply repeat_length.
  assert (Hp : positive_sticks (sb_default n c)).
  { apply Forall_forall. intros x Hx. apply repeat_spec in Hx. subst. cbn [fst snd]. lra. }
  destruct (C91_expected_log_weights n _ _ (seq_order n) Lr Hp) as (E & _).
  apply (nth_ext _ _ 0 0); [rewrite map_length, seq_length; now apply sb_log_weights_length, seq_order|].
  intros k Hk. rewrite (sb_log_weights_length n) in Hk by apply seq_order.
  specialize (E k Hk). cbv zeta in E. rewrite seq_nth in E by lia. cbn [plus] in E. rewrite E.
  rewrite (map_nth_lt _ _ _ 0%nat) by (rewrite seq_length; lia). rewrite seq_nth by lia. cbn [plus].
  assert (N : forall j, (j < n)%nat -> nth j (sb_default n c) (0, 0) = (1, c)) by (intros; now apply nth_repeat_any).
  rewrite N by auto. cbn [fst snd]. unfold sb_init. f_equal.
  rewrite (sumf_ext _ (fun _ => digamma c - digamma (1 + c))).
  - rewrite sumf_const, firstn_length, seq_length, Nat.min_l by lia. ring.
  - intros j Hj. rewrite N; auto. destruct (In_nth _ _ 0%nat Hj) as (t & Ht & <-).
    rewrite firstn_length, seq_length in Ht. rewrite nth_firstn_lt' by lia. rewrite seq_nth by lia. lia.
Qed.

Lemma concat_repeat_length {A} (l : list A) n : length (concat (repeat l n)) = (n * length l)%nat.
Proof. induction n; simpl; auto. rewrite app_length, IHn. reflexivity. Qed.

Lemma member_repeat (l : list stick) n i : (i < n)%nat -> member (length l) i (concat (repeat l n)) = l.
Proof.
  unfold member. revert i. induction n as [|n IH]; intros i Hi; [lia|]. cbn [repeat concat].
  destruct i as [|i].
  - cbn [Nat.mul skipn]. rewrite firstn_app, Nat.sub_diag, firstn_all. cbn [firstn]. apply app_nil_r.
  - rewrite skipn_app. rewrite skipn_all2 by (cbn; lia). cbn [app].
    replace (S i * length l - length l)%nat with (i * length l)%nat by (cbn; lia). apply IH. lia.
Qed.

Lemma map_seq_const {A} (x : A) n j : map (fun _ : nat => x) (seq j n) = repeat x n.
Proof. revert j. induction n; intros j; simpl; congruence. Qed.

(** A set whose members all are the root has one row of log-weights. *)
Lemma sbset_rows n ord (post : list stick) : is_order n ord -> length post = n ->
  row_const n (sb_log_weights ord post)
    (sbset_logm (set_log_prob ord n (length post) (concat (repeat post n))) n).
Proof.
  intros Ho Hl.
  assert (E : set_log_prob ord n (length post) (concat (repeat post n)) = repeat (sb_log_weights ord post) n).
  { unfold set_log_prob. rewrite <- (map_seq_const (sb_log_weights ord post) n 0). apply map_ext_in. intros i Hi. apply in_seq in Hi.
    rewrite member_repeat by lia. reflexivity. }
  rewrite E. split; [unfold sbset_logm; now rewrite map_length, eye_length, repeat_length|].
  intros i Hi. unfold sbset_logm. rewrite repeat_length.
  rewrite (map_nth_lt _ _ _ []) by (rewrite eye_length; lia). rewrite eye_nth by lia.
  assert (L := sb_log_weights_length n ord post Ho).
  apply (nth_ext _ _ 0 0); [now rewrite map_length, seq_length, L|].
  intros k Hk. rewrite map_length, seq_length in Hk.
  rewrite (map_nth_lt _ _ _ 0%nat) by (rewrite seq_length; lia). rewrite seq_nth by lia.
  rewrite dot_unit_row by (rewrite ?map_length, ?repeat_length; lia).
  rewrite (map_nth_lt _ _ _ []) by (rewrite repeat_length; lia).
  now rewrite (nth_repeat_any (sb_log_weights ord post)) by lia.
Qed.

Lemma catset_rows n c : (0 < n)%nat -> 0 < c ->
  row_const n (repeat (cat_init n c) n)
    (catset_logm (map dir_ess (repeat (categorical_default (uniform_weights n) c) n)) n).
Proof.
  intros Hn Hc. set (a := categorical_default (uniform_weights n) c).
  assert (La : length (dir_ess a) = n).
  { rewrite dir_ess_length; unfold a; rewrite uniform_repeat; [now rewrite repeat_length|]. destruct n; [lia|discriminate]. }
  assert (W := cat_init_logw n c Hn Hc). fold a in W. rewrite mixture_log_weights_eq in W. unfold cat_logprobs in W. rewrite La in W.
  split; [unfold catset_logm; now rewrite !map_length, eye_length|].
  intros i Hi. unfold catset_logm. rewrite map_map. rewrite (map_nth_lt _ _ _ []) by (rewrite eye_length; lia).
  rewrite eye_nth by lia. unfold lin.
  rewrite !map_repeat_R. assert (V : dot (cat_stats (unit_row n i)) (dir_ess a) = cat_init n c).
  { rewrite dot_cat_stats_unit by auto.
    assert (Z : nth i (map (cat_logprob (dir_ess a)) (seq 0 n)) 0 = cat_init n c) by (rewrite W; now apply nth_repeat_any).
    rewrite (map_nth_lt _ _ _ 0%nat) in Z by (rewrite seq_length; lia). now rewrite seq_nth in Z by lia. }
  now rewrite V.
Qed.

Lemma conc_none n : concentration_of n None = INR n / 2. Proof. reflexivity. Qed.

(** The prior selects the model; a prior out of the list ends the command; the
    concentration never prevents the creation. *)
Theorem C131_classes : forall eps conc starts ends trans,
  mkphoneloop eps None conc starts ends trans =
    mkphoneloop eps (Some "gamma_dirichlet_process"%string) conc starts ends trans /\
  (forall s, ~ In s prior_names -> mkphoneloop eps (Some s) conc starts ends trans = Err OtherError) /\
  (forall s, In s ["dirichlet"; "dirichlet_process"; "gamma_dirichlet_process"]%string ->
     exists l, mkphoneloop eps (Some s) conc starts ends trans = Ok l /\ lo_bigram l = false) /\
  (forall s, In s ["dirichlet2"; "hierarchical_dirichlet_process"]%string ->
     exists l, mkphoneloop eps (Some s) conc starts ends trans = Ok l /\ lo_bigram l = true).
Proof.
  intros eps conc starts ends trans. repeat split.
  - intros s Hs. unfold mkphoneloop, parse_choice.
    destruct (existsb (String.eqb s) prior_names) eqn:E; [|reflexivity].
    apply existsb_exists in E. destruct E as (x & Hx & Ex). apply String.eqb_eq in Ex. now subst.
  - intros s Hs. cbn [In] in Hs. destruct Hs as [<- | [<- | [<- | []]]]; eexists; split; reflexivity.
  - intros s Hs. cbn [In] in Hs. destruct Hs as [<- | [<- | []]]; eexists; split; reflexivity.
Qed.

(** A concentration of zero is replaced by half the number of phones, as when
    none is given. *)
Theorem C131_concentration : forall eps prior starts ends trans,
  mkphoneloop eps prior (Some 0) starts ends trans = mkphoneloop eps prior None starts ends trans /\
  ((0 < length starts)%nat ->
   mkphoneloop eps prior None starts ends trans =
   mkphoneloop eps prior (Some (INR (length starts) / 2)) starts ends trans).
Proof.
  intros eps prior starts ends trans. split; unfold mkphoneloop, concentration_of.
  - now destruct (Req_EM_T 0 0).
  - intros Hn. apply lt_0_INR in Hn. destruct (Req_EM_T _ _); [lra|reflexivity].
Qed.

Section Entries.
  Variables (eps c : R) (starts ends : list nat) (trans : nat -> nat -> lp).
  Hypothesis Hc : 0 < c.
  Hypothesis Hn : (0 < length starts)%nat.
  Hypothesis Hl : length ends = length starts.
  Hypothesis Hs : NoDup starts.
  Hypothesis He : NoDup ends.
  Hypothesis Hd : forall x, In x ends -> ~ In x starts.
  Let n := length starts.
  Let self e := ex (trans e e).

  Lemma conc_c : concentration_of (length starts) (Some c) = c.
  Proof using Hc. unfold concentration_of. destruct (Req_EM_T c 0); [lra|reflexivity]. Qed.

  (** Dirichlet prior: the phones are equally likely. *)
  Theorem C131_dirichlet : exists l, mkphoneloop eps (Some "dirichlet"%string) (Some c) starts ends trans = Ok l /\
    lo_weights l = WCat (repeat (c / INR n) n) (repeat (c / INR n) n) /\
    dir_mean (repeat (c / INR n) n) = repeat (1 / INR n) n /\
    (forall e k, In e ends -> (k < n)%nat -> self e <= 1 ->
       ex (lo_trans l e (nth k starts 0%nat)) = (1 - self e) * exp (digamma (c / INR n) - digamma c)).
  Proof using Hc Hn Hs He Hd.
    clear Hl. assert (HN : 0 < INR n) by (now apply lt_0_INR).
    eexists. unfold mkphoneloop. rewrite conc_c. split; [reflexivity|]. cbn [lo_weights lo_trans]. fold n.
    split.
    { change (WCat (categorical_default (uniform_weights n) c) (categorical_default (uniform_weights n) c) =
              WCat (repeat (c / INR n) n) (repeat (c / INR n) n)). now rewrite uniform_repeat. }
    split.
    - unfold dir_mean. rewrite map_repeat_R, rsum_repeat_v. f_equal. field. lra.
    - intros e k Hin Hk Hle.
      change (ex (on_weights_update (mixture_log_weights (dir_ess (categorical_default (uniform_weights n) c))) starts ends trans
                e (nth k starts 0%nat)) = (1 - self e) * exp (digamma (c / INR n) - digamma c)).
      rewrite cat_init_logw by auto.
      rewrite C19_entries by (auto; apply repeat_length). now rewrite (nth_repeat_any (cat_init n c)) by lia.
  Qed.

  (** Dirichlet process: the k-th phone of the list has the k-th stick; the
      hyper-prior of the concentration does not change the initial model. *)
  Theorem C131_sticks : forall name, In name ["dirichlet_process"; "gamma_dirichlet_process"]%string ->
    exists l s, mkphoneloop eps (Some name) (Some c) starts ends trans = Ok l /\ lo_weights l = WSB s /\
    sb_prior s = repeat (1, c) n /\ sb_post s = repeat (1, c) n /\ sb_ord s = seq 0 n /\
    (forall g, sb_hyper s = Some g -> gamma_mean g = [c]) /\
    (sb_hyper s = None <-> name = "dirichlet_process"%string) /\
    (forall k, (k < n)%nat -> nth k (sb_mean 0 (sb_ord s) (sb_post s)) 0 = 1 / (1 + c) * (c / (1 + c)) ^ k) /\
    (forall e k, In e ends -> (k < n)%nat -> self e <= 1 ->
       ex (lo_trans l e (nth k starts 0%nat)) =
       (1 - self e) * exp ((digamma 1 - digamma (1 + c)) + INR k * (digamma c - digamma (1 + c)))).
  Proof using Hc Hn Hs He Hd.
    clear Hl. assert (Pst : sb_mean 0 (seq 0 n) (sb_default n c) = map (fun k => 1 / (1 + c) * (c / (1 + c)) ^ k) (seq 0 n)).
    { assert (Lr : length (sb_default n c) = n) by apply repeat_length.
      destruct (C44_weights_exact n (seq 0 n) (sb_default n c) (seq_order n) Lr) as (E & _).
      { apply Forall_forall. intros x Hx. apply repeat_spec in Hx. subst. cbn [fst snd]. lra. }
      assert (M : length (sb_mean 0 (seq 0 n) (sb_default n c)) = n) by (apply sb_mean_length, seq_order).
      apply (nth_ext _ _ 0 0); [now rewrite map_length, seq_length|]. rewrite M. intros k Hk.
      rewrite (map_nth_lt _ _ _ 0%nat) by (rewrite seq_length; lia). rewrite seq_nth by lia. cbn [plus].
      specialize (E k Hk). rewrite seq_nth in E by lia. cbn [plus] in E. rewrite E. unfold broken_stick.
      assert (N : forall j, (j < n)%nat -> nth j (sb_default n c) (0, 0) = (1, c)) by (intros; now apply nth_repeat_any).
      rewrite seq_nth by lia. cbn [plus]. rewrite N by auto. cbn [fst snd]. f_equal.
      rewrite (map_ext_in _ (fun _ => c / (1 + c))).
      - assert (R : forall l : list nat, rprod (map (fun _ => c / (1 + c)) l) = (c / (1 + c)) ^ length l).
        { induction l as [|x l IH]; simpl; [reflexivity|]. now rewrite IH. }
        rewrite R, firstn_length, seq_length, Nat.min_l by lia. reflexivity.
      - intros j Hj. destruct (In_nth _ _ 0%nat Hj) as (t & Ht & <-).
        rewrite firstn_length, seq_length in Ht. rewrite nth_firstn_lt' by lia. rewrite seq_nth by lia.
        rewrite N by lia. cbn [fst snd]. field. lra. }
    assert (Gm : gamma_mean (default_rate [1 * c] 1) = [c]).
    { unfold gamma_mean, default_rate. cbn. f_equal. field. lra. }
    intros name Hname.
    assert (T : forall e k, In e ends -> (k < n)%nat -> self e <= 1 ->
       ex (on_weights_update (map (sb_ellh (seq 0 n) (sb_default n c)) (Vec.eye n)) starts ends trans e (nth k starts 0%nat)) =
       (1 - self e) * exp ((digamma 1 - digamma (1 + c)) + INR k * (digamma c - digamma (1 + c)))).
    { intros e k Hin Hk Hle. rewrite sb_logw, sb_init_logw by (auto; apply seq_order).
      rewrite C19_entries by (auto; now rewrite map_length, seq_length).
      rewrite (map_nth_lt _ _ _ 0%nat) by (rewrite seq_length; lia). now rewrite seq_nth by lia. }
    assert (Pr : on_concentration_update (default_rate [1 * c] 1) (sb_default n c) = repeat (1, c) n).
    { unfold on_concentration_update. rewrite Gm. unfold sb_default. clear. induction n as [|m IH]; cbn [repeat map]; [reflexivity|]. rewrite IH. reflexivity. }
    unfold mkphoneloop. rewrite conc_c.
    destruct Hname as [<- | [<- | []]]; eexists; eexists; (split; [reflexivity|]); (split; [reflexivity|]);
      cbn [lo_trans sb_prior sb_post sb_ord sb_hyper]; fold n.
    - split; [reflexivity|]. split; [reflexivity|]. split; [reflexivity|]. split; [discriminate|].
      split; [tauto|]. split; [|exact T]. intros k Hk. cbn [sb_create sb_ord sb_post]. rewrite Pst.
      rewrite (map_nth_lt _ _ _ 0%nat) by (rewrite seq_length; lia). now rewrite seq_nth by lia.
    - split; [exact Pr|]. split; [reflexivity|]. split; [reflexivity|].
      split; [intros g Hg; injection Hg as <-; exact Gm|].
      split; [split; discriminate|]. split; [|exact T]. intros k Hk. rewrite Pst.
      rewrite (map_nth_lt _ _ _ 0%nat) by (rewrite seq_length; lia). now rewrite seq_nth by lia.
  Qed.

  (** The bigram models start as the corresponding unigram models. *)
  Theorem C131_bigram_starts_as_unigram : forall b u, In (b, u)
      [("dirichlet2", "dirichlet"); ("hierarchical_dirichlet_process", "dirichlet_process")]%string ->
    exists lb lu, mkphoneloop eps (Some b) (Some c) starts ends trans = Ok lb /\
      mkphoneloop eps (Some u) (Some c) starts ends trans = Ok lu /\ lo_trans lb = lo_trans lu.
  Proof using Hc Hn Hl.
    intros b u H. unfold mkphoneloop. rewrite conc_c. cbn [In] in H. fold n.
    assert (Hl' : length ends = n) by exact Hl.
    destruct H as [H | [H | []]]; injection H as <- <-; eexists; eexists; (split; [reflexivity|]); (split; [reflexivity|]);
      cbn [lo_trans].
    - fold n. rewrite cat_init_logw by auto. apply bigram_as_unigram. rewrite Hl'. now apply catset_rows.
    - cbn [sb_create sb_ord sb_post]. fold n. rewrite sb_logw by apply seq_order.
      apply bigram_as_unigram. rewrite Hl'. apply (sbset_rows n (seq 0 n) (sb_default n c)); [apply seq_order|apply repeat_length].
  Qed.
End Entries.

Lemma concat_repeat_repeat {A} (x : A) a b : concat (repeat (repeat x a) b) = repeat x (b * a).
Proof. induction b as [|b IH]; [reflexivity|]. cbn [repeat concat Nat.mul]. now rewrite repeat_app, IH. Qed.

(** The prior of the hierarchical phone-loop: every phone gets sticks centred on
    the geometric weights of the root, with the concentration as strength. *)
Theorem C131_hierarchical_prior : forall eps c starts ends trans, 0 < c -> 0 <= eps -> starts <> [] ->
  let n := length starts in
  let m k := 1 / (1 + c + eps) * (c / (1 + c + eps)) ^ k in
  exists l prior, mkphoneloop eps (Some "hierarchical_dirichlet_process"%string) (Some c) starts ends trans = Ok l /\
    lo_weights l = WSBSet n prior (repeat (1, c) (n * n))
      {| sb_ord := seq 0 n; sb_prior := repeat (1, c) n; sb_post := repeat (1, c) n; sb_hyper := None |} /\
    length prior = (n * n)%nat /\
    forall i k, (i < n)%nat -> (k < n)%nat ->
      nth (i * n + k) prior (0, 0) = (c * m k, c * (1 - sumf m (seq 0 (S k)))).
Proof.
  intros eps c starts ends trans Hc He Hne n m.
  assert (Lr : length (sb_default n c) = n) by apply repeat_length.
  assert (M : length (sb_mean eps (seq 0 n) (sb_default n c)) = n) by (apply sb_mean_length, seq_order).
  assert (N : forall j, (j < n)%nat -> nth j (sb_default n c) (0, 0) = (1, c)) by (intros; now apply nth_repeat_any).
  assert (V : forall k, (k < n)%nat -> nth k (sb_mean eps (seq 0 n) (sb_default n c)) 0 = m k).
  { intros k Hk. assert (E := sb_mean_nth n (seq 0 n) (sb_default n c) eps (seq_order n) Lr k Hk).
    rewrite seq_nth in E by auto. cbn [plus] in E. rewrite E. unfold m. f_equal.
    - unfold sv, sa, sb. rewrite N by auto. reflexivity.
    - rewrite (map_ext_in _ (fun _ => c / (1 + c + eps))).
      + assert (R : forall l : list nat, rprod (map (fun _ => c / (1 + c + eps)) l) = (c / (1 + c + eps)) ^ length l).
        { induction l as [|x l IH]; simpl; [reflexivity|]. now rewrite IH. }
        rewrite R, firstn_length, seq_length, Nat.min_l by lia. reflexivity.
      + intros j Hj. apply In_firstn, in_seq in Hj. unfold sr, sa, sb. rewrite N by lia. reflexivity. }
  assert (RL : length (set_prior_row c (sb_mean eps (seq 0 n) (sb_default n c))) = n).
  { unfold set_prior_row. rewrite map2_length, cumsum_length; lia. }
  eexists. eexists. unfold mkphoneloop. rewrite conc_c by auto. split; [reflexivity|]. cbn [lo_weights sb_create sb_ord sb_post].
  fold n. split.
  { transitivity (WSBSet n (set_prior n c (sb_mean eps (seq 0 n) (sb_default n c)))
      (concat (repeat (repeat (1, c) n) n)) (sb_create n c)); [reflexivity|]. rewrite concat_repeat_repeat. reflexivity. }
  split.
  { unfold set_prior. rewrite concat_repeat_length, RL. reflexivity. }
  intros i k Hi Hk.
  assert (Mb : nth (i * n + k) (set_prior n c (sb_mean eps (seq 0 n) (sb_default n c))) (0, 0) =
               nth k (set_prior_row c (sb_mean eps (seq 0 n) (sb_default n c))) (0, 0)).
  { rewrite <- (member_repeat (set_prior_row c (sb_mean eps (seq 0 n) (sb_default n c))) n i Hi) at 1.
    rewrite RL. unfold member. rewrite nth_firstn_lt' by auto. rewrite nth_skipn. reflexivity. }
  rewrite Mb, set_prior_row_nth by lia. rewrite V by auto. f_equal. f_equal. f_equal. unfold sumf.
  rewrite <- (firstn_all2 (n := S k) (map m (seq 0 (S k)))) by (rewrite map_length, seq_length; lia).
  f_equal. apply (nth_ext _ _ 0 0).
  - rewrite !firstn_length, map_length, seq_length. lia.
  - intros j Hj. rewrite firstn_length in Hj. rewrite !nth_firstn_lt' by lia.
    rewrite V by lia. rewrite (map_nth_lt _ _ _ 0%nat) by (rewrite seq_length; lia).
    rewrite seq_nth by lia. reflexivity.
Qed.

Example C131_hierarchical_example : exists l prior post root,
  mkphoneloop 0 (Some "hierarchical_dirichlet_process"%string) (Some 1) [0; 2]%nat [1; 3]%nat (fun _ _ => NInf) = Ok l /\
  lo_weights l = WSBSet 2 prior post root /\
  nth 3 prior (0, 0) = (1/4, 1/4).
Proof.
  destruct (C131_hierarchical_prior 0 1 [0; 2]%nat [1; 3]%nat (fun _ _ => NInf)) as (l & p & E & W & _ & P); try lra; try discriminate.
  exists l, p. eexists. eexists. split; [exact E|]. split; [exact W|].
  specialize (P 1%nat 1%nat). cbn [length] in P. change 3%nat with (1 * 2 + 1)%nat. rewrite P by lia. cbn [seq]. rewrite !sumf_cons, sumf_nil. simpl. f_equal; field.
Qed.

(** Two phones of two states, no concentration given: c = 1; E[ln v] =
    digamma 1 - digamma 2 = -1. *)
Example C131_example : let trans := fun i j : nat => if Nat.eqb i j then Fin (ln (1/2)) else NInf in
  exists l, mkphoneloop 0 None None [0; 2]%nat [1; 3]%nat trans = Ok l /\
  ex (lo_trans l 3%nat 0%nat) = 1/2 * exp (-1) /\ ex (lo_trans l 3%nat 2%nat) = 1/2 * exp (-2).
Proof.
  cbv zeta. set (trans := fun i j : nat => _).
  destruct (C131_classes 0 None [0; 2]%nat [1; 3]%nat trans) as (E0 & _).
  destruct (C131_concentration 0 (Some "gamma_dirichlet_process"%string) [0; 2]%nat [1; 3]%nat trans) as (_ & E1).
  specialize (E1 ltac:(simpl; lia)). replace (INR (length [0; 2]%nat) / 2) with 1 in E1 by (simpl; lra).
  destruct (C131_sticks 0 1 [0; 2]%nat [1; 3]%nat trans) with (name := "gamma_dirichlet_process"%string)
    as (l & s & E & _ & _ & _ & _ & _ & _ & _ & T); try lra; try (simpl; tauto); try (simpl; lia).
  - repeat constructor; simpl; intuition lia.
  - repeat constructor; simpl; intuition lia.
  - exists l. rewrite E0, E1. split; [exact E|].
    assert (Sf : ex (trans 3%nat 3%nat) = 1/2) by (unfold trans; simpl; apply exp_ln; lra).
    assert (D : digamma (1 + 1) = digamma 1 + 1) by (rewrite digamma_rec by lra; lra).
    split.
    + assert (T0 := T 3%nat 0%nat ltac:(simpl; tauto) ltac:(simpl; lia) ltac:(lra)). cbn [nth] in T0. rewrite T0, Sf, D. simpl INR.
      f_equal; [lra|f_equal; lra].
    + assert (T0 := T 3%nat 1%nat ltac:(simpl; tauto) ltac:(simpl; lia) ltac:(lra)). cbn [nth] in T0. rewrite T0, Sf, D. simpl INR.
      f_equal; [lra|f_equal; lra].
Qed.

(** ** C132: a bigram phone-loop from a unigram one *)

(** The default of the option is not one of its choices: without the option
    the command always fails. *)
Theorem C132_default_prior_refuted : forall eps ploop starts ends,
  mkphoneloopbigram eps None ploop starts ends = Err KeyError.
Proof. reflexivity. Qed.

(** A bigram phone-loop has no unigram weights. *)
Theorem C132_bigram_input : forall eps s ploop starts ends, In s prior_names_2g -> lo_bigram ploop = true ->
  mkphoneloopbigram eps (Some s) ploop starts ends = Err AttributeError.
Proof.
  intros eps s ploop starts ends Hs Hb. unfold mkphoneloopbigram, parse_choice. cbn [In prior_names_2g] in Hs.
  destruct Hs as [<- | [<- | []]]; cbn; now rewrite Hb.
Qed.

(** The hierarchical prior needs a stick-breaking process: the phone-loop of a
    Dirichlet prior has none. *)
Theorem C132_dirichlet_input_refuted : forall eps starts ends trans c,
  exists l, mkphoneloop eps (Some "dirichlet"%string) c starts ends trans = Ok l /\
  mkphoneloopbigram eps (Some "hierarchical_dirichlet_process"%string) l starts ends = Err AttributeError.
Proof. intros. eexists. split; reflexivity. Qed.

Lemma lnp_pos x : 0 < x -> lnp x = Fin (ln x).
Proof. intros H. unfold lnp. destruct (Rlt_dec 0 x); [reflexivity|lra]. Qed.

(** Updating twice with the same weights. *)
Lemma on_weights_update_idem logw starts ends trans i j : NoDup starts -> NoDup ends ->
  (forall x, In x ends -> ~ In x starts) -> length logw = length starts ->
  on_weights_update logw starts ends (on_weights_update logw starts ends trans) i j =
  on_weights_update logw starts ends trans i j.
Proof.
  intros Hs He Hd Hl.
  assert (F : Forall (ew_ok starts) (map (fun e => (e, logw)) ends)).
  { apply Forall_forall. intros ew Hew. apply in_map_iff in Hew. destruct Hew as (x & <- & _). exact Hl. }
  destruct (in_dec Nat.eq_dec i ends) as [Hi|Hi]; [|now rewrite C19_others_unchanged by auto].
  destruct (in_dec Nat.eq_dec j starts) as [Hj|Hj]; [|now rewrite C19_others_unchanged by auto].
  destruct (In_nth _ _ 0%nat Hj) as (k & Hk & <-).
  assert (S : on_weights_update logw starts ends trans i i = trans i i) by (apply C19_others_unchanged; auto).
  assert (E : forall t, on_weights_update logw starts ends t i (nth k starts 0%nat) =
                        ladd (lnp (1 - ex (t i i))) (Fin (nth k logw 0))).
  { intros t. unfold on_weights_update. apply fold_update_entry; auto.
    - rewrite map_map. cbn [fst]. now rewrite map_id.
    - intros ew Hew. apply in_map_iff in Hew. destruct Hew as (x & <- & Hx). cbn [fst]. auto.
    - apply in_map_iff. eauto. }
  now rewrite !E, S.
Qed.

(** From a stick-breaking phone-loop, trained or not: the transitions do not
    change, every row of the set has the posterior and the mean of the unigram,
    and the prior of its rows is centred on the mean of the unigram (C93). *)
Theorem C132_hierarchical : forall eps s starts ends t0,
  let n := length starts in
  NoDup starts -> NoDup ends -> length ends = n -> (forall x, In x ends -> ~ In x starts) ->
  is_order n (sb_ord s) -> length (sb_post s) = n ->
  let ploop := {| lo_bigram := false; lo_weights := WSB s;
                  lo_trans := on_weights_update (sb_log_weights (sb_ord s) (sb_post s)) starts ends t0 |} in
  exists l prior post, mkphoneloopbigram eps (Some "hierarchical_dirichlet_process"%string) ploop starts ends = Ok l /\
    lo_bigram l = true /\ lo_weights l = WSBSet n prior post s /\
    (forall i, (i < n)%nat -> member n i post = sb_post s /\
       nth i (set_mean eps (sb_ord s) n n post) [] = sb_mean eps (sb_ord s) (sb_post s) /\
       member n i prior = set_prior_row (INR n / 2) (sb_mean eps (sb_ord s) (sb_post s))) /\
    (forall i j, lo_trans l i j = lo_trans ploop i j).
Proof.
  intros eps s starts ends t0 n Hs He Hl Hd Ho Hp ploop. do 3 eexists. split; [reflexivity|].
  split; [reflexivity|]. cbn [lo_weights lo_trans]. fold n. split; [reflexivity|]. split.
  - intros i Hi. assert (M : member n i (concat (repeat (sb_post s) n)) = sb_post s).
    { rewrite <- Hp at 1. now apply member_repeat. }
    split; [exact M|]. split.
    + unfold set_mean. rewrite (map_nth_lt _ _ _ 0%nat) by (rewrite seq_length; lia). rewrite seq_nth by lia.
      cbn [plus]. now rewrite M.
    + unfold set_prior. set (row := set_prior_row _ _).
      assert (LR : length row = n).
      { unfold row, set_prior_row. rewrite map2_length, cumsum_length, Nat.min_id. now apply sb_mean_length. }
      rewrite <- LR at 1. now apply member_repeat.
  - intros i j. rewrite (bigram_as_unigram (sb_log_weights (sb_ord s) (sb_post s))).
    + unfold ploop. cbn [lo_trans]. apply on_weights_update_idem; auto. now apply sb_log_weights_length.
    + rewrite Hl. now apply sbset_rows.
Qed.

(** The other prior forgets the unigram weights: whatever the input, uniform
    rows of total concentration one. *)
Theorem C132_dirichlet2_refuted : forall eps ploop starts ends,
  let n := length starts in
  (0 < n)%nat -> NoDup starts -> NoDup ends -> length ends = n -> (forall x, In x ends -> ~ In x starts) ->
  lo_bigram ploop = false ->
  exists l, mkphoneloopbigram eps (Some "dirichlet2"%string) ploop starts ends = Ok l /\ lo_bigram l = true /\
    lo_weights l = WCatSet (repeat (repeat (1 / INR n) n) n) (repeat (repeat (1 / INR n) n) n) /\
    forall e k, In e ends -> (k < n)%nat -> ex (lo_trans ploop e e) <= 1 ->
      ex (lo_trans l e (nth k starts 0%nat)) =
      (1 - ex (lo_trans ploop e e)) * exp (digamma (1 / INR n) - digamma 1).
Proof.
  intros eps ploop starts ends n Hn Hs He Hl Hd Hb.
  exists {| lo_bigram := true; lo_weights := build_categorical_2g n 1;
            lo_trans := on_weights_update (repeat (cat_init n 1) n) starts ends (lo_trans ploop) |}.
  split; [|split; [reflexivity|split]].
  - unfold mkphoneloopbigram, parse_choice. cbn [existsb prior_names_2g String.eqb Ascii.eqb Bool.eqb bindr orb negb].
    cbn. rewrite Hb. cbn. do 2 f_equal. apply bigram_as_unigram. rewrite Hl. apply catset_rows; [auto|lra].
  - cbn [lo_weights]. unfold build_categorical_2g. now rewrite uniform_repeat.
  - intros e k Hin Hk Hle. cbn [lo_trans]. rewrite C19_entries by (auto; apply repeat_length).
    now rewrite (nth_repeat_any (cat_init n 1)) by lia.
Qed.

(** Phones of one state: the self-loop is a transition to a start, and the
    transitions do change. *)
Theorem C132_single_state_refuted :
  exists l l', mkphoneloop 0 (Some "dirichlet_process"%string) (Some 1) [0]%nat [0]%nat (fun _ _ => Fin (ln (1/2))) = Ok l /\
    mkphoneloopbigram 0 (Some "hierarchical_dirichlet_process"%string) l [0]%nat [0]%nat = Ok l' /\
    ex (lo_trans l 0%nat 0%nat) = 1/2 * exp (-1) /\
    ex (lo_trans l' 0%nat 0%nat) = (1 - 1/2 * exp (-1)) * exp (-1) /\
    ex (lo_trans l 0%nat 0%nat) < ex (lo_trans l' 0%nat 0%nat).
Proof.
  set (lw := [-1]). set (t0 := fun _ _ : nat => Fin (ln (1/2))).
  assert (D : digamma (1 + 1) = digamma 1 + 1) by (rewrite digamma_rec by lra; lra).
  assert (W : sb_log_weights (seq 0 1) (sb_default 1 1) = lw).
  { rewrite sb_init_logw by lra. unfold lw, sb_init. cbn [seq map]. rewrite D. simpl INR. f_equal. lra. }
  assert (W' : map (sb_ellh (seq 0 1) (sb_default 1 1)) (Vec.eye 1) = lw) by (rewrite sb_logw by apply seq_order; exact W).
  assert (U : forall t : nat -> nat -> lp, ex (t 0%nat 0%nat) < 1 ->
    ex (on_weights_update lw [0%nat] [0%nat] t 0%nat 0%nat) = (1 - ex (t 0%nat 0%nat)) * exp (-1)).
  { intros t Ht. unfold on_weights_update, update_end, lw, row_set. cbn [map combine fold_left fst snd Nat.eqb].
    rewrite lnp_pos by lra. cbn [ladd ex]. rewrite exp_plus, exp_ln by lra. reflexivity. }
  set (l := {| lo_bigram := false; lo_weights := build_sb 1 1; lo_trans := on_weights_update lw [0%nat] [0%nat] t0 |}).
  set (l' := {| lo_bigram := true; lo_weights := sbset_create 0 1 (sb_create 1 1) (INR 1 / 2);
                lo_trans := on_weights_update lw [0%nat] [0%nat] (lo_trans l) |}).
  assert (H0 : ex (t0 0%nat 0%nat) = 1/2) by (unfold t0; cbn [ex]; apply exp_ln; lra).
  assert (H1 : ex (lo_trans l 0%nat 0%nat) = 1/2 * exp (-1)) by (unfold l; cbn [lo_trans]; rewrite U, H0; lra).
  assert (Hx : 0 < exp (-1) < 1).
  { split; [apply exp_pos|]. rewrite <- exp_0. apply exp_increasing. lra. }
  assert (H2 : ex (lo_trans l' 0%nat 0%nat) = (1 - 1/2 * exp (-1)) * exp (-1)).
  { unfold l'. cbn [lo_trans]. rewrite U, H1; lra. }
  exists l, l'. split; [|split; [|split; [exact H1|split; [exact H2|]]]].
  - unfold mkphoneloop. rewrite conc_c by lra. unfold l. rewrite <- W'. reflexivity.
  - assert (R : row_const 1 lw (sbset_logm (set_log_prob (seq 0 1) 1 (length (sb_default 1 1)) (concat (repeat (sb_default 1 1) 1))) 1)).
    { rewrite <- W. apply sbset_rows; [apply seq_order|reflexivity]. }
    unfold l'. rewrite <- (bigram_as_unigram lw _ [0%nat] [0%nat] (lo_trans l) R). reflexivity.
  - rewrite H1, H2. assert (0 < exp (-1) * (1 - exp (-1))) by (apply Rmult_lt_0_compat; lra). lra.
Qed.

(** The emissions are wrapped twice: same likelihoods and same statistics. *)
Theorem C132_nested_likelihood : forall m order x, nested_ellh m order x = dyn_ellh m order x.
Proof.
  intros m order x. unfold nested_ellh, dyn_ellh.
  rewrite (mapM_ok _ (fun k => nth k (ellh m x) 0)).
  - cbn [bindr]. assert (E := map_seq_nth (fun v : R => v) (ellh m x) 0). rewrite map_id, ellh_length in E.
    now rewrite <- E.
  - intros k Hk. apply in_seq in Hk. destruct (Nat.ltb_spec k (size m)); [reflexivity|lia].
Qed.

Lemma scatter_id K r : length r = K -> scatter K (seq 0 K) r = r.
Proof.
  intros Hr. apply (nth_ext _ _ 0 0); [now rewrite scatter_length|].
  intros k Hk. rewrite scatter_length in Hk. rewrite scatter_nth by (intros o Ho; apply in_seq in Ho; lia).
  rewrite (combine_index (seq 0 K) r 0%nat 0) by (rewrite seq_length; auto). rewrite seq_length, sumf_map.
  cbn [fst snd]. rewrite (sumf_seq_single _ K k); auto.
  - rewrite seq_nth by lia. cbn [plus]. now rewrite Nat.eqb_refl.
  - intros i Hi Hne. rewrite seq_nth by lia. destruct (Nat.eqb_spec (0 + i) k); [lia|reflexivity].
Qed.

Theorem C132_nested_statistics : forall m order stats resps,
  nested_accumulate m order stats resps = dyn_accumulate m order stats resps.
Proof.
  intros m order stats resps. unfold nested_accumulate, dyn_accumulate. f_equal. rewrite map_map.
  apply map_ext. intros r. apply scatter_id, scatter_length.
Qed.

Example C132_example : let trans := fun i j : nat => if Nat.eqb i j then Fin (ln (1/2)) else NInf in
  exists l l', mkphoneloop 0 (Some "dirichlet_process"%string) None [0; 2]%nat [1; 3]%nat trans = Ok l /\
  mkphoneloopbigram 0 (Some "hierarchical_dirichlet_process"%string) l [0; 2]%nat [1; 3]%nat = Ok l' /\
  lo_bigram l = false /\ lo_bigram l' = true /\ ex (lo_trans l' 3%nat 2%nat) = 1/2 * exp (-2).
Proof.
  cbv zeta. set (trans := fun i j : nat => _).
  destruct (C131_concentration 0 (Some "dirichlet_process"%string) [0; 2]%nat [1; 3]%nat trans) as (_ & E1).
  specialize (E1 ltac:(simpl; lia)). replace (INR (length [0; 2]%nat) / 2) with 1 in E1 by (simpl; lra).
  assert (N1 : NoDup [0; 2]%nat) by (repeat constructor; simpl; intuition lia).
  assert (N2 : NoDup [1; 3]%nat) by (repeat constructor; simpl; intuition lia).
  assert (N3 : forall x, In x [1; 3]%nat -> ~ In x [0; 2]%nat) by (intros x Hx Hy; simpl in Hx, Hy; lia).
  assert (Sf : ex (trans 3%nat 3%nat) = 1/2) by (unfold trans; simpl; apply exp_ln; lra).
  assert (D : digamma (1 + 1) = digamma 1 + 1) by (rewrite digamma_rec by lra; lra).
  destruct (C132_hierarchical 0 (sb_create 2 1) [0; 2]%nat [1; 3]%nat trans) as (l' & _ & _ & E' & B' & _ & _ & T');
    auto; [apply seq_order|].
  eexists. exists l'. rewrite E1. unfold mkphoneloop. rewrite conc_c by lra. split; [reflexivity|].
  split; [|split; [reflexivity|split; [exact B'|]]].
  - rewrite <- E'. do 2 f_equal. rewrite <- (sb_logw 2) by apply seq_order. reflexivity.
  - rewrite T'. cbn [lo_trans]. assert (T0 := C19_entries (sb_log_weights (sb_ord (sb_create 2 1)) (sb_post (sb_create 2 1))) [0; 2]%nat [1; 3]%nat trans 3 1
      N1 N2 N3 ltac:(now apply (sb_log_weights_length 2), seq_order) ltac:(simpl; tauto) ltac:(simpl; lia) ltac:(lra)).
    cbn [nth] in T0. rewrite T0, Sf. cbn [sb_create sb_ord sb_post]. rewrite sb_init_logw by lra. unfold sb_init. cbn [seq map nth]. rewrite D. simpl INR.
    f_equal; [lra|f_equal; lra].
Qed.

Print Assumptions C131_sticks.
Print Assumptions C131_hierarchical_prior.
Print Assumptions C132_hierarchical.
Print Assumptions C132_nested_statistics.
Print Assumptions C19_dirichlet_rows_refuted.
