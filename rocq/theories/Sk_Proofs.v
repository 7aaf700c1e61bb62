(** Lemmas on the bound of stick-breaking models. *)
From Coq Require Import Reals List Arith Bool Lia Lra Permutation.
From Verif Require Import Prelude Vec Gibbs Lgamma Dist_Model Dist_Spec Dist_Proofs KL_Proofs Dist_Props SB_Model SB_Spec SB_Proofs SB_Props Sk_Model Sk_Spec.
Import ListNotations.
Local Open Scope R_scope.

(** ** Shifts of lgamma *)
Lemma lgamma_secant_le x y : 0 < x -> x <= y -> lgamma y - lgamma x <= digamma y * (y - x).
Proof.
  intros Hx Hy. assert (T := lgamma_tangent x y Hx ltac:(lra)). assert (B := bphi_nonneg x y Hx ltac:(lra)). lra.
Qed.
Lemma lgamma_secant_ge x y : 0 < x -> x <= y -> digamma x * (y - x) <= lgamma y - lgamma x.
Proof.
  intros Hx Hy. assert (T := lgamma_tangent y x ltac:(lra) Hx). assert (B := bphi_nonneg y x ltac:(lra) Hx). lra.
Qed.
Lemma digamma_mono_le x y : 0 < x -> x <= y -> digamma x <= digamma y.
Proof. intros Hx [Hy| ->]; [|lra]. left. now apply digamma_mono. Qed.

Lemma lgamma_shift_mono a x y : 0 < a -> 0 < x -> x <= y ->
  lgamma (x + a) - lgamma x <= lgamma (y + a) - lgamma y.
Proof.
  intros Ha Hx Hy. destruct (Rle_lt_dec (x + a) y) as [H|H].
  - assert (A := lgamma_secant_le x (x + a) Hx ltac:(lra)).
    assert (B := lgamma_secant_ge y (y + a) ltac:(lra) ltac:(lra)).
    assert (C := digamma_mono_le (x + a) y ltac:(lra) H).
    replace (x + a - x) with a in A by ring. replace (y + a - y) with a in B by ring.
    assert (digamma (x + a) * a <= digamma y * a) by (apply Rmult_le_compat_r; lra). lra.
  - assert (A := lgamma_secant_le x y Hx Hy).
    assert (B := lgamma_secant_ge (x + a) (y + a) ltac:(lra) ltac:(lra)).
    assert (C := digamma_mono_le y (x + a) ltac:(lra) ltac:(lra)).
    replace (y + a - (x + a)) with (y - x) in B by ring.
    assert (digamma y * (y - x) <= digamma (x + a) * (y - x)) by (apply Rmult_le_compat_r; lra). lra.
Qed.

(** ** The best bound of an order *)
Section Best.
  Variables a b : R.
  Hypothesis Ha : 0 < a.
  Hypothesis Hb : 0 < b.

  Fixpoint best (l : list R) : R :=
    match l with
    | [] => 0
    | x :: t => log_beta (a + x) (b + rsum t) - log_beta a b + best t
    end.

  Lemma best_swap x y t : 0 <= x -> x <= y -> 0 <= rsum t -> best (x :: y :: t) <= best (y :: x :: t).
  Proof.
    intros Hx Hy Ht. cbn [best rsum]. unfold log_beta.
    assert (S := lgamma_shift_mono a (b + rsum t + x) (b + rsum t + y) Ha ltac:(lra) ltac:(lra)).
    replace (a + x + (b + (y + rsum t))) with (a + y + (b + (x + rsum t))) by ring.
    replace (a + y + (b + rsum t)) with (b + rsum t + y + a) by ring.
    replace (a + x + (b + rsum t)) with (b + rsum t + x + a) by ring.
    replace (b + (y + rsum t)) with (b + rsum t + y) by ring.
    replace (b + (x + rsum t)) with (b + rsum t + x) by ring. lra.
  Qed.

  Fixpoint ins (x : R) (l : list R) : list R :=
    match l with
    | [] => [x]
    | y :: t => if Rle_dec y x then x :: y :: t else y :: ins x t
    end.
  Fixpoint isort (l : list R) : list R :=
    match l with [] => [] | x :: t => ins x (isort t) end.

  Lemma ins_perm x l : Permutation (x :: l) (ins x l).
  Proof.
    induction l as [|y t IH]; cbn [ins]; [reflexivity|]. destruct (Rle_dec y x); [reflexivity|].
    eapply perm_trans; [apply perm_swap|]. now constructor.
  Qed.
  Lemma isort_perm l : Permutation l (isort l).
  Proof. induction l as [|x t IH]; cbn [isort]; [reflexivity|]. eapply perm_trans; [|apply ins_perm]. now constructor. Qed.

  Definition nn (l : list R) : Prop := Forall (fun x => 0 <= x) l.

  Lemma nn_rsum l : nn l -> 0 <= rsum l.
  Proof. induction 1; cbn [rsum]; lra. Qed.

  Lemma ins_best x l : 0 <= x -> nn l -> best (x :: l) <= best (ins x l).
  Proof.
    intros Hx. induction l as [|y t IH]; intros Hl; [apply Rle_refl|]. cbn [ins].
    destruct (Rle_dec y x) as [H|H]; [apply Rle_refl|]. inversion Hl as [|? ? H1 H2]; subst.
    eapply Rle_trans; [apply best_swap; try lra; now apply nn_rsum|].
    specialize (IH H2). change (best (y :: x :: t)) with (log_beta (a + y) (b + rsum (x :: t)) - log_beta a b + best (x :: t)).
    change (best (y :: ins x t)) with (log_beta (a + y) (b + rsum (ins x t)) - log_beta a b + best (ins x t)).
    rewrite (rsum_perm _ _ (ins_perm x t)). lra.
  Qed.

  Lemma isort_best l : nn l -> best l <= best (isort l).
  Proof.
    induction 1 as [|x t Hx Ht IH]; [simpl; lra|]. cbn [isort].
    eapply Rle_trans; [|apply ins_best; auto].
    - cbn [best]. rewrite (rsum_perm _ _ (isort_perm t)). lra.
    - unfold nn. now rewrite <- (isort_perm t).
  Qed.

  (** decreasing lists *)
  Fixpoint decr (l : list R) : Prop :=
    match l with [] => True | x :: t => Forall (fun y => y <= x) t /\ decr t end.

  Lemma ins_decr x l : decr l -> decr (ins x l).
  Proof.
    induction l as [|y t IH]; intros Hl; cbn [ins]; [simpl; auto|]. destruct Hl as (H1 & H2).
    destruct (Rle_dec y x) as [H|H].
    - split; [|split; auto]. constructor; auto. eapply Forall_impl; [|exact H1]. simpl. intros; lra.
    - split; [|auto]. rewrite <- (ins_perm x t). constructor; [lra|auto].
  Qed.
  Lemma isort_decr l : decr (isort l).
  Proof. induction l; [exact I|]. now apply ins_decr. Qed.

  Lemma decr_unique l : forall l', decr l -> decr l' -> Permutation l l' -> l = l'.
  Proof.
    induction l as [|x t IH]; intros l' D D' P; [apply Permutation_nil in P; now subst|].
    destruct l' as [|y t']; [apply Permutation_sym, Permutation_nil in P; discriminate|].
    destruct D as (D1 & D2), D' as (D1' & D2').
    assert (E : x = y).
    { assert (X : In x (y :: t')) by (rewrite <- P; now left).
      assert (Y : In y (x :: t)) by (rewrite P; now left).
      rewrite Forall_forall in D1, D1'.
      destruct X as [X|X]; [auto|]. destruct Y as [Y|Y]; [auto|].
      specialize (D1 _ Y). specialize (D1' _ X). lra. }
    subst y. f_equal. apply IH; auto. now apply Permutation_cons_inv in P.
  Qed.

  Lemma best_decr l l' : nn l -> Permutation l l' -> decr l' -> best l <= best l'.
  Proof.
    intros Hl P D. rewrite (decr_unique l' (isort l) D (isort_decr l)); [now apply isort_best|].
    rewrite <- P. apply isort_perm.
  Qed.
End Best.

Lemma nth_decr l : (forall i j, (i < j)%nat -> (j < length l)%nat -> nth j l 0 <= nth i l 0) -> decr l.
Proof.
  induction l as [|x t IH]; intros H; [exact I|]. split.
  - apply Forall_forall. intros y Hy. destruct (In_nth _ _ 0 Hy) as (k & Hk & <-).
    apply (H 0%nat (S k)); simpl; lia.
  - apply IH. intros i j Hij Hj. apply (H (S i) (S j)); simpl; lia.
Qed.

(** ** The expected log-likelihood, stick by stick *)
Fixpoint by_stick (f ev er : nat -> R) (o : list nat) : R :=
  match o with
  | [] => 0
  | k :: t => f k * ev k + sumf f t * er k + by_stick f ev er t
  end.

Lemma sumf_seq_S (f : nat -> R) n : sumf f (seq 0 (S n)) = f 0%nat + sumf (fun i => f (S i)) (seq 0 n).
Proof. change (seq 0 (S n)) with (0%nat :: seq 1 n). rewrite sumf_cons. f_equal. now rewrite sumf_seq_shift. Qed.

Lemma by_stick_spec f ev er o :
  sumf (fun i => f (nth i o 0%nat) * (ev (nth i o 0%nat) + sumf er (firstn i o))) (seq 0 (length o)) =
  by_stick f ev er o.
Proof.
  induction o as [|k t IH]; [reflexivity|]. cbn [length]. rewrite sumf_seq_S. cbn [nth firstn by_stick].
  rewrite <- IH.
  rewrite (sumf_ext (fun i => f (nth i t 0%nat) * (ev (nth i t 0%nat) + sumf er (k :: firstn i t))) (fun i => f (nth i t 0%nat) * (ev (nth i t 0%nat) + sumf er (firstn i t)) + f (nth i t 0%nat) * er k)).
  2:{ intros i _. cbn [nth firstn]. rewrite ?sumf_cons. ring. }
  rewrite sumf_plus, sumf_scal_r.
  replace (sumf (fun i => f (nth i t 0%nat)) (seq 0 (length t))) with (sumf f t).
  - rewrite sumf_nil. ring.
  - rewrite <- (seq_nth_map 0%nat t) at 1. now rewrite sumf_map.
Qed.

Definition nthp (c : list (R * R)) (k : nat) : R * R := nth k c (0, 0).

Lemma ellh_by_stick n ord c counts : is_order n ord -> length c = n -> length counts = n ->
  sb_ellh ord c counts =
  by_stick (fun k => nth k counts 0) (fun k => e_ln_v (nthp c k)) (fun k => e_ln_rest (nthp c k)) ord.
Proof.
  intros Ho Hc Hl. rewrite <- by_stick_spec. unfold sb_ellh.
  rewrite dot_nth by (rewrite (sb_log_weights_length n) by auto; auto).
  rewrite Hl, <- (sumf_perm _ _ _ Ho), (ord_length n ord Ho).
  rewrite <- (seq_nth_map 0%nat ord) at 1. rewrite sumf_map, (ord_length n ord Ho).
  apply sumf_ext. intros i Hi. apply in_seq in Hi.
  rewrite (sb_log_weights_nth n) by (auto; lia). reflexivity.
Qed.

Lemma dir_kl_beta (q p : R * R) :
  dir_kl [fst q; snd q] [fst p; snd p] =
  (fst q - fst p) * e_ln_v q + (snd q - snd p) * e_ln_rest q
  - log_beta (fst q) (snd q) + log_beta (fst p) (snd p).
Proof.
  rewrite dir_kl_dkl by (simpl; auto; discriminate). unfold dkl, e_ln_v, e_ln_rest, log_beta. simpl.
  replace (fst q + (snd q + 0)) with (fst q + snd q) by ring.
  replace (fst p + (snd p + 0)) with (fst p + snd p) by ring. ring.
Qed.

Lemma dir_kl_cross q p : dir_kl [fst q; snd q] [fst p; snd p] = beta_cross q q - beta_cross q p.
Proof. rewrite dir_kl_beta. unfold beta_cross. ring. Qed.

Lemma sb_kl_nth n post prior : length post = n -> length prior = n ->
  sb_kl post prior = sumf (fun k => dir_kl [fst (nthp post k); snd (nthp post k)] [fst (nthp prior k); snd (nthp prior k)]) (seq 0 n).
Proof.
  intros H1 H2. unfold sb_kl. rewrite rsum_nth, map2_length, H1, H2, Nat.min_id.
  apply sumf_ext. intros k Hk. apply in_seq in Hk.
  now rewrite (map2_nth _ _ _ k (0, 0) (0, 0) 0) by lia.
Qed.

Lemma objective_stick_bound n prior ord post counts : is_order n ord -> length prior = n -> length post = n ->
  length counts = n -> sb_objective prior ord post counts = stick_bound prior ord post counts.
Proof.
  intros Ho Hp Hq Hl. unfold sb_objective, stick_bound.
  rewrite (ellh_by_stick n) by auto. rewrite <- by_stick_spec.
  rewrite (sb_kl_nth n) by auto. rewrite Hq.
  rewrite (sumf_ext (fun k => beta_cross (nth k post (0, 0)) (nth k prior (0, 0)) - _)
    (fun k => - dir_kl [fst (nthp post k); snd (nthp post k)] [fst (nthp prior k); snd (nthp prior k)])).
  - rewrite sumf_opp. unfold nthp. cbn zeta. ring.
  - intros k _. rewrite dir_kl_cross. unfold nthp. ring.
Qed.

(** ** One stick *)
Lemma stick_le q p x r : 0 < fst q -> 0 < snd q -> 0 < fst p -> 0 < snd p -> 0 <= x -> 0 <= r ->
  x * e_ln_v q + r * e_ln_rest q - dir_kl [fst q; snd q] [fst p; snd p] <=
  log_beta (fst p + x) (snd p + r) - log_beta (fst p) (snd p).
Proof.
  intros Q1 Q2 P1 P2 Hx Hr. rewrite dir_kl_beta.
  assert (T := beta_tangent (fst p + x) (snd p + r) (fst q) (snd q) ltac:(lra) ltac:(lra) Q1 Q2).
  unfold log_beta, e_ln_v, e_ln_rest in *. lra.
Qed.

Lemma stick_eq q p x r : q = (fst p + x, snd p + r) ->
  x * e_ln_v q + r * e_ln_rest q - dir_kl [fst q; snd q] [fst p; snd p] =
  log_beta (fst p + x) (snd p + r) - log_beta (fst p) (snd p).
Proof. intros ->. rewrite dir_kl_beta. unfold e_ln_v, e_ln_rest, log_beta. cbn [fst snd]. ring. Qed.

Lemma nth_same_prior p n prior k : same_prior p n prior -> (k < n)%nat -> nthp prior k = p.
Proof. intros -> Hk. apply repeat_spec with (n := n). apply nth_In. now rewrite repeat_length. Qed.


Section Fixed.
  Variables (n : nat) (p : R * R) (prior : list (R * R)) (counts : list R).
  Hypothesis P1 : 0 < fst p.
  Hypothesis P2 : 0 < snd p.
  Hypothesis Hprior : same_prior p n prior.
  Hypothesis Hl : length counts = n.
  Hypothesis Hn : nn counts.

  Let f k := nth k counts 0.

  Lemma f_nonneg k : 0 <= f k.
  Proof.
    unfold f. destruct (Nat.lt_ge_cases k (length counts)) as [A|A]; [|rewrite nth_overflow by lia; lra].
    apply (proj1 (Forall_forall _ _) Hn). now apply nth_In.
  Qed.

  Lemma prior_length : length prior = n.
  Proof. unfold same_prior in Hprior. rewrite Hprior. apply repeat_length. Qed.

  Lemma objective_sticks ord c : is_order n ord -> length c = n ->
    sb_objective prior ord c counts =
    by_stick f (fun k => e_ln_v (nthp c k)) (fun k => e_ln_rest (nthp c k)) ord
    - sumf (fun k => dir_kl [fst (nthp c k); snd (nthp c k)] [fst p; snd p]) ord.
  Proof.
    intros Ho Hc. unfold sb_objective. rewrite (ellh_by_stick n) by auto. f_equal.
    rewrite (sb_kl_nth n) by (auto using prior_length). rewrite (sumf_perm _ _ _ Ho).
    apply sumf_ext. intros k Hk. apply in_seq in Hk. now rewrite (nth_same_prior p n prior) by (auto; lia).
  Qed.

  Lemma objective_le ord c : is_order n ord -> length c = n -> positive_sticks c ->
    sb_objective prior ord c counts <= best (fst p) (snd p) (map f ord).
  Proof.
    intros Ho Hc Hp. rewrite objective_sticks by auto.
    assert (I : forall k, In k ord -> 0 < fst (nthp c k) /\ 0 < snd (nthp c k)).
    { intros k Hk. apply (ord_lt n ord Ho) in Hk. apply positive_nth; auto. lia. }
    clear Ho. induction ord as [|k t IH]; [simpl; rewrite sumf_nil; lra|].
    cbn [by_stick map best]. rewrite sumf_cons. fold (sumf f t).
    destruct (I k (or_introl eq_refl)) as (I1 & I2).
    assert (St := stick_le (nthp c k) p (f k) (sumf f t) I1 I2 P1 P2 (f_nonneg k) ltac:(apply sumf_nonneg; intros; apply f_nonneg)).
    assert (IH' := IH (fun k' H => I k' (or_intror H))). lra.
  Qed.

  Lemma objective_eq ord c : is_order n ord -> length c = n ->
    (forall i, (i < n)%nat -> nthp c (nth i ord 0%nat) = (fst p + f (nth i ord 0%nat), snd p + tail_count ord counts i)) ->
    sb_objective prior ord c counts = best (fst p) (snd p) (map f ord).
  Proof.
    intros Ho Hc. rewrite objective_sticks by auto. rewrite <- (ord_length n ord Ho). clear Ho.
    induction ord as [|k t IH]; intros E; [simpl; rewrite sumf_nil; lra|].
    cbn [by_stick map best]. rewrite sumf_cons. fold (sumf f t).
    assert (E0 := E 0%nat ltac:(simpl; lia)). cbn [nth] in E0. unfold tail_count in E0. cbn [skipn] in E0. fold f in E0.
    assert (St := stick_eq _ p (f k) (sumf f t) E0).
    rewrite <- IH; [lra|]. intros i Hi. apply (E (S i)). simpl. lia.
  Qed.
End Fixed.
