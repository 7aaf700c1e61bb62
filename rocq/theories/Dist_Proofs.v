(** Proofs about the distributions: blocks of a vector, Dirichlet,
    NormalGamma, isotropic NormalGamma, Gamma. *)
From Coq Require Import Reals List Arith Bool Lia Lra Permutation.
From Verif Require Import Prelude Vec Gibbs Lgamma Dist_Model Dist_Spec.
Import ListNotations.
Local Open Scope R_scope.

(** ** Vectors *)
Lemma slice_nth a b l k : (a + k < b)%nat -> nth k (slice a b l) 0 = nth (a + k) l 0.
Proof.
  intros H. unfold slice.
  assert (E : forall (l : list R) n k, (k < n)%nat -> nth k (firstn n l) 0 = nth k l 0).
  { clear. induction l as [|x l IH]; intros [|n] [|k] H; simpl; try lia; auto. apply IH. lia. }
  rewrite E by lia. clear E.
  revert l. induction a as [|a IH]; intros l; [reflexivity|].
  destruct l as [|x l]; [destruct k; reflexivity|]. cbn [skipn plus nth]. apply IH. lia.
Qed.

Lemma slice_length a b l : (b <= length l)%nat -> length (slice a b l) = (b - a)%nat.
Proof. intros H. unfold slice. rewrite firstn_length, skipn_length. lia. Qed.

Lemma firstn_nth_lt (l : list R) n k : (k < n)%nat -> nth k (firstn n l) 0 = nth k l 0.
Proof.
  revert n k. induction l as [|x l IH]; intros [|n] [|k] H; simpl; try lia; auto. apply IH. lia.
Qed.

Lemma skipn_nth (l : list R) n k : nth k (skipn n l) 0 = nth (n + k) l 0.
Proof.
  revert l. induction n as [|n IH]; intros l; [reflexivity|].
  destruct l as [|x l]; [destruct k; reflexivity|]. cbn [skipn plus nth]. apply IH.
Qed.

Lemma map_nth_R (f : R -> R) l k : (k < length l)%nat -> nth k (map f l) 0 = f (nth k l 0).
Proof. intros H. now rewrite (map_nth_lt _ _ _ 0) by auto. Qed.

Lemma map2_nth_R (f : R -> R -> R) l m k :
  (k < length l)%nat -> (k < length m)%nat -> nth k (map2 f l m) 0 = f (nth k l 0) (nth k m 0).
Proof. intros H1 H2. now rewrite (map2_nth _ _ _ _ 0 0) by auto. Qed.

Lemma nth_app_l (u v : list R) k : (k < length u)%nat -> nth k (u ++ v) 0 = nth k u 0.
Proof. intros H. apply app_nth1. exact H. Qed.

Lemma nth_app_r (u v : list R) n k : length u = n -> nth (n + k) (u ++ v) 0 = nth k v 0.
Proof. intros H. rewrite app_nth2 by lia. f_equal. lia. Qed.

Lemma from_end_nth l k n : length l = n -> from_end k l = nth (n - k) l 0.
Proof. intros <-. reflexivity. Qed.

Lemma vlin_length (u v : list R) c : length u = length v ->
  length (vadd u (vscale c (vsub v u))) = length u.
Proof.
  intros H. rewrite vadd_length; [reflexivity|]. rewrite vscale_length, vsub_length; congruence.
Qed.

Lemma vlin_nth (u v : list R) c k : length u = length v -> (k < length u)%nat ->
  nth k (vadd u (vscale c (vsub v u))) 0 = (1 - c) * nth k u 0 + c * nth k v 0.
Proof.
  intros H Hk. rewrite vadd_nth; [|lia|rewrite vscale_length, vsub_length; lia].
  rewrite vscale_nth, vsub_nth by lia. ring.
Qed.

Lemma wstats_rows n (f : list R -> list R) (data : wdata) : (forall gx, In gx data -> length (f (snd gx)) = n) ->
  Forall (fun r => length r = n) (map (fun gx => vscale (fst gx) (f (snd gx))) data).
Proof.
  intros H. apply Forall_forall. intros r Hr. apply in_map_iff in Hr.
  destruct Hr as [gx [<- Hin]]. rewrite vscale_length. auto.
Qed.

Lemma wstats_length n (f : list R -> list R) (data : wdata) : (forall gx, In gx data -> length (f (snd gx)) = n) ->
  length (wstats n f data) = n.
Proof. intros H. apply colsum_length, wstats_rows, H. Qed.

Lemma wstats_nth n (f : list R -> list R) (data : wdata) k : (forall gx, In gx data -> length (f (snd gx)) = n) -> (k < n)%nat ->
  nth k (wstats n f data) 0 = sumf (fun gx => fst gx * nth k (f (snd gx)) 0) data.
Proof.
  intros H Hk. unfold wstats. rewrite colsum_nth by (auto using wstats_rows).
  rewrite sumf_map. apply sumf_ext. intros gx _. apply vscale_nth.
Qed.

Lemma Forall_pos_nth (l : list R) k : Forall (fun x => 0 < x) l -> (k < length l)%nat -> 0 < nth k l 0.
Proof. intros H Hk. rewrite Forall_forall in H. apply H, nth_In, Hk. Qed.

Lemma Forall_pos_of_nth (l : list R) : (forall k, (k < length l)%nat -> 0 < nth k l 0) -> Forall (fun x => 0 < x) l.
Proof.
  intros H. apply Forall_forall. intros x Hx.
  destruct (In_nth l x 0 Hx) as [k [Hk <-]]. auto.
Qed.

Lemma Nw_nonneg data : nonneg_weights data -> 0 <= Nw data.
Proof.
  intros H. apply sumf_nonneg. intros gx Hin. unfold nonneg_weights in H.
  rewrite Forall_forall in H. apply (H gx Hin).
Qed.

(** Expand a weighted sum of a polynomial in a coordinate. *)
Lemma Dev_expand i c data :
  Dev i c data = sumf (fun gx => fst gx * nth i (snd gx) 0 ^ 2) data
                 - 2 * c * Sw i data + c ^ 2 * Nw data.
Proof.
  unfold Dev, Sw, Nw. rewrite <- !sumf_scal_l, <- sumf_minus, <- sumf_plus.
  apply sumf_ext. intros gx _. ring.
Qed.

(** ** Dirichlet *)
Lemma set_last_length l v : l <> [] -> length (set_last l v) = length l.
Proof.
  intros H. unfold set_last. rewrite app_length, removelast_length. simpl.
  destruct l; [congruence|simpl; lia].
Qed.

Lemma set_last_nth l v k : (k < pred (length l))%nat -> nth k (set_last l v) 0 = nth k l 0.
Proof.
  intros H. unfold set_last. rewrite app_nth1 by (rewrite removelast_length; auto).
  apply removelast_nth, H.
Qed.

Lemma set_last_last l v : nth (pred (length l)) (set_last l v) 0 = v.
Proof.
  unfold set_last. rewrite app_nth2; rewrite removelast_length; [|lia].
  now rewrite Nat.sub_diag.
Qed.

Lemma removelast_set_last l v : removelast (set_last l v) = removelast l.
Proof. unfold set_last. apply removelast_last. Qed.

Lemma last_set_last l v : last (set_last l v) 0 = v.
Proof. unfold set_last. apply last_last. Qed.

Lemma removelast_map {A B} (f : A -> B) l : removelast (map f l) = map f (removelast l).
Proof.
  induction l as [|x [|y l] IH]; [reflexivity|reflexivity|].
  change (f x :: removelast (map f (y :: l)) = f x :: map f (removelast (y :: l))). now rewrite IH.
Qed.

Lemma last_map {A B} (f : A -> B) l d d' : l <> [] -> last (map f l) d' = f (last l d).
Proof.
  intros H. induction l as [|x [|y l] IH]; [congruence|reflexivity|].
  change (last (map f (y :: l)) d' = f (last (y :: l) d)). apply IH. discriminate.
Qed.

Lemma dir_from_nat_dir_nat a : a <> [] -> dir_from_nat (dir_nat a) = a.
Proof.
  intros H. assert (Hm : map (fun x => x - 1) a <> []) by (destruct a; simpl; congruence).
  unfold dir_from_nat, dir_nat.
  rewrite last_set_last. unfold set_last at 1.
  rewrite !removelast_map, removelast_set_last, !removelast_map, !map_map.
  rewrite (rsum_removelast (map _ a)) by auto. rewrite removelast_map, (last_map _ _ 0) by auto.
  transitivity (removelast a ++ [last a 0]); [|symmetry; apply app_removelast_last, H]. f_equal.
  - rewrite (map_ext (fun x => x - 1 + 1) (fun x => x)) by (intros; lra). apply map_id.
  - f_equal.
    rewrite (map_ext (fun x => x - 1 + 1 - 1) (fun x => x - 1)) by (intros; lra). lra.
Qed.

Lemma dir_nat_dir_from_nat n : n <> [] -> dir_nat (dir_from_nat n) = n.
Proof.
  intros H. assert (Hm : map (fun x => x + 1) n <> []) by (destruct n; simpl; congruence).
  unfold dir_nat, dir_from_nat.
  assert (Hs : forall v, map (fun x => x - 1) (set_last (map (fun x => x + 1) n) v) <> []).
  { intros v. unfold set_last. rewrite map_app. simpl. intros E. now apply app_eq_nil in E as [_ E]. }
  rewrite (rsum_removelast (map (fun x => x - 1) (set_last _ _))) by auto.
  unfold set_last at 1.
  rewrite !removelast_map, removelast_set_last, removelast_map, !map_map.
  rewrite (last_map _ _ 0) by (intros E; unfold set_last in E; now apply app_eq_nil in E as [_ E]).
  rewrite last_set_last.
  rewrite (map_ext (fun x => x + 1 - 1) (fun x => x)) by (intros; lra). rewrite map_id.
  transitivity (removelast n ++ [last n 0]); [|symmetry; apply app_removelast_last, H]. f_equal. f_equal. lra.
Qed.

Lemma dir_nat_length a : a <> [] -> length (dir_nat a) = length a.
Proof.
  intros H. unfold dir_nat. rewrite set_last_length, map_length; [reflexivity|].
  destruct a; simpl; congruence.
Qed.

(** The concentrations as a function of the natural parameters. *)
Lemma dir_from_nat_length n : n <> [] -> length (dir_from_nat n) = length n.
Proof.
  intros H. unfold dir_from_nat. rewrite set_last_length, map_length; [reflexivity|].
  destruct n; simpl; congruence.
Qed.

Lemma dir_from_nat_nth n k : (k < pred (length n))%nat -> nth k (dir_from_nat n) 0 = nth k n 0 + 1.
Proof.
  intros H. unfold dir_from_nat. rewrite set_last_nth by (rewrite map_length; auto).
  apply map_nth_R. lia.
Qed.

Lemma dir_from_nat_last n : n <> [] ->
  nth (pred (length n)) (dir_from_nat n) 0 =
  nth (pred (length n)) n 0 - sumf (fun k => nth k n 0) (seq 0 (pred (length n))) + 1.
Proof.
  intros H. unfold dir_from_nat.
  assert (E := set_last_last (map (fun x => x + 1) n)
    (last n 0 - rsum (removelast (map (fun x => x - 1) (map (fun x => x + 1) n))) + 1)).
  rewrite map_length in E. rewrite E. rewrite last_nth. f_equal. f_equal.
  rewrite map_map, removelast_map.
  rewrite (map_ext (fun x => x + 1 - 1) (fun x => x)) by (intros; lra). rewrite map_id.
  rewrite rsum_nth, removelast_length. apply sumf_ext. intros k Hk. apply in_seq in Hk.
  apply removelast_nth. lia.
Qed.

Lemma dir_nat_nth a k : (k < pred (length a))%nat -> nth k (dir_nat a) 0 = nth k a 0 - 1.
Proof.
  intros H. unfold dir_nat. rewrite set_last_nth by (rewrite map_length; auto).
  apply map_nth_R. lia.
Qed.

Lemma dir_nat_last a : nth (pred (length a)) (dir_nat a) 0 = sumf (fun k => nth k a 0 - 1) (seq 0 (length a)).
Proof.
  unfold dir_nat.
  assert (E := set_last_last (map (fun x => x - 1) a) (rsum (map (fun x => x - 1) a))).
  rewrite map_length in E. rewrite E. rewrite rsum_nth, map_length.
  apply sumf_ext. intros k Hk. apply in_seq in Hk. apply map_nth_R. lia.
Qed.

Lemma cat_suff_stats_length x : x <> [] -> length (cat_suff_stats x) = length x.
Proof. apply set_last_length. Qed.

Lemma cat_suff_stats_nth x k : (k < pred (length x))%nat -> nth k (cat_suff_stats x) 0 = nth k x 0.
Proof. apply set_last_nth. Qed.

Lemma cat_suff_stats_last x : nth (pred (length x)) (cat_suff_stats x) 0 = rsum x.
Proof. apply set_last_last. Qed.

Lemma seq_pred_split (f : nat -> R) n : (0 < n)%nat ->
  sumf f (seq 0 n) = sumf f (seq 0 (pred n)) + f (pred n).
Proof.
  intros H. destruct n as [|n]; [lia|]. rewrite seq_S, sumf_app. cbn [pred plus].
  unfold sumf at 2. simpl. lra.
Qed.

(** One natural gradient step of a Dirichlet posterior with the statistics of
    soft assignments. *)
Lemma dir_update_spec d lrate prior post data :
  (0 < d)%nat -> length prior = d -> length post = d -> frames_of_dim d data ->
  let q := std_update dir_nat dir_from_nat lrate prior post (wstats d cat_suff_stats data) in
  length q = d /\
  forall k, (k < d)%nat ->
    nth k q 0 = (1 - lrate) * nth k post 0 + lrate * (nth k prior 0 + Sw k data).
Proof.
  intros Hd Hp Hq Hx q.
  assert (Np : prior <> []) by (destruct prior; simpl in *; [lia|congruence]).
  assert (Nq : post <> []) by (destruct post; simpl in *; [lia|congruence]).
  unfold frames_of_dim in Hx. rewrite Forall_forall in Hx.
  assert (Hl : forall gx, In gx data -> length (cat_suff_stats (snd gx)) = d).
  { intros gx Hin. rewrite cat_suff_stats_length; [auto|].
    assert (E := Hx gx Hin). destruct (snd gx); simpl in *; [lia|congruence]. }
  assert (Lw := wstats_length d _ data Hl).
  assert (La : length (vadd (dir_nat prior) (wstats d cat_suff_stats data)) = d).
  { rewrite vadd_length; rewrite dir_nat_length; congruence. }
  assert (Lq : length (dir_nat post) = d) by (rewrite dir_nat_length; auto).
  unfold q, std_update. clear q.
  set (n := vadd (dir_nat post) _).
  assert (Ln : length n = d) by (unfold n; rewrite vlin_length; congruence).
  assert (Nn : n <> []) by (intros E; rewrite E in Ln; simpl in Ln; lia).
  assert (En : forall k, (k < d)%nat -> nth k n 0 =
    (1 - lrate) * nth k (dir_nat post) 0 +
    lrate * (nth k (dir_nat prior) 0 + sumf (fun gx => fst gx * nth k (cat_suff_stats (snd gx)) 0) data)).
  { intros k Hk. unfold n. rewrite vlin_nth by (rewrite ?Lq; auto; congruence).
    rewrite vadd_nth; [|rewrite dir_nat_length by auto; lia|rewrite Lw; lia]. rewrite wstats_nth by auto. reflexivity. }
  assert (Ei : forall k, (k < pred d)%nat -> nth k n 0 =
    (1 - lrate) * (nth k post 0 - 1) + lrate * (nth k prior 0 - 1 + Sw k data)).
  { intros k Hk. rewrite En by lia. rewrite !dir_nat_nth by (rewrite ?Hp, ?Hq; auto).
    do 3 f_equal. unfold Sw. apply sumf_ext. intros gx Hin.
    rewrite cat_suff_stats_nth by (rewrite (Hx gx Hin); auto). reflexivity. }
  split; [rewrite dir_from_nat_length; auto|].
  intros k Hk. destruct (Nat.eq_dec k (pred d)) as [->|Hne].
  - rewrite <- Ln at 1. rewrite dir_from_nat_last by auto. rewrite Ln.
    rewrite (sumf_ext (fun k => nth k n 0) (fun k => (1 - lrate) * (nth k post 0 - 1) + lrate * (nth k prior 0 - 1 + Sw k data))).
    2:{ intros k Hk'. apply in_seq in Hk'. apply Ei. lia. }
    rewrite En by lia.
    assert (E1 := dir_nat_last post). rewrite Hq in E1. rewrite E1.
    assert (E2 := dir_nat_last prior). rewrite Hp in E2. rewrite E2.
    rewrite !(seq_pred_split _ d) by lia.
    rewrite (sumf_ext (fun gx : R * list R => fst gx * nth (pred d) (cat_suff_stats (snd gx)) 0)
      (fun gx => sumf (fun k => fst gx * nth k (snd gx) 0) (seq 0 d))).
    2:{ intros gx Hin. assert (E := cat_suff_stats_last (snd gx)). rewrite (Hx gx Hin) in E.
        rewrite E, rsum_nth, sumf_scal_l, (Hx gx Hin). reflexivity. }
    rewrite sumf_swap. rewrite (seq_pred_split (fun b => sumf _ data) d) by lia.
    fold (Sw (pred d) data).
    rewrite sumf_plus, !sumf_scal_l, sumf_plus, !sumf_minus. unfold Sw at 2. unfold Sw. ring.
  - rewrite dir_from_nat_nth by lia. rewrite Ei by lia. ring.
Qed.

(** ** Categorical likelihood *)
Lemma exp_sum_pos r : r <> [] -> 0 < rsum (map exp r).
Proof.
  intros H. destruct r as [|x r]; [congruence|]. simpl.
  assert (0 <= rsum (map exp r)).
  { clear H. induction r as [|y r IH]; simpl; [lra|]. assert (P := exp_pos y). lra. }
  assert (P := exp_pos x). lra.
Qed.

Lemma softplus_exact x : x <= 20 -> softplus x = ln (1 + exp x).
Proof. intros H. unfold softplus. destruct (Rle_dec x 20); [reflexivity|contradiction]. Qed.

Lemma softplus_linear x : 20 < x -> softplus x = x.
Proof. intros H. unfold softplus. destruct (Rle_dec x 20); [lra|reflexivity]. Qed.

Lemma cat_log_norm_ne r : r <> [] -> cat_log_norm r = softplus (ln (rsum (map exp r))).
Proof. destruct r; [congruence|reflexivity]. Qed.

Lemma cat_params_spec r :
  cat_params_from_pdfvec (cat_pdfvec_from_rvec r) =
  map (fun x => exp x * exp (- cat_log_norm r)) r ++ [exp (- cat_log_norm r)].
Proof.
  unfold cat_params_from_pdfvec, cat_pdfvec_from_rvec. rewrite removelast_last. reflexivity.
Qed.

Lemma map_rsum_scal (f : R -> R) c l : rsum (map (fun x => f x * c) l) = rsum (map f l) * c.
Proof. induction l as [|x l IH]; simpl; [lra|]. rewrite IH. ring. Qed.

Lemma cat_params_sum r :
  rsum (cat_params_from_pdfvec (cat_pdfvec_from_rvec r)) =
  (1 + rsum (map exp r)) * exp (- cat_log_norm r).
Proof.
  rewrite cat_params_spec, rsum_app, map_rsum_scal. simpl. ring.
Qed.

Lemma cat_params_softmax r : r <> [] -> ln (rsum (map exp r)) <= 20 ->
  cat_params_from_pdfvec (cat_pdfvec_from_rvec r) = softmax0 r.
Proof.
  intros Hr Hl. assert (Hp := exp_sum_pos r Hr).
  rewrite cat_params_spec, cat_log_norm_ne by auto. rewrite softplus_exact by auto.
  rewrite exp_ln by auto. rewrite exp_Ropp, exp_ln by lra.
  unfold softmax0. f_equal. f_equal. field. lra.
Qed.

Lemma onehot_cat_llh d r k : length r = pred d -> (k < d)%nat ->
  cat_llh (cat_pdfvec_from_rvec r) (cat_suff_stats (unit_row d k)) =
  ln (nth k (cat_params_from_pdfvec (cat_pdfvec_from_rvec r)) 0).
Proof.
  intros Hr Hk. rewrite cat_params_spec.
  assert (Lu : length (unit_row d k) = d) by apply unit_row_length.
  assert (Nu : unit_row d k <> []) by (intros E; rewrite E in Lu; simpl in Lu; lia).
  unfold cat_llh, cat_suff_stats, set_last, cat_pdfvec_from_rvec.
  rewrite dot_app by (rewrite removelast_length, Lu; auto).
  rewrite rsum_unit_row by auto.
  assert (E1 : dot [1] [- cat_log_norm r] = - cat_log_norm r) by (unfold dot; simpl; lra).
  rewrite E1. clear E1.
  rewrite dot_nth by (rewrite removelast_length, Lu; auto).
  rewrite removelast_length, Lu.
  rewrite (sumf_ext _ (fun i => (if Nat.eqb i k then 1 else 0) * nth i r 0)).
  2:{ intros i Hi. apply in_seq in Hi. rewrite removelast_nth by (rewrite Lu; lia).
      rewrite unit_row_nth by lia. reflexivity. }
  destruct (Nat.eq_dec k (pred d)) as [->|Hne].
  - rewrite sumf_zero.
    2:{ intros i Hi. apply in_seq in Hi. destruct (Nat.eqb_spec i (pred d)); [lia|lra]. }
    rewrite app_nth2 by (rewrite map_length; lia). rewrite map_length, Hr, Nat.sub_diag.
    simpl. rewrite ln_exp. lra.
  - rewrite (sumf_seq_single _ (pred d) k); [|lia|].
    2:{ intros i Hi Hn. destruct (Nat.eqb_spec i k); [lia|lra]. }
    rewrite Nat.eqb_refl. rewrite app_nth1 by (rewrite map_length; lia).
    rewrite map_nth_R by lia. rewrite <- exp_plus, ln_exp. lra.
Qed.

Lemma cat_params_overflow_sum r : r <> [] -> 20 < ln (rsum (map exp r)) ->
  rsum (cat_params_from_pdfvec (cat_pdfvec_from_rvec r)) = 1 + / rsum (map exp r).
Proof.
  intros Hr Hl. assert (Hp := exp_sum_pos r Hr).
  rewrite cat_params_sum, cat_log_norm_ne, softplus_linear by auto.
  rewrite exp_Ropp, exp_ln by auto. field. lra.
Qed.
