(** Lists of rows against index functions. *)
From Coq Require Import Reals List Arith Bool Lia Lra.
From Verif Require Import Prelude Vec Lgamma Dist_Model Dist_Proofs Mat NW_Model.
Import ListNotations.
Local Open Scope R_scope.

Definition vf (v : list R) : fv := fun i => nth i v 0.

Lemma mk_length n f : length (mk n f) = n.
Proof. unfold mk. now rewrite map_length, seq_length. Qed.

Lemma mk_row n f i : (i < n)%nat -> nth i (mk n f) [] = map (f i) (seq 0 n).
Proof.
  intros H. unfold mk. rewrite (nth_indep _ [] (map (f 0%nat) (seq 0 n))) by (rewrite map_length, seq_length; lia).
  rewrite (map_nth (fun i => map (f i) (seq 0 n))), seq_nth by lia. reflexivity.
Qed.

Lemma map_seq_nth (f : nat -> R) n i : (i < n)%nat -> nth i (map f (seq 0 n)) 0 = f i.
Proof.
  intros H. rewrite (nth_indep _ 0 (f 0%nat)) by (rewrite map_length, seq_length; lia).
  rewrite map_nth, seq_nth by lia. reflexivity.
Qed.

Lemma mget_mk n f i j : (i < n)%nat -> (j < n)%nat -> mget (mk n f) i j = f i j.
Proof. intros Hi Hj. unfold mget. rewrite mk_row by auto. apply map_seq_nth; auto. Qed.

Lemma mk_meq n f : meq n (mget (mk n f)) f.
Proof. intros i j Hi Hj. now apply mget_mk. Qed.

Lemma is_mat_mk n f : is_mat n (mk n f).
Proof.
  split; [apply mk_length|]. unfold mk. apply Forall_forall. intros r Hr.
  apply in_map_iff in Hr. destruct Hr as (i & <- & _). now rewrite map_length, seq_length.
Qed.

Lemma mk_ext n f g : meq n f g -> mk n f = mk n g.
Proof.
  intros H. unfold mk. apply map_ext_in. intros i Hi. apply in_seq in Hi.
  apply map_ext_in. intros j Hj. apply in_seq in Hj. apply H; lia.
Qed.

Lemma is_mat_row n M i : is_mat n M -> (i < n)%nat -> length (nth i M []) = n.
Proof.
  intros (H1 & H2) Hi. rewrite Forall_forall in H2. apply H2. apply nth_In. lia.
Qed.

Lemma lmat_ext n M M' : is_mat n M -> is_mat n M' -> meq n (mget M) (mget M') -> M = M'.
Proof.
  intros HM HM' H. apply nth_ext with [] []; [destruct HM, HM'; congruence|].
  intros i Hi. destruct HM as (H1 & H2). rewrite H1 in Hi.
  assert (L1 : length (nth i M []) = n) by (apply is_mat_row; auto; now split).
  assert (L2 : length (nth i M' []) = n) by (apply is_mat_row; auto).
  apply vec_ext; [congruence|]. intros j Hj. apply H; lia.
Qed.

Lemma mk_mget n M : is_mat n M -> mk n (mget M) = M.
Proof. intros H. apply (lmat_ext n); auto using is_mat_mk, mk_meq. Qed.

Lemma concat_flat n M : is_mat n M -> length (concat M) = (n * n)%nat.
Proof.
  intros (H1 & H2). rewrite <- H1 at 1. clear H1. induction M as [|r M IH]; [reflexivity|].
  inversion H2; subst. simpl. rewrite app_length, IH; auto.
Qed.

Lemma concat_rows_nth n (M : lmat) i j : Forall (fun r => length r = n) M ->
  (i < length M)%nat -> (j < n)%nat -> nth (i * n + j) (concat M) 0 = mget M i j.
Proof.
  revert i. induction M as [|r M IH]; intros i H Hi Hj; [simpl in Hi; lia|].
  inversion H as [|? ? Hr HM]; subst. simpl concat. destruct i as [|i].
  - simpl. rewrite nth_app_l by lia. reflexivity.
  - simpl in Hi. replace (S i * length r + j)%nat with (length r + (i * length r + j))%nat by lia.
    rewrite nth_app_r by auto. rewrite IH by (auto; lia). reflexivity.
Qed.

Lemma concat_nth n M i j : is_mat n M -> (i < n)%nat -> (j < n)%nat ->
  nth (i * n + j) (concat M) 0 = mget M i j.
Proof. intros (H1 & H2) Hi Hj. apply concat_rows_nth; auto; lia. Qed.

Lemma flat_lt n i j : (i < n)%nat -> (j < n)%nat -> (i * n + j < n * n)%nat.
Proof. intros; nia. Qed.

Lemma reshape_get n v i j : (i < n)%nat -> (j < n)%nat ->
  mget (reshape_sq n v) i j = nth (i * n + j) v 0.
Proof.
  intros Hi Hj. unfold mget, reshape_sq.
  rewrite (nth_indep _ [] (firstn n (skipn (0 * n) v))) by (rewrite map_length, seq_length; lia).
  rewrite (map_nth (fun i => firstn n (skipn (i * n) v))), seq_nth by lia.
  rewrite firstn_nth_lt, skipn_nth by lia. reflexivity.
Qed.

Lemma reshape_is_mat n v : length v = (n * n)%nat -> is_mat n (reshape_sq n v).
Proof.
  intros H. split; [unfold reshape_sq; now rewrite map_length, seq_length|].
  apply Forall_forall. intros r Hr. apply in_map_iff in Hr. destruct Hr as (i & <- & Hi).
  apply in_seq in Hi. rewrite firstn_length, skipn_length. nia.
Qed.

Lemma reshape_concat n M : is_mat n M -> reshape_sq n (concat M) = M.
Proof.
  intros H. apply (lmat_ext n); auto using reshape_is_mat, concat_flat.
  intros i j Hi Hj. rewrite reshape_get by auto. now apply concat_nth.
Qed.

Lemma outer_is_mat n u v : length u = n -> length v = n -> is_mat n (outer u v).
Proof.
  intros H1 H2. unfold outer. split; [now rewrite map_length|].
  apply Forall_forall. intros r Hr. apply in_map_iff in Hr. destruct Hr as (a & <- & _). now rewrite map_length.
Qed.

Lemma outer_get u v i j : (i < length u)%nat -> (j < length v)%nat ->
  mget (outer u v) i j = nth i u 0 * nth j v 0.
Proof.
  intros Hi Hj. unfold mget, outer.
  rewrite (nth_indep _ [] (map (fun b => 0 * b) v)) by (rewrite map_length; lia).
  rewrite (map_nth (fun a => map (fun b => a * b) v)).
  rewrite map_nth_R by lia. reflexivity.
Qed.

Lemma lmscale_is_mat n c M : is_mat n M -> is_mat n (lmscale c M).
Proof.
  intros (H1 & H2). unfold lmscale. split; [now rewrite map_length|].
  apply Forall_forall. intros r Hr. apply in_map_iff in Hr. destruct Hr as (a & <- & Ha).
  rewrite map_length. rewrite Forall_forall in H2. auto.
Qed.

Lemma lmscale_get c M i j : mget (lmscale c M) i j = c * mget M i j.
Proof.
  unfold mget, lmscale. change (@nil R) with (map (Rmult c) []) at 1.
  rewrite map_nth. change (nth j (map (Rmult c) (nth i M [])) 0) with (nth j (vscale c (nth i M [])) 0).
  apply vscale_nth.
Qed.

Lemma map2_is_mat n (f : R -> R -> R) A B : is_mat n A -> is_mat n B -> is_mat n (map2 (map2 f) A B).
Proof.
  intros (H1 & H2) (H3 & H4). split; [rewrite map2_length, H1, H3; lia|].
  clear H1 H3. revert B H4. induction A as [|r A IH]; intros [|s B] H4; cbn [map2]; auto.
  inversion H2; inversion H4; subst. constructor; auto. rewrite map2_length. lia.
Qed.

Lemma map2_get n (f : R -> R -> R) A B i j : is_mat n A -> is_mat n B -> (i < n)%nat -> (j < n)%nat ->
  mget (map2 (map2 f) A B) i j = f (mget A i j) (mget B i j).
Proof.
  intros HA HB Hi Hj. unfold mget.
  assert (L1 := is_mat_row n A i HA Hi). assert (L2 := is_mat_row n B i HB Hi).
  destruct HA as (H1 & H2), HB as (H3 & H4).
  rewrite (map2_nth _ A B i [] [] []) by lia. apply map2_nth_R; lia.
Qed.

Lemma lmvm_length M x : length (lmvm M x) = length M.
Proof. unfold lmvm. now rewrite map_length. Qed.

Lemma dot_dotf n u v : length u = n -> length v = n -> dot u v = dotf n (vf u) (vf v).
Proof. intros H1 H2. rewrite dot_nth by lia. rewrite H1. reflexivity. Qed.

Lemma lmvm_nth n M x i : is_mat n M -> length x = n -> (i < n)%nat ->
  nth i (lmvm M x) 0 = mvm n (mget M) (vf x) i.
Proof.
  intros HM Hx Hi. unfold lmvm. assert (L := is_mat_row n M i HM Hi). destruct HM as (H1 & H2).
  rewrite (nth_indep _ 0 (dot [] x)) by (rewrite map_length; lia).
  rewrite (map_nth (fun r => dot r x)), (dot_dotf n) by auto. reflexivity.
Qed.

(** ** Inverse and Cholesky factor *)
Lemma is_mat_square n M : is_mat n M -> forallb (fun r => Nat.eqb (length r) (length M)) M = true.
Proof.
  intros (H1 & H2). apply forallb_forall. intros r Hr. apply Nat.eqb_eq.
  rewrite Forall_forall in H2. rewrite H2; auto.
Qed.

Lemma t_inverse_ok n M B : is_mat n M -> is_inverse n (mget M) B -> t_inverse M = Ok (mk n B).
Proof.
  intros HM HB. unfold t_inverse. rewrite (is_mat_square n) by auto. destruct HM as (H1 & H2). rewrite H1.
  destruct (minv_spec n (mget M) B HB) as (B' & -> & E). f_equal. now apply mk_ext.
Qed.

Lemma t_cholesky_ok n M L : is_mat n M -> is_chol n (mget M) L -> t_cholesky M = Ok (mk n L).
Proof.
  intros HM HL. unfold t_cholesky. rewrite (is_mat_square n) by auto. destruct HM as (H1 & H2). rewrite H1.
  destruct (chol_complete n (mget M) (is_chol_posdef _ _ _ HL)) as (L' & -> & E). f_equal.
  apply mk_ext. eapply chol_unique; eauto.
Qed.

Lemma t_cholesky_posdef n M : is_mat n M -> posdef n (mget M) ->
  exists L, is_chol n (mget M) L /\ t_cholesky M = Ok (mk n L).
Proof.
  intros HM HP. destruct (chol_complete n (mget M) HP) as (L & _ & E).
  exists L. split; [exact E|]. now apply t_cholesky_ok.
Qed.

Lemma t_inverse_posdef n M : is_mat n M -> posdef n (mget M) ->
  exists B, is_inverse n (mget M) B /\ posdef n B /\ t_inverse M = Ok (mk n B).
Proof.
  intros HM HP. destruct (posdef_inverse n (mget M) HP) as (B & _ & E).
  exists B. split; [exact E|split; [eapply inverse_posdef; eauto|now apply t_inverse_ok]].
Qed.

(** torch.inverse and torch.cholesky succeed exactly on invertible and on
    symmetric positive definite matrices *)
Lemma t_inverse_sound n M B : is_mat n M -> t_inverse M = Ok B -> is_mat n B /\ is_inverse n (mget M) (mget B).
Proof.
  intros HM H. unfold t_inverse in H. rewrite (is_mat_square n) in H by auto. destruct HM as (H1 & H2).
  rewrite H1 in H. destruct (minv n (mget M)) as [B'|] eqn:E; [|discriminate].
  injection H as <-. split; [apply is_mat_mk|]. apply minv_sound in E.
  eapply is_inverse_ext; [apply meq_refl| |exact E]. apply meq_sym, mk_meq.
Qed.

Lemma logdet_bsum n L : logdet_of n (mk n L) = 2 * bsum n (fun i => ln (L i i)).
Proof.
  unfold logdet_of. f_equal. rewrite rsum_sumf, sumf_map. unfold bsum. apply sumf_ext.
  intros i Hi. apply in_seq in Hi. now rewrite mget_mk by lia.
Qed.

(** ** Sums over a flattened matrix *)
Lemma bsum_split n m f : bsum (n + m) f = bsum n f + bsum m (fun i => f (n + i)%nat).
Proof.
  induction m as [|m IH]; [rewrite Nat.add_0_r, bsum_0; ring|].
  replace (n + S m)%nat with (S (n + m)) by lia. rewrite !bsum_last, IH. ring.
Qed.

Lemma bsum_flat_rect n m f : bsum (m * n) f = bsum m (fun i => bsum n (fun j => f (i * n + j)%nat)).
Proof.
  induction m as [|m IH]; [reflexivity|].
  replace (S m * n)%nat with (m * n + n)%nat by lia. rewrite bsum_split, bsum_last, IH. reflexivity.
Qed.

Lemma bsum_flat n f : bsum (n * n) f = bsum n (fun i => bsum n (fun j => f (i * n + j)%nat)).
Proof. apply bsum_flat_rect. Qed.

Lemma trace2_bsum n A B : is_mat n A -> is_mat n B ->
  trace2 A B = bsum n (fun i => bsum n (fun j => mget A i j * mget B i j)).
Proof.
  intros HA HB. unfold trace2. change (rsum (vmul (concat A) (concat B))) with (dot (concat A) (concat B)).
  rewrite (dot_dotf (n * n)) by (now apply concat_flat). unfold dotf. rewrite bsum_flat.
  apply bsum_ext. intros i Hi. apply bsum_ext. intros j Hj. unfold vf.
  now rewrite !(concat_nth n) by auto.
Qed.

Lemma dim_of_spec D : dim_of (D + D * D) = D.
Proof.
  unfold dim_of. replace (1 + 4 * (D + D * D))%nat with ((2 * D + 1) * (2 * D + 1))%nat by lia.
  rewrite Nat.sqrt_square. replace (2 * D + 1 - 1)%nat with (D * 2)%nat by lia. now apply Nat.div_mul.
Qed.
