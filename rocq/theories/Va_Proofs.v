(** Proofs about broadcasting, the VAE and mixture priors. *)
From Coq Require Import Reals List Lra Lia Arith Bool.
From Verif Require Import Prelude Vec Gibbs Dist_Model Dist_Spec Dist_Proofs Llh_Proofs Mat MatDet NW_Model NW_Spec LMat NW_Proofs NW_Llh Gs_Model Gs_Spec Gs_Proofs Gs_Obj Va_Model.
Import ListNotations.
Local Open Scope R_scope.

Lemma bdim_1_r n : bdim n 1 = Ok n.
Proof. unfold bdim. destruct (Nat.eqb_spec n 1) as [->|]; [reflexivity|]. reflexivity. Qed.

Lemma bdim_1_l n : bdim 1 n = Ok n.
Proof. unfold bdim. destruct (Nat.eqb_spec 1 n) as [<-|]; reflexivity. Qed.

Lemma bdim_same n : bdim n n = Ok n.
Proof. unfold bdim. now rewrite Nat.eqb_refl. Qed.

Lemma bidx_lt n i : (i < n)%nat -> bidx n i = i.
Proof. intros H. unfold bidx. destruct (Nat.eqb_spec n 1); [lia|reflexivity]. Qed.

Definition col (a : list R) : tensor := T2 (map (fun x => [x]) a).

Lemma col_rows a : nrows (col a) = length a.
Proof. unfold nrows, rows_of, col. apply map_length. Qed.

Lemma col_cols a : a <> [] -> ncols (col a) = 1%nat.
Proof. destruct a; [contradiction|reflexivity]. Qed.

Lemma col_get a i j : (i < length a)%nat -> bget (col a) i j = nth i a 0.
Proof.
  intros H. unfold bget. rewrite col_rows, (bidx_lt (length a)) by auto. rewrite col_cols by (destruct a; [cbn in H; lia|discriminate]).
  unfold bidx. cbn [Nat.eqb]. unfold rows_of, col. rewrite (nth_indep _ [] [0]) by (rewrite map_length; exact H).
  now rewrite (map_nth (fun x : R => [x])).
Qed.

Lemma row_get v i j : (j < length v)%nat -> bget (T1 v) i j = nth j v 0.
Proof. intros H. unfold bget, nrows, ncols, rows_of. cbn [length hd]. rewrite bidx_lt by auto. unfold bidx. reflexivity. Qed.

Lemma mat_get m r c i j : length m = r -> Forall (fun v => length v = c) m -> (i < r)%nat -> (j < c)%nat ->
  bget (T2 m) i j = nth j (nth i m []) 0.
Proof.
  intros H1 H2 Hi Hj. unfold bget, nrows, ncols, rows_of. rewrite H1, (bidx_lt r) by auto.
  destruct m as [|v m]; [cbn in H1; lia|]. cbn [hd]. rewrite (Forall_inv H2), bidx_lt by auto. reflexivity.
Qed.

Lemma mat_cols m c : m <> [] -> Forall (fun v => length v = c) m -> ncols (T2 m) = c.
Proof. destruct m; [contradiction|]. intros _ H. apply (Forall_inv H). Qed.

Definition tab (r c : nat) (f : nat -> nat -> R) : list (list R) := map (fun i => map (f i) (seq 0 c)) (seq 0 r).

Lemma tab_ext r c f g : (forall i j, (i < r)%nat -> (j < c)%nat -> f i j = g i j) -> tab r c f = tab r c g.
Proof.
  intros H. unfold tab. apply map_ext_in. intros i Hi. apply in_seq in Hi. apply map_ext_in. intros j Hj. apply in_seq in Hj. apply H; lia.
Qed.

Lemma tab_length r c f : length (tab r c f) = r.
Proof. unfold tab. now rewrite map_length, seq_length. Qed.

Lemma tab_rows r c f : Forall (fun v => length v = c) (tab r c f).
Proof. apply Forall_map, Forall_forall. intros i _. now rewrite map_length, seq_length. Qed.

Lemma tab_nth r c f i j : (i < r)%nat -> (j < c)%nat -> nth j (nth i (tab r c f) []) 0 = f i j.
Proof. intros Hi Hj. unfold tab. rewrite (seq_map_nth _ r i []) by auto. now rewrite seq_map_nth. Qed.

Lemma tab_sum r c f : rsum (map rsum (tab r c f)) = sumf (fun i => sumf (f i) (seq 0 c)) (seq 0 r).
Proof. unfold tab. rewrite map_map. reflexivity. Qed.

Lemma tsub_tab a b r c f g : bdim (nrows a) (nrows b) = Ok r -> bdim (ncols a) (ncols b) = Ok c ->
  (forall i j, (i < r)%nat -> (j < c)%nat -> bget a i j = f i j) ->
  (forall i j, (i < r)%nat -> (j < c)%nat -> bget b i j = g i j) ->
  (match a, b with T1 _, T1 _ => False | _, _ => True end) ->
  tsub a b = Ok (T2 (tab r c (fun i j => f i j - g i j))).
Proof.
  intros H1 H2 Hf Hg HT. unfold tsub. rewrite H1. cbn [bindr]. rewrite H2. cbn [bindr].
  assert (E : map (fun i => map (fun j => bget a i j - bget b i j) (seq 0 c)) (seq 0 r) = tab r c (fun i j => f i j - g i j)).
  { apply tab_ext. intros i j Hi Hj. now rewrite Hf, Hg. }
  rewrite E. destruct a, b; try contradiction; reflexivity.
Qed.

Lemma tsub_vec a b : length a = length b -> tsub (T1 a) (T1 b) = Ok (T1 (vsub a b)).
Proof.
  intros H. unfold tsub, nrows, ncols, rows_of. cbn [length hd]. rewrite bdim_same. cbn [bindr]. rewrite H, bdim_same. cbn [bindr].
  f_equal. f_equal. cbn [seq map hd]. apply vec_ext; [rewrite map_length, seq_length; unfold vsub; rewrite map2_length; lia|].
  intros i Hi. rewrite map_length, seq_length in Hi. rewrite map_seq_nth by auto. rewrite !row_get by lia.
  unfold vsub. rewrite map2_nth_R by lia. reflexivity.
Qed.

Lemma tsub_col_row a b : a <> [] -> tsub (col a) (T1 b) = Ok (T2 (tab (length a) (length b) (fun i j => nth i a 0 - nth j b 0))).
Proof.
  intros Ha. apply (tsub_tab _ _ _ _ (fun i _ => nth i a 0) (fun _ j => nth j b 0)).
  - rewrite col_rows. apply bdim_1_r.
  - rewrite col_cols by auto. apply bdim_1_l.
  - intros i j Hi _. now apply col_get.
  - intros i j _ Hj. now apply row_get.
  - exact I.
Qed.

Lemma tsub_col_tab a c f : a <> [] ->
  tsub (col a) (T2 (tab (length a) c f)) = Ok (T2 (tab (length a) c (fun i j => nth i a 0 - f i j))).
Proof.
  intros Ha. assert (Hn : tab (length a) c f <> []).
  { intros E. apply (f_equal (@length _)) in E. rewrite tab_length in E. destruct a; [contradiction|discriminate]. }
  apply (tsub_tab _ _ _ _ (fun i _ => nth i a 0) f).
  - rewrite col_rows. unfold nrows, rows_of. rewrite tab_length. apply bdim_same.
  - rewrite col_cols, (mat_cols _ c Hn (tab_rows _ _ _)) by auto. apply bdim_1_l.
  - intros i j Hi _. now apply col_get.
  - intros i j Hi Hj. rewrite (mat_get _ (length a) c) by (auto using tab_length, tab_rows). now apply tab_nth.
  - exact I.
Qed.

Lemma tsub_col_tab' a r c f : length a = r -> (0 < r)%nat ->
  tsub (col a) (T2 (tab r c f)) = Ok (T2 (tab r c (fun i j => nth i a 0 - f i j))).
Proof. intros <- H. apply tsub_col_tab. intros ->. cbn in H. lia. Qed.

Lemma tmap_col f a : tmap f (col a) = col (map f a).
Proof. unfold tmap, col. f_equal. now rewrite !map_map. Qed.

Lemma tmap_tab f r c g : tmap f (T2 (tab r c g)) = T2 (tab r c (fun i j => f (g i j))).
Proof. unfold tmap, tab. f_equal. rewrite map_map. apply map_ext. intros i. now rewrite map_map. Qed.

(** ** VAE *)
Lemma groups_map2 {A B C} (f : A -> B -> C) n k (l : list A) (m : list B) :
  length l = (n * k)%nat -> length m = (n * k)%nat ->
  groups n k (map2 f l m) = map2 (map2 f) (groups n k l) (groups n k m).
Proof.
  revert l m. induction n as [|n IH]; intros l m Hl Hm; [reflexivity|].
  assert (G : forall X (x : list X), groups (S n) k x = firstn k x :: groups n k (skipn k x)).
  { intros X x. unfold groups. cbn [seq map]. f_equal.
    - unfold gslice. cbn [Nat.mul Nat.add skipn]. now rewrite Nat.sub_0_r.
    - rewrite <- seq_shift, map_map. apply map_ext. intros i. unfold gslice. rewrite skipn_add. replace (S i * k + k - S i * k)%nat with (i * k + k - i * k)%nat by lia.
      replace (k + i * k)%nat with (S i * k)%nat by lia. reflexivity. }
  rewrite !G. cbn [map2]. f_equal.
  - rewrite <- (firstn_skipn k l), <- (firstn_skipn k m) at 1. rewrite map2_app by (rewrite !firstn_length; lia).
    rewrite firstn_app. rewrite firstn_all2 by (rewrite map2_length, !firstn_length; lia).
    replace (k - length (map2 f (firstn k l) (firstn k m)))%nat with 0%nat by (rewrite map2_length, !firstn_length; nia).
    cbn [firstn]. apply app_nil_r.
  - rewrite <- IH by (rewrite skipn_length; nia). f_equal.
    rewrite <- (firstn_skipn k l), <- (firstn_skipn k m) at 1. rewrite map2_app by (rewrite !firstn_length; lia).
    rewrite skipn_app. rewrite skipn_all2 by (rewrite map2_length, !firstn_length; lia).
    replace (k - length (map2 f (firstn k l) (firstn k m)))%nat with 0%nat by (rewrite map2_length, !firstn_length; nia).
    reflexivity.
Qed.

Lemma map2_repeat {A B C} (f : A -> B -> C) l b : map2 f l (repeat b (length l)) = map (fun a => f a b) l.
Proof. induction l; cbn; [reflexivity|]. now f_equal. Qed.

Lemma vae_llh_col (g : list R -> list R -> R) samples data S0 : length samples = length data ->
  Forall (fun hs => length hs = S0) samples ->
  map (fun x => rsum x / INR S0) (groups (length data) S0 (map2 g (concat samples) (concat (map (fun x => repeat x S0) data)))) =
  map2 (fun hs x => mean_of (fun z => g z x) hs) samples data.
Proof.
  intros HL HS.
  assert (HR : Forall (fun r => length r = S0) (map (fun x : list R => repeat x S0) data)).
  { apply Forall_map, Forall_forall. intros x _. apply repeat_length. }
  rewrite groups_map2.
  - rewrite <- HL at 1. rewrite groups_concat by auto.
    replace (length data) with (length (map (fun x : list R => repeat x S0) data)) by apply map_length. rewrite groups_concat by auto.
    rewrite map2_map_r. clear HR. revert data HL. induction HS as [|hs samples Hh HS IH]; intros [|x data] HL; cbn in HL; try discriminate; [reflexivity|].
    cbn [map2 map]. f_equal; [|apply IH; lia]. subst S0. rewrite map2_repeat. reflexivity.
  - rewrite (concat_length_const S0) by auto. now rewrite HL.
  - rewrite (concat_length_const S0) by auto. now rewrite map_length.
Qed.

(** ** Convexity of log-sum-exp *)
Definition lse {A} (l : list A) (f : A -> R) : R := ln (sumf (fun a => exp (f a)) l).

Lemma sumf_pos {A} (f : A -> R) l : l <> [] -> (forall a, In a l -> 0 < f a) -> 0 < sumf f l.
Proof.
  intros Hne H. destruct l as [|a l]; [contradiction|]. rewrite sumf_cons.
  assert (0 < f a) by (apply H; now left).
  assert (0 <= sumf f l). { apply sumf_nonneg. intros x Hx. left. apply H. now right. } lra.
Qed.

(** Variational form: for a distribution p. *)
Lemma lse_variational {A} (l : list A) (f p : A -> R) : l <> [] -> (forall a, In a l -> 0 < p a) -> sumf p l = 1 ->
  sumf (fun a => p a * (f a - ln (p a))) l <= lse l f.
Proof.
  intros Hne Hp Hs. unfold lse. set (Z := sumf (fun a => exp (f a)) l).
  assert (HZ : 0 < Z) by (apply sumf_pos; [auto|intros; apply exp_pos]).
  assert (G := gibbs p (fun a => exp (f a) / Z) l ltac:(intros; left; auto) ltac:(intros; apply Rdiv_lt_0_compat; [apply exp_pos|auto])).
  cbn beta in G.
  replace (sumf (fun a => exp (f a) / Z) l) with 1 in G.
  2:{ unfold Rdiv. rewrite sumf_scal_r. fold Z. field. lra. }
  rewrite Hs in G.
  rewrite (sumf_ext _ (fun a => p a * (f a - ln (p a)) + - ln Z * p a)) in G.
  - rewrite sumf_plus, sumf_scal_l, Hs in G. lra.
  - intros a Ha. rewrite ln_div, ln_exp by (auto using exp_pos). ring.
Qed.

Lemma lse_attained {A} (l : list A) (f : A -> R) : l <> [] ->
  let p a := exp (f a - lse l f) in
  (forall a, 0 < p a) /\ sumf p l = 1 /\ sumf (fun a => p a * (f a - ln (p a))) l = lse l f.
Proof.
  intros Hne p. set (Z := sumf (fun a => exp (f a)) l).
  assert (HZ : 0 < Z) by (apply sumf_pos; [auto|intros; apply exp_pos]).
  assert (E : sumf p l = 1).
  { unfold p, lse. fold Z. rewrite (sumf_ext _ (fun a => exp (f a) * / Z)).
    - rewrite sumf_scal_r. fold Z. field. lra.
    - intros a _. unfold Rminus. now rewrite exp_plus, exp_Ropp, exp_ln. }
  split; [intros; apply exp_pos|]. split; [exact E|].
  rewrite (sumf_ext _ (fun a => lse l f * p a)).
  - rewrite sumf_scal_l, E. ring.
  - intros a _. unfold p at 2. rewrite ln_exp. ring.
Qed.

Lemma sumf_mean {A B} (F : A -> B -> R) (l : list A) (ss : list B) :
  sumf (fun a => mean_of (F a) ss) l = mean_of (fun s => sumf (fun a => F a s) l) ss.
Proof. unfold mean_of, Rdiv. rewrite sumf_scal_r. now rewrite sumf_swap. Qed.

Lemma mean_of_le {A} (f g : A -> R) l : (forall a, In a l -> f a <= g a) -> mean_of f l <= mean_of g l.
Proof.
  intros H. unfold mean_of, Rdiv. apply Rmult_le_compat_r; [|now apply sumf_le].
  destruct l; [cbn; rewrite Rinv_0 || idtac; lra|]. left. apply Rinv_0_lt_compat, lt_0_INR. cbn. lia.
Qed.

Lemma mean_of_scal {A} c (f : A -> R) l : mean_of (fun a => c * f a) l = c * mean_of f l.
Proof. unfold mean_of. rewrite sumf_scal_l. unfold Rdiv. ring. Qed.

Lemma lse_convex {A B} (l : list A) (F : A -> B -> R) (ss : list B) : l <> [] -> ss <> [] ->
  lse l (fun a => mean_of (F a) ss) <= mean_of (fun s => lse l (fun a => F a s)) ss.
Proof.
  intros Hl Hs. destruct (lse_attained l (fun a => mean_of (F a) ss) Hl) as (P1 & P2 & P3).
  set (p := fun a => exp (mean_of (F a) ss - lse l (fun a => mean_of (F a) ss))) in *.
  rewrite <- P3.
  apply Rle_trans with (mean_of (fun s => sumf (fun a => p a * (F a s - ln (p a))) l) ss).
  - right. rewrite <- sumf_mean. apply sumf_ext. intros a _. rewrite mean_of_scal. f_equal.
    symmetry. apply (mean_of_const (F a) (- ln (p a)) ss Hs).
  - apply mean_of_le. intros s _. apply lse_variational; auto. intros a _. apply exp_pos.
Qed.
