(** Utility functions: C45, C46, C47, C48, C94, C95. *)
From Coq Require Import Reals List ZArith Arith Bool String Lia Lra Permutation.
From Verif Require Import Prelude Vec Gibbs Mat Ut_Model Ut_Spec Ut_Proofs.
Import ListNotations.
Local Open Scope R_scope.

(** ** C45 *)
Theorem C45_value : forall l, l <> [] -> exists v, logsumexp l = Ok v /\ lse_spec l v.
Proof. exact logsumexp_spec. Qed.

Theorem C45_empty : logsumexp [] = Err IndexError.
Proof. reflexivity. Qed.

(** No exponential can overflow and the logarithm gets a value in [1, n]. *)
Theorem C45_stable : forall l, regular l -> exists m, slice_max l = Ok m /\
  Forall (fun a => a = ENInf \/ exists r, a = EFin r /\ r <= 0) (lse_args l m) /\
  In (EFin 0) (lse_args l m) /\
  exists s, fold_left eadd (map eexp (lse_args l m)) (EFin 0) = EFin s /\ 1 <= s <= INR (List.length l).
Proof.
  intros l H. destruct (regular_max l H) as (m & E & Hin & Hle). exists (EFin m). split; [exact E|].
  assert (A : Forall (fun a => a = ENInf \/ exists r, a = EFin r /\ r <= 0) (lse_args l (EFin m))).
  { unfold lse_args. apply Forall_forall. intros a Ha. apply in_map_iff in Ha. destruct Ha as (x & <- & Hx).
    rewrite Forall_forall in Hle. destruct (Hle x Hx) as [->|(r & -> & Hr)]; [now left|].
    right. exists (r - m). split; [reflexivity|lra]. }
  split; [exact A|]. split.
  { unfold lse_args. apply in_map_iff. exists (EFin m). split; [simpl; f_equal; ring|auto]. }
  eexists. split; [now apply sum_exp_args|]. rewrite Rplus_0_l.
  assert (E1 : exp (- m) * sumf mass l = sumf (fun x => exp (- m) * mass x) l) by (symmetry; apply sumf_scal_l).
  rewrite E1. clear E1. split.
  - assert (E0 : exp (- m) * mass (EFin m) = 1) by (simpl; rewrite <- exp_plus, Rplus_opp_l; apply exp_0).
    rewrite <- E0. apply (sumf_ge_term (fun x => exp (- m) * mass x)); auto.
    intros x Hx. apply Rmult_le_pos; [left; apply exp_pos|apply mass_nonneg].
  - replace (INR (List.length l)) with (sumf (fun _ : ext => 1) l) by (rewrite sumf_const; ring).
    apply sumf_le. intros x Hx. rewrite Forall_forall in Hle. destruct (Hle x Hx) as [->|(r & -> & Hr)]; simpl; [lra|].
    rewrite <- exp_plus, <- exp_0. destruct (Req_dec r m) as [->|Hn].
    + rewrite Rplus_opp_l. lra.
    + left. apply exp_increasing. lra.
Qed.

(** Between the maximum and the maximum plus ln n. *)
Theorem C45_bounds : forall l, regular l -> exists m v, In (EFin m) l /\
  (forall r, In (EFin r) l -> r <= m) /\ logsumexp l = Ok (EFin v) /\ m <= v <= m + ln (INR (List.length l)).
Proof.
  intros l H. destruct (regular_max l H) as (m & E & Hin & Hle).
  exists m, (ln (sumf mass l)). split; [exact Hin|]. split.
  { intros r Hr. rewrite Forall_forall in Hle. destruct (Hle _ Hr) as [X|(r' & X & Y)]; [discriminate|].
    injection X as <-. exact Y. }
  split; [now apply logsumexp_regular|].
  destruct (C45_stable l H) as (m' & E' & _ & _ & s & Es & Hs). rewrite E in E'. injection E' as <-.
  rewrite sum_exp_args in Es by auto. injection Es as Es. rewrite Rplus_0_l in Es.
  assert (P := mass_sum_pos l m Hin). assert (Q := exp_pos (- m)).
  assert (L : ln (sumf mass l) = m + ln s).
  { rewrite <- Es, ln_mult, ln_exp by auto. ring. }
  rewrite L. split.
  - assert (ln 1 <= ln s) by (apply ln_mono; lra). rewrite ln_1 in *. lra.
  - assert (ln s <= ln (INR (List.length l))) by (apply ln_mono; lra). lra.
Qed.

(** Adding a constant to the slice adds it to the result. *)
Theorem C45_shift : forall l c v, regular l -> logsumexp l = Ok (EFin v) ->
  logsumexp (map (fun x => eadd x (EFin c)) l) = Ok (EFin (v + c)).
Proof.
  intros l c v H E. rewrite logsumexp_regular in E by auto. injection E as <-.
  destruct H as (H1 & H2 & r & H3).
  rewrite logsumexp_regular.
  - f_equal. f_equal.
    assert (S : sumf mass (map (fun x => eadd x (EFin c)) l) = exp c * sumf mass l).
    { rewrite <- sumf_scal_l. unfold sumf. rewrite map_map. f_equal. apply map_ext_in. intros x Hx.
      destruct x; simpl; try ring. rewrite exp_plus. ring. }
    rewrite S, ln_mult, ln_exp; [ring|apply exp_pos|]. eapply mass_sum_pos; eauto.
  - split; [|split].
    + intros A. apply in_map_iff in A. destruct A as (x & Ex & Hx). destruct x; simpl in Ex; try discriminate. auto.
    + intros A. apply in_map_iff in A. destruct A as (x & Ex & Hx). destruct x; simpl in Ex; try discriminate. auto.
    + exists (r + c). apply in_map_iff. exists (EFin r). auto.
Qed.

(** Matrices: one value per column (dim 0) or per row (dim 1). *)
Theorem C45_matrix : forall rows k, rows <> [] ->
  (exists v, logsumexp_mat 0 k rows = Ok v /\ List.length v = k /\
     forall j, (j < k)%nat -> lse_spec (map (fun r => nth j r ENaN) rows) (nth j v ENaN)) /\
  (Forall (fun r => List.length r = k) rows -> (0 < k)%nat ->
   exists v, logsumexp_mat 1 k rows = Ok v /\ List.length v = List.length rows /\
     forall i, (i < List.length rows)%nat -> lse_spec (nth i rows []) (nth i v ENaN)).
Proof.
  intros rows k Hne.
  assert (G : forall (A : Type) (f : A -> list ext) (l : list A) (da : A), (forall x, In x l -> f x <> []) ->
    exists v, mapM (fun x => logsumexp (f x)) l = Ok v /\ List.length v = List.length l /\
    forall i, (i < List.length l)%nat -> lse_spec (f (nth i l da)) (nth i v ENaN)).
  { intros A f l da Hf. induction l as [|x l IH].
    - exists []. split; [reflexivity|]. split; [reflexivity|]. simpl. intros; lia.
    - destruct IH as (v & E & L & S); [intros y Hy; apply Hf; now right|].
      destruct (logsumexp_spec (f x)) as (w & Ew & Sw); [apply Hf; now left|].
      exists (w :: v). cbn [mapM]. rewrite Ew. cbn [bindr]. rewrite E. split; [reflexivity|].
      split; [simpl; now rewrite L|]. intros [|i] Hi; simpl; auto. apply S. simpl in Hi. lia. }
  split.
  - destruct (G nat (fun j => column j rows) (seq 0 k) 0%nat) as (v & E & L & S).
    { intros j Hj. unfold column. intros X. apply map_eq_nil in X. auto. }
    exists v. split; [exact E|]. rewrite seq_length in *. split; [exact L|]. intros j Hj. specialize (S j Hj).
    rewrite seq_nth in S by auto. exact S.
  - intros Hr Hk. destruct (G (list ext) (fun x => x) rows []) as (v & E & L & S).
    { intros x Hx ->. rewrite Forall_forall in Hr. specialize (Hr _ Hx). simpl in Hr. lia. }
    exists v. split; [exact E|]. split; [exact L|exact S].
Qed.

Example C45_ex :
  logsumexp [EFin 0; ENInf; EFin 0] = Ok (EFin (ln 2)) /\
  logsumexp [ENInf; ENInf] = Ok ENInf /\ logsumexp [EFin 1; EPInf] = Ok EPInf /\ regular [EFin 0; ENInf; EFin 0].
Proof.
  assert (Rg : regular [EFin 0; ENInf; EFin 0]).
  { split; [|split].
    - intros [X|[X|[X|[]]]]; discriminate.
    - intros [X|[X|[X|[]]]]; discriminate.
    - exists 0. now left. }
  split; [|split; [reflexivity|split; [reflexivity|exact Rg]]].
  rewrite logsumexp_regular by exact Rg. f_equal. f_equal. f_equal. unfold sumf. simpl. rewrite exp_0. lra.
Qed.

(** ** C46 *)
Theorem C46_onehot_partial : forall labels K,
  Forall (fun l => (0 <= l < Z.of_nat K)%Z) labels ->
  exists M, onehot labels K = Ok M /\ List.length M = List.length labels /\
  forall t, (t < List.length labels)%nat ->
    let row := nth t M [] in let c := Z.to_nat (nth t labels 0%Z) in
    List.length row = K /\ nth c row 0 = 1 /\
    (forall j, (j < K)%nat -> j <> c -> nth j row 0 = 0) /\
    (* the label is the arg-max of the row *)
    (forall j, (j < K)%nat -> j <> c -> nth j row 0 < nth c row 0) /\ rsum row = 1.
Proof.
  intros labels K H. induction H as [|l labels Hl Hr (M & E & L & S)].
  - exists []. split; [reflexivity|]. split; [reflexivity|]. simpl. intros; lia.
  - assert (T : tensor_index K l = Ok (Z.to_nat l)).
    { unfold tensor_index. rewrite (proj2 (Z.leb_le 0 l)), (proj2 (Z.ltb_lt l _)) by lia. reflexivity. }
    exists (unit_row K (Z.to_nat l) :: M). unfold onehot in *. cbn [mapM]. rewrite T. cbn [bindr]. rewrite E.
    split; [reflexivity|]. split; [simpl; now rewrite L|]. intros [|t] Ht; [|apply S; simpl in Ht; lia].
    cbn [nth]. assert (Hc : (Z.to_nat l < K)%nat) by lia.
    assert (U : forall j, (j < K)%nat -> nth j (unit_row K (Z.to_nat l)) 0 = if Nat.eq_dec j (Z.to_nat l) then 1 else 0).
    { intros j Hj. rewrite unit_row_nth by auto. destruct (Nat.eqb_spec j (Z.to_nat l)), (Nat.eq_dec j (Z.to_nat l)); congruence. }
    split; [apply unit_row_length|]. split; [rewrite U by auto; now destruct (Nat.eq_dec _ _)|].
    split; [intros j Hj Hn; rewrite U by auto; destruct (Nat.eq_dec j (Z.to_nat l)); [congruence|reflexivity]|].
    split.
    + intros j Hj Hn. rewrite !U by auto. destruct (Nat.eq_dec j (Z.to_nat l)); [congruence|].
      destruct (Nat.eq_dec (Z.to_nat l) (Z.to_nat l)); [lra|congruence].
    + rewrite rsum_nth, unit_row_length. rewrite (sumf_single _ _ (Z.to_nat l)).
      * rewrite U by auto. now destruct (Nat.eq_dec _ _).
      * apply seq_NoDup.
      * apply in_seq. lia.
      * intros j Hj Hn. apply in_seq in Hj. rewrite U by lia. destruct (Nat.eq_dec j (Z.to_nat l)); [congruence|reflexivity].
Qed.

(** A label that is too large, or too small even from the end, raises ... *)
Theorem C46_far_labels_raise : forall labels K l, In l labels ->
  (Z.of_nat K <= l \/ l < - Z.of_nat K)%Z -> onehot labels K = Err IndexError.
Proof.
  intros labels K l Hin Hl. induction labels as [|x labels IH]; [destruct Hin|].
  unfold onehot in *. cbn [mapM].
  assert (D : tensor_index K x = Err IndexError \/ exists c, tensor_index K x = Ok c).
  { unfold tensor_index. destruct (_ && _); [eauto|]. destruct (_ && _); eauto. }
  destruct D as [D|(c & D)]; rewrite D; [reflexivity|]. cbn [bindr].
  destruct Hin as [->|Hin]; [|now rewrite (IH Hin)].
  exfalso. unfold tensor_index in D.
  destruct ((0 <=? l)%Z && (l <? Z.of_nat K)%Z) eqn:A; [apply andb_prop in A; lia|].
  destruct ((- Z.of_nat K <=? l)%Z && (l <? 0)%Z) eqn:B; [apply andb_prop in B; lia|discriminate].
Qed.

(** ... but small negative labels are taken from the end. *)
Theorem C46_negative_labels_refuted : forall K, (0 < K)%nat ->
  onehot [(-1)%Z] K = Ok [unit_row K (K - 1)].
Proof.
  intros K HK. unfold onehot, tensor_index. cbn [mapM].
  rewrite (proj2 (Z.leb_gt 0 (-1))) by lia. cbn [andb].
  rewrite (proj2 (Z.leb_le (- Z.of_nat K) (-1))), (proj2 (Z.ltb_lt (-1) 0)) by lia. cbn [andb bindr].
  replace (Z.to_nat (Z.of_nat K + -1)) with (K - 1)%nat by lia. reflexivity.
Qed.

Example C46_ex : onehot [2; 0]%Z 3 = Ok [[0; 0; 1]; [1; 0; 0]].
Proof. reflexivity. Qed.

(** ** C47 *)
Definition gsum (grads : nat -> nat -> option (list R)) (j k : nat) : list R :=
  fold_left (fun a i => vadd a (match grads i j with Some v => v | None => [] end)) (seq 1 k)
    (match grads 0%nat j with Some v => v | None => [] end).

(** Row k is the sum of the gradients of outputs 0, ..., k. *)
Theorem C47_rows_accumulate_partial : forall n_out n_in grads,
  (forall i j, (i < n_out)%nat -> (j < n_in)%nat -> exists v, grads i j = Some v) ->
  exists M, jacobians n_out n_in grads = Ok M /\ List.length M = n_out /\
  forall k j, (k < n_out)%nat -> (j < n_in)%nat -> nth j (nth k M []) [] = gsum grads j k.
Proof.
  intros n_out n_in grads Hg.
  destruct (jac_loop_total grads n_in (seq 0 n_out) (repeat None n_in)) as (M & E).
  { apply repeat_length. }
  { intros j Hj i Hi. apply Hg; auto. apply in_seq in Hi. lia. }
  exists M. split; [exact E|].
  destruct (jac_loop_spec grads n_in _ _ M (repeat_length _ _) E) as (L & HS). rewrite seq_length in *.
  split; [exact L|]. intros k j Hk Hj. specialize (HS k j Hk Hj).
  replace (nth j (repeat None n_in) (None : option (list R))) with (None : option (list R)) in HS by (symmetry; apply nth_repeat).
  assert (F : firstn (S k) (seq 0 n_out) = 0%nat :: seq 1 k).
  { replace n_out with (S k + (n_out - S k))%nat by lia. rewrite seq_app, firstn_app, seq_length, Nat.sub_diag.
    rewrite firstn_O, app_nil_r, firstn_all2 by (rewrite seq_length; lia). reflexivity. }
  rewrite F in HS. unfold grad_prefix in HS. cbn [fold_left] in HS. unfold gsum.
  destruct (Hg 0%nat j ltac:(lia) Hj) as (v0 & E0). rewrite E0 in *. cbn [add_grad] in HS.
  enough (X : forall rows a, (forall i, In i rows -> (i < n_out)%nat) ->
    fold_left (fun a i => add_grad a (grads i j)) rows (Some a) =
    Some (fold_left (fun a i => vadd a match grads i j with Some v => v | None => [] end) rows a)).
  { rewrite X in HS by (intros i Hi; apply in_seq in Hi; lia). congruence. }
  induction rows as [|i rows IH]; intros a Hr; [reflexivity|]. cbn [fold_left].
  destruct (Hg i j ltac:(apply Hr; now left) Hj) as (v & ->). cbn [add_grad]. apply IH.
  intros x Hx. apply Hr. now right.
Qed.

(** The first row is the gradient of the first output. *)
Theorem C47_first_row_partial : forall n_out n_in grads, (0 < n_out)%nat ->
  (forall i j, (i < n_out)%nat -> (j < n_in)%nat -> exists v, grads i j = Some v) ->
  exists M, jacobians n_out n_in grads = Ok M /\
  forall j, (j < n_in)%nat -> grads 0%nat j = Some (nth j (nth 0 M []) []).
Proof.
  intros n_out n_in grads Hn Hg. destruct (C47_rows_accumulate_partial n_out n_in grads Hg) as (M & E & _ & HS).
  exists M. split; [exact E|]. intros j Hj. rewrite HS by auto. unfold gsum. cbn [seq fold_left].
  destruct (Hg 0%nat j Hn Hj) as (v & ->). reflexivity.
Qed.

(** Two outputs x and 3x of one scalar input: the second row is 4, not 3. *)
Theorem C47_rows_are_gradients_refuted :
  let grads := fun i (_ : nat) => match i with O => Some [1] | _ => Some [3] end in
  exists M, jacobians 2 1 grads = Ok M /\ nth 0 (nth 1 M []) [] = [4] /\ grads 1%nat 0%nat = Some [3].
Proof.
  intros grads. exists [[[1]]; [[1 + 3]]]. split; [reflexivity|]. split; [|reflexivity]. simpl. f_equal. lra.
Qed.

(** An input the first output does not depend on: AttributeError. *)
Theorem C47_unused_input_raises : forall n_out n_in grads j, (0 < n_out)%nat -> (j < n_in)%nat ->
  grads 0%nat j = None -> exists e, jacobians n_out n_in grads = Err e.
Proof.
  intros n_out n_in grads j Hn Hj Hg. destruct (jacobians n_out n_in grads) as [M|e] eqn:E; [|eauto].
  exfalso. destruct (jac_loop_spec grads n_in _ _ M (repeat_length _ _) E) as (_ & HS). rewrite seq_length in *.
  specialize (HS 0%nat j Hn Hj). destruct n_out; [lia|]. cbn [seq firstn] in HS. unfold grad_prefix in HS. cbn [fold_left] in HS.
  replace (nth j (repeat None n_in) (None : option (list R))) with (None : option (list R)) in HS by (symmetry; apply nth_repeat).
  rewrite Hg in HS. discriminate.
Qed.

(** ** C48 *)
(** With a logger. *)
Theorem C48_reserved_partial : forall env max_retry ev o, reserve_gpu env max_retry true = (ev, o) ->
  (polls ev <= max_retry)%nat /\
  (* only GPUs listed and idle at that poll are tried *)
  (forall t i ok, In (Attempt t i ok) ev -> (t < max_retry)%nat /\ tried env t i ok) /\
  match o with
  | Reserved i =>
      (* the last event is the one successful allocation, of GPU i *)
      exists t ev0, (t < max_retry)%nat /\ ev = ev0 ++ [Attempt t i true] /\ tried env t i true /\
      forall t' i', ~ In (Attempt t' i' true) ev0
  | NoGPU =>
      (* all polls were made, every idle GPU was tried in vain *)
      polls ev = max_retry /\ (forall t i, ~ In (Attempt t i true) ev) /\
      forall t u i, (t < max_retry)%nat -> In (u, i) (gpus env) -> ~ In u (active env t) -> alloc_ok env t i = false
  | Crash _ => False
  end.
Proof.
  intros env max_retry ev o H. destruct (gpu_while_spec env max_retry 0 ev o H) as (H1 & H2 & H3).
  split; [exact H1|]. split.
  - intros t i ok Hin. destruct (H2 t i ok Hin) as (A & B). split; [lia|exact B].
  - destruct o as [i| |e]; [| |exact H3].
    + destruct H3 as (t & ev0 & A & B). exists t, ev0. split; [lia|exact B].
    + destruct H3 as (A & B & C). split; auto. split; auto. intros t u i Ht. apply C. lia.
Qed.

(** Without one (the default): AttributeError in every environment. *)
Theorem C48_default_logger_refuted : forall env max_retry, (0 < max_retry)%nat ->
  snd (reserve_gpu env max_retry false) = Crash AttributeError.
Proof.
  intros env [|n] H; [lia|]. unfold reserve_gpu. cbn [gpu_while negb].
  destruct (gpu_for_nolog env 0 (gpus env)) as (ev & _ & [E|E]); rewrite E; reflexivity.
Qed.

Example C48_ex :
  let env := {| gpus := [("a", 0%Z); ("b", 1%Z)]%string;
                active := fun t => match t with O => ["a"%string] | _ => [] end;
                alloc_ok := fun t i => (i =? 0)%Z |} in
  reserve_gpu env 12 true =
  ([Poll 0; Attempt 0 1 false; Sleep; Poll 1; Attempt 1 0 true], Reserved 0%Z).
Proof. reflexivity. Qed.

(** ** C94 *)
Section Symposdef.
Variables (n : nat) (symeig : fm -> fv * fm) (A : fm) (thr : R).
Hypothesis Hn : (0 < n)%nat.
Hypothesis Hthr : 0 < thr <= 1.
Hypothesis Hs : symeig_of n (symmetrize A) (fst (symeig (symmetrize A))) (snd (symeig (symmetrize A))).

Let ev := fst (symeig (symmetrize A)).
Let V := snd (symeig (symmetrize A)).
Let top := ev (n - 1)%nat.

Lemma msp_eq : make_symposdef symeig n thr A = mmul n (mmul n V (diagm (floor_evals n thr ev))) (mT V).
Proof. unfold make_symposdef, V, ev. destruct (symeig (symmetrize A)); reflexivity. Qed.

Lemma msp_quad x : quad n (make_symposdef symeig n thr A) x =
  bsum n (fun k => floor_evals n thr ev k * (mvm n (mT V) x k) ^ 2).
Proof. rewrite msp_eq. apply spectral_quad. Qed.

Lemma sym_quad x : quad n (symmetrize A) x = bsum n (fun k => ev k * (mvm n (mT V) x k) ^ 2).
Proof.
  destruct Hs as (_ & _ & H & _). rewrite (quad_ext n _ _ x x H) by auto. apply (spectral_quad n V ev).
Qed.

Lemma ev_le_top k : (k < n)%nat -> ev k <= top.
Proof. intros Hk. destruct Hs as (_ & _ & _ & H). apply H; lia. Qed.

Lemma norm_V x : bsum n (fun k => (mvm n (mT V) x k) ^ 2) = dotf n x x.
Proof. apply orth_norm. apply Hs. Qed.

Lemma floor_ge k : thr * top <= floor_evals n thr ev k.
Proof. unfold floor_evals. fold top. destruct (Rlt_dec (ev k) (thr * top)); lra. Qed.
Lemma floor_ge_ev k : ev k <= floor_evals n thr ev k.
Proof. unfold floor_evals. fold top. destruct (Rlt_dec (ev k) (thr * top)); lra. Qed.

Lemma top_pos : (exists x, 0 < quad n (symmetrize A) x) -> 0 < top.
Proof.
  intros (x & Hx). rewrite sym_quad in Hx. apply Rnot_le_lt. intros Ht.
  assert (bsum n (fun k => ev k * (mvm n (mT V) x k) ^ 2) <= 0); [|lra].
  apply Rle_trans with (bsum n (fun _ => 0)).
  - apply bsum_le. intros k Hk. assert (E := ev_le_top k Hk). assert (0 <= (mvm n (mT V) x k) ^ 2) by nra. nra.
  - rewrite bsum_zero; auto. lra.
Qed.

Lemma msp_sym : msym n (make_symposdef symeig n thr A).
Proof.
  intros i j Hi Hj. rewrite msp_eq, !spectral_get. apply bsum_ext. intros k Hk. ring.
Qed.

Lemma msp_lower x : thr * top * dotf n x x <= quad n (make_symposdef symeig n thr A) x.
Proof.
  rewrite msp_quad, <- norm_V, <- bsum_scal. apply bsum_le. intros k Hk.
  apply Rmult_le_compat_r; [nra|]. apply floor_ge.
Qed.

Lemma msp_not x : top <= 0 -> quad n (make_symposdef symeig n thr A) x <= 0.
Proof.
  intros Ht. rewrite msp_quad. apply Rle_trans with (bsum n (fun _ => 0)); [|rewrite bsum_zero; auto; lra].
  apply bsum_le. intros k Hk. assert (0 <= (mvm n (mT V) x k) ^ 2) by nra.
  assert (floor_evals n thr ev k <= 0); [|nra]. unfold floor_evals. fold top. assert (E := ev_le_top k Hk).
  destruct (Rlt_dec (ev k) (thr * top)); nra.
Qed.

Lemma top_is_quad : exists x, nonzero n x /\ quad n (symmetrize A) x = top * dotf n x x.
Proof.
  set (x := fun i => V i (n - 1)%nat). exists x.
  assert (E : forall k, (k < n)%nat -> mvm n (mT V) x k = idm k (n - 1)%nat).
  { intros k Hk. destruct Hs as (_ & H & _). rewrite <- (H k (n - 1)%nat) by lia. reflexivity. }
  assert (N : dotf n x x = 1).
  { destruct Hs as (_ & H & _). specialize (H (n - 1)%nat (n - 1)%nat ltac:(lia) ltac:(lia)).
    unfold idm in H. destruct (Nat.eq_dec (n - 1) (n - 1)); [|congruence]. exact H. }
  split.
  - destruct (nonzero_dec n x) as [|Z]; auto. exfalso. unfold dotf in N. rewrite bsum_zero in N; [lra|].
    intros i Hi. rewrite Z by auto. ring.
  - rewrite sym_quad, N, Rmult_1_r. rewrite (bsum_single n _ (n - 1)%nat).
    + rewrite E by lia. unfold idm. destruct (Nat.eq_dec (n - 1) (n - 1)); [|congruence]. unfold top. ring.
    + lia.
    + intros k Hk Hne. rewrite E by auto. unfold idm. destruct (Nat.eq_dec k (n - 1)); [congruence|]. ring.
Qed.

Lemma msp_unchanged : (forall k, (k < n)%nat -> thr * top <= ev k) ->
  meq n (make_symposdef symeig n thr A) (symmetrize A).
Proof.
  intros H i j Hi Hj. destruct Hs as (_ & _ & Hm & _). rewrite Hm by auto. rewrite msp_eq.
  rewrite spectral_get. etransitivity; [|symmetry; apply (spectral_get n V ev)]. apply bsum_ext. intros k Hk.
  unfold floor_evals. fold top. specialize (H k Hk). destruct (Rlt_dec (ev k) (thr * top)); [lra|reflexivity].
Qed.
End Symposdef.

(** Positive definite as soon as the symmetrised matrix is positive in one
    direction; never below the symmetrised matrix; symmetric. *)
Theorem C94_symposdef_partial : forall n symeig A thr, (0 < n)%nat -> 0 < thr <= 1 ->
  symeig_of n (symmetrize A) (fst (symeig (symmetrize A))) (snd (symeig (symmetrize A))) ->
  let B := make_symposdef symeig n thr A in
  msym n B /\
  (forall x, quad n (symmetrize A) x <= quad n B x) /\
  ((exists x, 0 < quad n (symmetrize A) x) -> posdef n B /\
    (* every direction has at least thr times the largest eigenvalue *)
    exists top, 0 < top /\ (forall x, quad n (symmetrize A) x <= top * dotf n x x) /\
      (exists x, nonzero n x /\ quad n (symmetrize A) x = top * dotf n x x) /\
      (forall x, thr * top * dotf n x x <= quad n B x)).
Proof.
  intros n symeig A thr Hn Ht Hs B. split; [now apply msp_sym|]. split.
  - intros x. unfold B. rewrite (sym_quad n symeig A Hs), (msp_quad n symeig A thr Hs).
    apply bsum_le. intros k Hk. apply Rmult_le_compat_r; [nra|]. apply floor_ge_ev.
  - intros Hp. assert (T := top_pos n symeig A Hn Hs Hp). split.
    + split; [now apply msp_sym|]. intros x Hx. assert (L := msp_lower n symeig A thr Hs x).
      assert (P := dotf_self_pos n x Hx). eapply Rlt_le_trans; [|exact L].
      apply Rmult_lt_0_compat; [|exact P]. apply Rmult_lt_0_compat; lra.
    + exists (fst (symeig (symmetrize A)) (n - 1)%nat). split; [exact T|]. split; [|split].
      * intros x. rewrite (sym_quad n symeig A Hs), <- (norm_V n symeig A Hs), <- bsum_scal.
        apply bsum_le. intros k Hk. apply Rmult_le_compat_r; [nra|]. now apply (ev_le_top n symeig A).
      * now apply top_is_quad.
      * intros x. now apply msp_lower.
Qed.

(** Otherwise the result is never positive definite. *)
Theorem C94_negative_matrices_refuted : forall n symeig A thr, (0 < n)%nat -> 0 < thr <= 1 ->
  symeig_of n (symmetrize A) (fst (symeig (symmetrize A))) (snd (symeig (symmetrize A))) ->
  (forall x, quad n (symmetrize A) x <= 0) -> ~ posdef n (make_symposdef symeig n thr A).
Proof.
  intros n symeig A thr Hn Ht Hs H (_ & P).
  destruct (top_is_quad n symeig A Hn Hs) as (x & Hx & Q).
  assert (T : fst (symeig (symmetrize A)) (n - 1)%nat <= 0).
  { specialize (H x). rewrite Q in H. assert (D := dotf_self_pos n x Hx). nra. }
  specialize (P x Hx). assert (N := msp_not n symeig A thr Hn Ht Hs x T). lra.
Qed.

(** Well conditioned symmetric matrices are left alone. *)
Theorem C94_unchanged : forall n symeig A thr, (0 < n)%nat -> 0 < thr <= 1 -> msym n A ->
  symeig_of n (symmetrize A) (fst (symeig (symmetrize A))) (snd (symeig (symmetrize A))) ->
  (forall k, (k < n)%nat -> thr * fst (symeig (symmetrize A)) (n - 1)%nat <= fst (symeig (symmetrize A)) k) ->
  meq n (make_symposdef symeig n thr A) A.
Proof.
  intros n symeig A thr Hn Ht Hsym Hs H i j Hi Hj. rewrite (msp_unchanged n symeig A thr Hs H) by auto.
  unfold symmetrize. rewrite (Hsym j i) by auto. field.
Qed.

(** diag(-1, 2) becomes diag(1/5, 2) with the default threshold 1/10 *)
Example C94_ex : let A : fm := fun i j => if Nat.eq_dec i j then (if Nat.eq_dec i 0 then -1 else 2) else 0 in
  let symeig : fm -> fv * fm := fun _ => ((fun i => if Nat.eq_dec i 0 then -1 else 2), idm) in
  symeig_of 2 (symmetrize A) (fst (symeig (symmetrize A))) (snd (symeig (symmetrize A))) /\
  (exists x, 0 < quad 2 (symmetrize A) x) /\
  make_symposdef symeig 2 (1/10) A 0%nat 0%nat = 1/5 /\ make_symposdef symeig 2 (1/10) A 1%nat 1%nat = 2.
Proof.
  intros A symeig. split; [|split; [|split]].
  - split; [|split; [|split]].
    + intros i j Hi Hj. destruct i as [|[|i]], j as [|[|j]]; try lia; unfold symeig, mmul, bsum, sumf, mT, idm; simpl; lra.
    + intros i j Hi Hj. destruct i as [|[|i]], j as [|[|j]]; try lia; unfold symeig, mmul, bsum, sumf, mT, idm; simpl; lra.
    + intros i j Hi Hj. destruct i as [|[|i]], j as [|[|j]]; try lia;
        unfold symeig, mmul, bsum, sumf, mT, idm, symmetrize, A; simpl; lra.
    + intros i j Hij Hj. destruct i as [|[|i]], j as [|[|j]]; try lia; unfold symeig; simpl; lra.
  - exists (fun i => if Nat.eq_dec i 0 then 0 else 1). unfold quad, dotf, mvm, bsum, sumf, symmetrize, A. simpl. lra.
  - unfold make_symposdef, symeig, mmul, bsum, sumf, mT, diagm, idm, floor_evals. simpl.
    destruct (Rlt_dec (-1) (1 / 10 * 2)); [|lra]. lra.
  - unfold make_symposdef, symeig, mmul, bsum, sumf, mT, diagm, idm, floor_evals. simpl.
    destruct (Rlt_dec 2 (1 / 10 * 2)); lra.
Qed.

(** ** C95: the approximate Hessian is J^T J *)
Theorem C95_hessian : forall n rows g x,
  quad n (approximate_hessian rows g) x = bsum rows (fun t => (bsum n (fun i => g t i * x i)) ^ 2) /\
  msym n (approximate_hessian rows g) /\ 0 <= quad n (approximate_hessian rows g) x.
Proof.
  intros n rows g x.
  assert (E : quad n (approximate_hessian rows g) x = bsum rows (fun t => (bsum n (fun i => g t i * x i)) ^ 2)).
  { unfold quad, dotf, mvm, approximate_hessian.
    rewrite (bsum_ext n _ (fun i => bsum rows (fun t => x i * g t i * bsum n (fun j => g t j * x j)))).
    - rewrite bsum_swap. apply bsum_ext. intros t _. rewrite bsum_scal_r. simpl. rewrite Rmult_1_r. f_equal.
      apply bsum_ext. intros; ring.
    - intros i _. rewrite (bsum_ext n _ (fun j => bsum rows (fun t => g t i * g t j * x j)))
        by (intros j _; now rewrite <- bsum_scal_r).
      rewrite bsum_swap, <- bsum_scal. apply bsum_ext. intros t _. rewrite <- !bsum_scal. apply bsum_ext.
      intros j _. ring. }
  split; [exact E|]. split.
  - intros i j _ _. apply bsum_ext. intros; ring.
  - rewrite E. apply bsum_nonneg. intros t _. nra.
Qed.

Example C95_ex : approximate_hessian 2 (fun t i => match t, i with O, O => 1 | O, _ => 2 | _, O => 3 | _, _ => 1 end) 0%nat 1%nat = 5.
Proof. unfold approximate_hessian, bsum, sumf. simpl. lra. Qed.

Print Assumptions C45_value.
Print Assumptions C45_matrix.
Print Assumptions C46_onehot_partial.
Print Assumptions C47_rows_accumulate_partial.
Print Assumptions C48_reserved_partial.
Print Assumptions C94_symposdef_partial.
Print Assumptions C94_negative_matrices_refuted.
Print Assumptions C95_hessian.
