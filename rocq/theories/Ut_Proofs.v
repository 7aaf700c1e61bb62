(** Lemmas on the utility functions. *)
From Coq Require Import Reals List ZArith Arith Bool String Lia Lra Permutation.
From Verif Require Import Prelude Vec Gibbs Mat Ut_Model Ut_Spec.
Import ListNotations.
Local Open Scope R_scope.

(** ** logsumexp *)
Definition ele (x y : ext) : Prop :=
  match x, y with
  | _, ENaN => True
  | ENaN, _ => False
  | _, EPInf => True
  | EPInf, _ => False
  | ENInf, _ => True
  | EFin _, ENInf => False
  | EFin a, EFin b => a <= b
  end.

Lemma ele_refl x : ele x x. Proof. destruct x; simpl; auto; lra. Qed.
Lemma ele_trans x y z : ele x y -> ele y z -> ele x z.
Proof. destruct x, y, z; simpl; auto; try tauto; lra. Qed.
Lemma emax_l x y : ele x (emax x y).
Proof. destruct x, y; simpl; auto; try lra. apply Rmax_l. Qed.
Lemma emax_r x y : ele y (emax x y).
Proof. destruct x, y; simpl; auto; try lra. apply Rmax_r. Qed.
Lemma emax_in x y : emax x y = x \/ emax x y = y.
Proof. destruct x, y; simpl; auto. unfold Rmax. destruct (Rle_dec r r0); auto. Qed.

Lemma fold_emax l : forall x, In (fold_left emax l x) (x :: l) /\
  forall y, In y (x :: l) -> ele y (fold_left emax l x).
Proof.
  induction l as [|z l IH]; intros x; cbn [fold_left].
  - split; [now left|]. intros y [<-|[]]. apply ele_refl.
  - destruct (IH (emax x z)) as (H1 & H2). split.
    + destruct H1 as [<-|H1]; [|right; right; auto].
      destruct (emax_in x z) as [->| ->]; [now left|right; now left].
    + intros y [<-|[<-|Hy]].
      * eapply ele_trans; [apply emax_l|]. apply H2. now left.
      * eapply ele_trans; [apply emax_r|]. apply H2. now left.
      * apply H2. now right.
Qed.

Lemma slice_max_ok l : l <> [] -> exists m, slice_max l = Ok m /\ In m l /\ forall y, In y l -> ele y m.
Proof.
  destruct l as [|x l]; [congruence|]. intros _. exists (fold_left emax l x).
  split; [reflexivity|]. apply fold_emax.
Qed.

Lemma regular_max l : regular l -> exists m, slice_max l = Ok (EFin m) /\ In (EFin m) l /\
  Forall (fun x => x = ENInf \/ exists r, x = EFin r /\ r <= m) l.
Proof.
  intros (H1 & H2 & r & H3). destruct (slice_max_ok l) as (m & E & Hin & Hle).
  { intros ->. destruct H3. }
  destruct m as [| |m|]; try tauto.
  - specialize (Hle _ H3). simpl in Hle. tauto.
  - exists m. split; auto. split; auto. apply Forall_forall. intros x Hx. specialize (Hle x Hx).
    destruct x as [| |a|]; try tauto; simpl in Hle; try tauto.
    right. exists a. auto.
Qed.

Lemma sum_exp_args l m acc : Forall (fun x => x = ENInf \/ exists r, x = EFin r /\ r <= m) l ->
  fold_left eadd (map eexp (lse_args l (EFin m))) (EFin acc) = EFin (acc + exp (- m) * sumf mass l).
Proof.
  intros H. revert acc. induction H as [|x l Hx Hl IH]; intros acc.
  - unfold sumf. simpl. f_equal. ring.
  - unfold lse_args in *. cbn [map fold_left]. rewrite sumf_cons.
    destruct Hx as [->|(r & -> & Hr)]; cbn [esub eexp eadd mass]; rewrite IH; f_equal; [ring|].
    replace (r - m) with (r + - m) by ring. rewrite exp_plus. ring.
Qed.

Lemma mass_nonneg x : 0 <= mass x.
Proof. destruct x; simpl; try lra. left. apply exp_pos. Qed.

Lemma mass_sum_pos l r : In (EFin r) l -> 0 < sumf mass l.
Proof.
  intros H. induction l as [|x l IH]; [destruct H|]. rewrite sumf_cons.
  assert (0 <= sumf mass l) by (apply sumf_nonneg; intros; apply mass_nonneg).
  destruct H as [->|H].
  - simpl. assert (E := exp_pos r). lra.
  - specialize (IH H). assert (M := mass_nonneg x). lra.
Qed.

Lemma elog_pos r : 0 < r -> elog (EFin r) = EFin (ln r).
Proof. intros H. simpl. destruct (total_order_T 0 r) as [[?|?]|?]; auto; lra. Qed.

Lemma logsumexp_regular l : regular l -> logsumexp l = Ok (EFin (ln (sumf mass l))).
Proof.
  intros H. destruct (regular_max l H) as (m & E & Hin & Hle). unfold logsumexp. rewrite E. cbn [bindr].
  rewrite sum_exp_args by auto. rewrite Rplus_0_l.
  assert (P := mass_sum_pos l m Hin). assert (Q := exp_pos (- m)).
  rewrite elog_pos by (now apply Rmult_lt_0_compat). cbn [eadd]. f_equal. f_equal.
  rewrite ln_mult by auto. rewrite ln_exp. ring.
Qed.

Lemma all_ninf_or l : ~ In ENaN l -> ~ In EPInf l -> ~ Forall (eq ENInf) l -> regular l.
Proof.
  intros H1 H2 H3. split; auto. split; auto. induction l as [|x l IH]; [destruct H3; constructor|].
  destruct x as [| |r|].
  - destruct H1; now left.
  - destruct IH as (r & Hr).
    + intros A; apply H1; now right.
    + intros A; apply H2; now right.
    + intros A; apply H3. now constructor.
    + exists r. now right.
  - exists r. now left.
  - destruct H2; now left.
Qed.

Lemma logsumexp_spec l : l <> [] -> exists v, logsumexp l = Ok v /\ lse_spec l v.
Proof.
  intros Hne. destruct (slice_max_ok l Hne) as (m & E & Hin & Hle).
  exists (match logsumexp l with Ok v => v | Err _ => ENaN end). split.
  { unfold logsumexp. rewrite E. reflexivity. }
  split; [|split; [|split]].
  - intros Hn. specialize (Hle _ Hn). destruct m; simpl in Hle; try tauto.
    unfold logsumexp. rewrite E. reflexivity.
  - intros Hn Hp. specialize (Hle _ Hp). destruct m; simpl in Hle; try tauto.
    unfold logsumexp. rewrite E. reflexivity.
  - intros Ha. rewrite Forall_forall in Ha. rewrite <- (Ha m Hin) in E.
    unfold logsumexp. rewrite E. reflexivity.
  - intros H1 H2 H3. rewrite logsumexp_regular; auto. now apply all_ninf_or.
Qed.

(** ** Eigenvalue flooring *)
Lemma mvm_mT_dot n (V : fm) x k : mvm n (mT V) x k = bsum n (fun i => V i k * x i).
Proof. reflexivity. Qed.

Lemma spectral_get n V d i j :
  mmul n (mmul n V (diagm d)) (mT V) i j = bsum n (fun k => d k * (V i k * V j k)).
Proof.
  unfold mmul at 1. apply bsum_ext. intros k Hk. unfold mmul, mT.
  rewrite (bsum_single n _ k) by (auto; intros m Hm Hmk; unfold diagm; (destruct (Nat.eq_dec m k); [congruence|ring])).
  unfold diagm. destruct (Nat.eq_dec k k); [ring|congruence].
Qed.

Lemma spectral_quad n V d x :
  quad n (mmul n (mmul n V (diagm d)) (mT V)) x = bsum n (fun k => d k * (mvm n (mT V) x k) ^ 2).
Proof.
  unfold quad, dotf.
  rewrite (bsum_ext n _ (fun i => bsum n (fun j => bsum n (fun k => x i * (d k * (V i k * V j k)) * x j)))).
  2:{ intros i Hi. unfold mvm. rewrite <- bsum_scal. apply bsum_ext. intros j Hj. rewrite spectral_get.
      rewrite <- bsum_scal_r, <- bsum_scal. apply bsum_ext. intros k Hk. ring. }
  rewrite (bsum_ext n _ (fun i => bsum n (fun k => bsum n (fun j => x i * (d k * (V i k * V j k)) * x j)))).
  2:{ intros i Hi. apply bsum_swap. }
  rewrite bsum_swap. apply bsum_ext. intros k Hk.
  rewrite mvm_mT_dot. simpl. rewrite Rmult_1_r.
  rewrite <- bsum_scal_r, <- bsum_scal. apply bsum_ext. intros i Hi.
  rewrite <- !bsum_scal. apply bsum_ext. intros j Hj. ring.
Qed.

Lemma orth_norm n V x : meq n (mmul n V (mT V)) idm ->
  bsum n (fun k => (mvm n (mT V) x k) ^ 2) = dotf n x x.
Proof.
  intros H. transitivity (dotf n x (mvm n (mmul n V (mT V)) x)).
  - rewrite (dotf_ext n x x _ (mvm n V (mvm n (mT V) x))); auto.
    + rewrite dotf_mvm_T. unfold dotf. apply bsum_ext. intros. ring.
    + intros i Hi. apply mvm_mmul.
  - apply dotf_ext; auto. intros i Hi. rewrite (mvm_ext n _ idm x x i); auto. now apply mvm_idm.
Qed.

Lemma dotf_self_pos n x : nonzero n x -> 0 < dotf n x x.
Proof.
  intros (i & Hi & Hx). unfold dotf.
  apply Rlt_le_trans with (x i * x i); [nra|].
  apply (bsum_ge_term n (fun i => x i * x i)); auto. intros; nra.
Qed.

(** ** jacobians *)
Definition grad_prefix (grads : nat -> nat -> option (list R)) (j : nat) (rows : list nat) (a : option (list R)) :=
  fold_left (fun a i => add_grad a (grads i j)) rows a.

Lemma mapM_ok_length {A B} (f : A -> result B) l r : mapM f l = Ok r -> List.length r = List.length l.
Proof.
  revert r. induction l as [|x l IH]; simpl; intros r H; [now injection H as <-|].
  destruct (f x); simpl in H; [|discriminate]. destruct (mapM f l) eqn:E; simpl in H; [|discriminate].
  injection H as <-. simpl. now rewrite (IH _ eq_refl).
Qed.
Lemma mapM_ok_nth {A B} (f : A -> result B) l r k da db : mapM f l = Ok r -> (k < List.length l)%nat ->
  f (nth k l da) = Ok (nth k r db).
Proof.
  revert r k. induction l as [|x l IH]; simpl; intros r k H Hk; [lia|].
  destruct (f x) eqn:Ex; simpl in H; [|discriminate]. destruct (mapM f l) eqn:E; simpl in H; [|discriminate].
  injection H as <-. destruct k; simpl; auto. apply (IH _ k eq_refl). lia.
Qed.

Lemma jac_loop_spec grads n_in : forall rows acc M,
  List.length acc = n_in -> jac_loop grads (seq 0 n_in) rows acc = Ok M ->
  List.length M = List.length rows /\
  forall k j, (k < List.length rows)%nat -> (j < n_in)%nat ->
    grad_prefix grads j (firstn (S k) rows) (nth j acc None) = Some (nth j (nth k M []) []).
Proof.
  induction rows as [|i rows IH]; intros acc M Ha HM.
  - injection HM as <-. split; auto. intros k j Hk. simpl in Hk. lia.
  - cbn [jac_loop] in HM. set (acc' := map2 _ acc _) in HM.
    destruct (mapM read_grad acc') as [row|e] eqn:Er; [|discriminate]. cbn [bindr] in HM.
    destruct (jac_loop grads (seq 0 n_in) rows acc') as [rest|e] eqn:El; [|discriminate]. injection HM as <-.
    assert (La : List.length acc' = n_in) by (unfold acc'; rewrite map2_length, seq_length; lia).
    destruct (IH acc' rest La El) as (L1 & L2).
    assert (Hn : forall j, (j < n_in)%nat -> nth j acc' None = add_grad (nth j acc None) (grads i j)).
    { intros j Hj. unfold acc'. rewrite (map2_nth _ _ _ j None 0%nat None) by (rewrite ?seq_length; lia).
      now rewrite seq_nth. }
    split; [simpl; now rewrite L1|]. intros k j Hk Hj. destruct k as [|k].
    + cbn [firstn nth]. unfold grad_prefix. cbn [fold_left].
      assert (R := mapM_ok_nth read_grad acc' row j None [] Er ltac:(lia)). rewrite Hn in R by auto.
      destruct (add_grad (nth j acc None) (grads i j)) eqn:G; simpl in R; [|discriminate]. congruence.
    + cbn [nth]. rewrite <- (L2 k j) by (simpl in Hk; lia). cbn [firstn]. unfold grad_prefix. cbn [fold_left].
      now rewrite Hn.
Qed.

Lemma jac_loop_total grads n_in : forall rows acc, List.length acc = n_in ->
  (forall j, (j < n_in)%nat -> forall i, In i rows -> exists v, grads i j = Some v) ->
  exists M, jac_loop grads (seq 0 n_in) rows acc = Ok M.
Proof.
  induction rows as [|i rows IH]; intros acc Ha Hg; [now exists []|].
  cbn [jac_loop]. set (acc' := map2 _ acc _).
  assert (La : List.length acc' = n_in) by (unfold acc'; rewrite map2_length, seq_length; lia).
  assert (Hn : forall j, (j < n_in)%nat -> nth j acc' None = add_grad (nth j acc None) (grads i j)).
  { intros j Hj. unfold acc'. rewrite (map2_nth _ _ _ j None 0%nat None) by (rewrite ?seq_length; lia).
    now rewrite seq_nth. }
  assert (HA : Forall (fun a => exists v, a = Some v) acc').
  { apply Forall_forall. intros a Hin. destruct (In_nth _ _ None Hin) as (j & Hj & <-). rewrite La in Hj.
    rewrite Hn by auto. destruct (Hg j Hj i ltac:(now left)) as (v & ->).
    destruct (nth j acc None); simpl; eauto. }
  destruct (IH acc' La) as (rest & Hr).
  { intros j Hj k Hk. apply Hg; auto. now right. }
  assert (Hm : exists row, mapM read_grad acc' = Ok row).
  { clear -HA. induction HA as [|a l (v & ->) Hl (row & IH)]; [now exists []|]. simpl. rewrite IH. simpl. eauto. }
  destruct Hm as (row & Hm). exists (row :: rest). rewrite Hm. cbn [bindr]. now rewrite Hr.
Qed.

(** ** reserve_gpu *)
Lemma not_in_spec g l : not_in g l = true <-> ~ In g l.
Proof.
  unfold not_in. rewrite negb_true_iff. split.
  - intros H Hin. assert (E : existsb (String.eqb g) l = true); [|congruence].
    apply existsb_exists. exists g. split; auto. apply String.eqb_refl.
  - intros H. apply not_true_is_false. intros E. apply existsb_exists in E. destruct E as (x & Hx & Hg).
    apply String.eqb_eq in Hg. now subst.
Qed.

Lemma gpu_for_spec env t gs ev r : incl gs (gpus env) -> gpu_for env true t gs = (ev, r) ->
  (forall e, In e ev -> exists i ok, e = Attempt t i ok /\ tried env t i ok) /\
  polls ev = 0%nat /\
  match r with
  | None => False
  | Some None => (forall i, ~ In (Attempt t i true) ev) /\
                 forall u i, In (u, i) gs -> ~ In u (active env t) -> alloc_ok env t i = false
  | Some (Some i) => exists ev0, ev = ev0 ++ [Attempt t i true] /\ forall i', ~ In (Attempt t i' true) ev0
  end.
Proof.
  revert ev r. induction gs as [|[u i] gs IH]; intros ev r Hi H.
  - injection H as <- <-. split; [intros e []|]. split; [reflexivity|]. split; [intros i []|intros u i []].
  - assert (Hi' : incl gs (gpus env)) by (intros x Hx; apply Hi; now right).
    assert (Hin : In (u, i) (gpus env)) by (apply Hi; now left).
    cbn [gpu_for negb] in H. destruct (not_in u (active env t)) eqn:A.
    + apply not_in_spec in A. destruct (alloc_ok env t i) eqn:Ok1.
      * injection H as <- <-. split; [|split; [reflexivity|]].
        -- intros e [<-|[]]. exists i, true. split; auto. exists u. auto.
        -- exists []. split; auto.
      * destruct (gpu_for env true t gs) as [ev1 r1]. injection H as <- <-.
        destruct (IH ev1 r1 Hi' eq_refl) as (E1 & E2 & E3). split; [|split].
        -- intros e [<-|He]; [|now apply E1]. exists i, false. split; auto. exists u. auto.
        -- exact E2.
        -- destruct r1 as [[j|]|]; [|split|exact E3].
           ++ destruct E3 as (ev0 & -> & N). exists (Attempt t i false :: ev0). split; [reflexivity|].
              intros i' [X|X]; [discriminate|now apply (N i')].
           ++ intros i' [X|X]; [discriminate|]. now apply (proj1 E3 i').
           ++ intros u' i' [X|X] Ha; [injection X as <- <-; auto|]. now apply (proj2 E3 u').
    + destruct (IH ev r Hi' H) as (E1 & E2 & E3). split; auto. split; auto.
      destruct r as [[j|]|]; [exact E3|split|exact E3]; [apply E3|].
      intros u' i' [X|X] Ha; [|now apply (proj2 E3 u')]. injection X as <- <-.
      apply not_in_spec in Ha. congruence.
Qed.

Lemma polls_app l m : polls (l ++ m) = (polls l + polls m)%nat.
Proof. unfold polls. rewrite filter_app, app_length. reflexivity. Qed.

Lemma gpu_while_spec env : forall fuel t ev o, gpu_while env true fuel t = (ev, o) ->
  (polls ev <= fuel)%nat /\
  (forall t' i ok, In (Attempt t' i ok) ev -> (t <= t' < t + fuel)%nat /\ tried env t' i ok) /\
  match o with
  | Reserved i => exists t' ev0, (t <= t' < t + fuel)%nat /\ ev = ev0 ++ [Attempt t' i true] /\ tried env t' i true /\
                    forall t'' i', ~ In (Attempt t'' i' true) ev0
  | NoGPU => polls ev = fuel /\ (forall t' i, ~ In (Attempt t' i true) ev) /\
             forall t' u i, (t <= t' < t + fuel)%nat -> In (u, i) (gpus env) -> ~ In u (active env t') ->
               alloc_ok env t' i = false
  | Crash _ => False
  end.
Proof.
  induction fuel as [|fuel IH]; intros t ev o H.
  - injection H as <- <-. split; [auto|]. split; [intros ? ? ? []|]. split; [reflexivity|]. split; [intros ? ? []|].
    intros. lia.
  - cbn [gpu_while negb] in H. destruct (gpu_for env true t (gpus env)) as [ev1 r] eqn:E.
    destruct (gpu_for_spec env t _ ev1 r (incl_refl _) E) as (E1 & E2 & E3).
    assert (In1 : forall t' i ok, In (Attempt t' i ok) ev1 -> t' = t /\ tried env t i ok).
    { intros t' i ok Hin. destruct (E1 _ Hin) as (j & ok' & X & T). injection X as -> -> ->. auto. }
    destruct r as [[i|]|]; [| |destruct E3].
    + injection H as <- <-. split; [change (polls (Poll t :: ev1)) with (S (polls ev1)); lia|]. split.
      * intros t' i' ok [X|X]; [discriminate|]. destruct (In1 _ _ _ X) as (-> & T). split; [lia|auto].
      * destruct E3 as (ev0 & -> & N). exists t, (Poll t :: ev0). split; [lia|]. split; [reflexivity|]. split.
        -- apply (In1 t i true). apply in_or_app. right. now left.
        -- intros t'' i' [X|X]; [discriminate|]. destruct (In1 t'' i' true) as (-> & _); [apply in_or_app; now left|].
           now apply (N i').
    + destruct (gpu_while env true fuel (S t)) as [ev2 o2] eqn:E4. injection H as <- <-.
      destruct (IH (S t) ev2 o2 E4) as (W1 & W2 & W3).
      assert (PL : polls (Poll t :: ev1 ++ Sleep :: ev2) = S (polls ev2)).
      { change (polls (Poll t :: ev1 ++ Sleep :: ev2)) with (S (polls (ev1 ++ Sleep :: ev2))).
        rewrite polls_app, E2. reflexivity. }
      destruct E3 as (N1 & N2).
      assert (SPLIT : forall t' i ok, In (Attempt t' i ok) (Poll t :: ev1 ++ Sleep :: ev2) ->
                In (Attempt t' i ok) ev1 \/ In (Attempt t' i ok) ev2).
      { intros t' i ok [X|X]; [discriminate|]. apply in_app_or in X. destruct X as [X|[X|X]]; auto. discriminate. }
      split; [rewrite PL; lia|]. split.
      * intros t' i ok X. destruct (SPLIT _ _ _ X) as [Y|Y].
        -- destruct (In1 _ _ _ Y) as (-> & T). split; [lia|auto].
        -- destruct (W2 _ _ _ Y) as (Z & T). split; [lia|auto].
      * destruct o2 as [i| |e]; [| |exact W3].
        -- destruct W3 as (t' & ev0 & Ht & -> & T & N). exists t', (Poll t :: ev1 ++ Sleep :: ev0).
           split; [lia|]. split; [simpl; now rewrite <- app_assoc|]. split; auto.
           intros t'' i' [X|X]; [discriminate|]. apply in_app_or in X. destruct X as [X|[X|X]]; [|discriminate|].
           ++ destruct (In1 _ _ _ X) as (-> & _). now apply (N1 i').
           ++ now apply (N t'' i').
        -- destruct W3 as (P & N & A). split; [rewrite PL; lia|]. split.
           ++ intros t' i X. destruct (SPLIT _ _ _ X) as [Y|Y].
              ** destruct (In1 _ _ _ Y) as (-> & _). now apply (N1 i).
              ** now apply (N t' i).
           ++ intros t' u i Ht Hin Ha. destruct (Nat.eq_dec t' t) as [->|Hne].
              ** now apply (N2 u).
              ** apply (A t' u); auto. lia.
Qed.

Lemma gpu_for_nolog env t gs : exists ev, ev = [] /\
  (gpu_for env false t gs = (ev, None) \/ gpu_for env false t gs = (ev, Some None)).
Proof.
  exists []. split; auto. induction gs as [|[u i] gs IH]; [now right|].
  cbn [gpu_for negb]. destruct (not_in u (active env t)); [now left|exact IH].
Qed.
