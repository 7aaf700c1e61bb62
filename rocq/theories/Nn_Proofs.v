(** Lemmas on the neural network models. *)
From Coq Require Import Reals List Arith Bool Ascii Lia Lra.
From Verif Require Import Prelude Vec Mat Dist_Spec Nn_Model Nn_Spec.
Import ListNotations.
Local Open Scope R_scope.

(** ** Masks *)
Lemma linear_fwd_length l x : length (linear_fwd l x) = Nat.min (length (weight l)) (length (bias l)).
Proof. unfold linear_fwd. now rewrite map2_length. Qed.

Lemma masked_fwd_length mask l x : length (masked_fwd mask l x) =
  Nat.min (Nat.min (length (weight l)) (length mask)) (length (bias l)).
Proof. unfold masked_fwd. rewrite linear_fwd_length. simpl. now rewrite map2_length. Qed.

Lemma dot_masked_ext (w m x x' : list R) : length x = length x' ->
  (forall j, (j < length m)%nat -> nth j m 0 <> 0 -> nth j x 0 = nth j x' 0) ->
  dot (vmul w m) x = dot (vmul w m) x'.
Proof.
  revert m x x'. induction w as [|a w IH]; intros m x x' Hl H; [reflexivity|].
  destruct m as [|b m]; [reflexivity|]. destruct x as [|y x], x' as [|y' x']; simpl in Hl; try discriminate; [reflexivity|].
  unfold dot, vmul in *. cbn [map2 rsum]. f_equal.
  - destruct (Req_dec b 0) as [->|Hb]; [ring|]. specialize (H 0%nat ltac:(simpl; lia) Hb). simpl in H. now rewrite H.
  - apply IH; [lia|]. intros j Hj Hn. apply (H (S j)); [simpl; lia|exact Hn].
Qed.

Lemma masked_nth_ext mask l x x' i : length x = length x' ->
  (forall j, (j < length (nth i mask []))%nat -> nth j (nth i mask []) 0 <> 0 -> nth j x 0 = nth j x' 0) ->
  nth i (masked_fwd mask l x) 0 = nth i (masked_fwd mask l x') 0.
Proof.
  intros Hl H.
  destruct (Nat.lt_ge_cases i (length (masked_fwd mask l x))) as [Hi|Hi].
  - assert (Hi2 := Hi). rewrite masked_fwd_length in Hi2. unfold masked_fwd, linear_fwd. cbn [weight bias].
    rewrite !(map2_nth _ _ _ i [] 0 0) by (rewrite ?map2_length; lia). f_equal.
    rewrite (map2_nth vmul _ _ i [] [] []) by lia. now apply dot_masked_ext.
  - rewrite !nth_overflow; auto. rewrite masked_fwd_length in *. exact Hi.
Qed.

Lemma create_mask_nth ordering conns i j : (i < length conns)%nat -> (j < length ordering)%nat ->
  nth j (nth i (create_mask ordering conns) []) 0 = if (nth j ordering 0 <=? nth i conns 0)%nat then 1 else 0.
Proof.
  intros Hi Hj. unfold create_mask. rewrite (map_nth_lt _ _ _ 0%nat []) by auto.
  rewrite (map_nth_lt _ _ _ 0%nat 0) by auto. rewrite !Nat.add_1_r. reflexivity.
Qed.
Lemma create_final_mask_nth ordering conns i j : (i < length ordering)%nat -> (j < length conns)%nat ->
  nth j (nth i (create_final_mask ordering conns) []) 0 = if (nth j conns 0 <? nth i ordering 0)%nat then 1 else 0.
Proof.
  intros Hi Hj. unfold create_final_mask. rewrite (map_nth_lt _ _ _ 0%nat []) by auto.
  rewrite (map_nth_lt _ _ _ 0%nat 0) by auto. rewrite !Nat.add_1_r. reflexivity.
Qed.
Lemma mask_row_length ordering conns i : (i < length conns)%nat ->
  length (nth i (create_mask ordering conns) []) = length ordering.
Proof. intros Hi. unfold create_mask. rewrite (map_nth_lt _ _ _ 0%nat []) by auto. now rewrite map_length. Qed.
Lemma final_mask_row_length ordering conns i : (i < length ordering)%nat ->
  length (nth i (create_final_mask ordering conns) []) = length conns.
Proof. intros Hi. unfold create_final_mask. rewrite (map_nth_lt _ _ _ 0%nat []) by auto. now rewrite map_length. Qed.

(** Units of order below c agree *)
Definition units_agree (c : nat) (ordering : list nat) (h h' : list R) : Prop :=
  length h = length h' /\ forall j, (j < length ordering)%nat -> (nth j ordering 0 < c)%nat -> nth j h 0 = nth j h' 0.

Lemma hidden_agree act c : forall layers ordering extra h h', units_agree c ordering h h' ->
  units_agree c (last_conns ordering layers) (hidden_fwd act ordering layers extra h)
    (hidden_fwd act ordering layers extra h').
Proof.
  induction layers as [|[conns l] layers IH]; intros ordering extra h h' (Hl & H); [split; auto|].
  cbn [hidden_fwd last_conns]. apply IH.
  assert (Z : forall i, (i < length conns)%nat -> (nth i conns 0 < c)%nat ->
    nth i (masked_fwd (create_mask ordering conns) l h) 0 = nth i (masked_fwd (create_mask ordering conns) l h') 0).
  { intros i Hi Hc. apply masked_nth_ext; auto. intros j Hj Hn. rewrite mask_row_length in Hj by auto.
    rewrite create_mask_nth in Hn by auto. destruct (Nat.leb_spec (nth j ordering 0%nat) (nth i conns 0%nat)); [|congruence].
    apply H; auto. lia. }
  assert (L : length (masked_fwd (create_mask ordering conns) l h) = length (masked_fwd (create_mask ordering conns) l h'))
    by (now rewrite !masked_fwd_length).
  set (z := masked_fwd _ l h) in *. set (z' := masked_fwd _ l h') in *.
  assert (A : forall u u' : list R, length u = length u' ->
     (forall i, (i < length conns)%nat -> (nth i conns 0 < c)%nat -> nth i u 0 = nth i u' 0) ->
     units_agree c conns (map act u) (map act u')).
  { intros u u' Lu Hu. split; [now rewrite !map_length|]. intros j Hj Hc. specialize (Hu j Hj Hc).
    destruct (Nat.lt_ge_cases j (length u)).
    - rewrite !(map_nth_lt act _ _ 0 0) by lia. now rewrite Hu.
    - rewrite !nth_overflow; auto; rewrite map_length; lia. }
  apply A; destruct extra as [e|]; auto.
  - unfold vadd. now rewrite !map2_length, L.
  - intros i Hi Hc. specialize (Z i Hi Hc). unfold vadd.
    destruct (Nat.lt_ge_cases i (Nat.min (length z) (length e))).
    + rewrite !(map2_nth Rplus _ _ i 0 0 0) by lia. now rewrite Z.
    + rewrite !nth_overflow; auto; rewrite map2_length; lia.
Qed.

Lemma map2_nth_ext {A B} (f : A -> B -> R) (l l' : list A) (m m' : list B) i da db :
  length l = length l' -> length m = length m' -> nth i l da = nth i l' da -> nth i m db = nth i m' db ->
  nth i (map2 f l m) 0 = nth i (map2 f l' m') 0.
Proof.
  intros H1 H2 H3 H4. destruct (Nat.lt_ge_cases i (Nat.min (length l) (length m))).
  - rewrite !(map2_nth f _ _ i da db 0) by lia. now rewrite H3, H4.
  - rewrite !nth_overflow; auto; rewrite map2_length; lia.
Qed.

Lemma map_nth_ext (f : R -> R) l l' i : length l = length l' -> nth i l 0 = nth i l' 0 ->
  nth i (map f l) 0 = nth i (map f l') 0.
Proof.
  intros H1 H2. destruct (Nat.lt_ge_cases i (length l)).
  - rewrite !(map_nth_lt f _ _ 0 0) by lia. now rewrite H2.
  - rewrite !nth_overflow; auto; rewrite map_length; lia.
Qed.

Lemma arnet_autoregressive act net flow d x x' : agree d x x' ->
  nth d (fst (arnet_fwd act net x flow)) 0 = nth d (fst (arnet_fwd act net x' flow)) 0 /\
  nth d (snd (arnet_fwd act net x flow)) 0 = nth d (snd (arnet_fwd act net x' flow)) 0.
Proof.
  intros (Hl & Ha). unfold arnet_fwd. set (ordering := seq 0 (an_dim net)).
  set (extra := match an_flow net with None => None | Some l => _ end).
  destruct (hidden_agree act d (an_layers net) ordering extra x x') as (L & H).
  { split; auto. intros j Hj Hd. unfold ordering in *. rewrite seq_length in Hj. rewrite seq_nth in Hd by auto.
    now apply Ha. }
  set (h := hidden_fwd _ _ _ _ x) in *. set (h' := hidden_fwd _ _ _ _ x') in *.
  set (conns := last_conns _ _) in *. unfold ar_normal_fwd. cbn [fst snd].
  assert (M : forall l, nth d (masked_fwd (create_final_mask ordering conns) l h) 0 =
                        nth d (masked_fwd (create_final_mask ordering conns) l h') 0).
  { intros l. destruct (Nat.lt_ge_cases d (length ordering)) as [Hd|Hd].
    - apply masked_nth_ext; auto. intros j Hj Hn. rewrite final_mask_row_length in Hj by auto.
      rewrite create_final_mask_nth in Hn by auto. destruct (Nat.ltb_spec (nth j conns 0%nat) (nth d ordering 0%nat)) as [Hlt|]; [|congruence].
      apply H; auto. unfold ordering in Hlt, Hd. rewrite seq_length in Hd. rewrite seq_nth in Hlt by auto. lia.
    - rewrite !nth_overflow; auto; rewrite masked_fwd_length; unfold create_final_mask; rewrite map_length; lia. }
  split.
  - apply (map2_nth_ext _ _ _ _ _ d 0 0); rewrite ?map_length, ?masked_fwd_length; auto.
    apply map_nth_ext; [now rewrite !masked_fwd_length|apply M].
  - apply map_nth_ext; [now rewrite !masked_fwd_length|apply M].
Qed.

Lemma sigmoid_bounds x : 0 < sigmoid x < 1.
Proof.
  unfold sigmoid. assert (E := exp_pos (- x)). split; [apply Rinv_0_lt_compat; lra|].
  rewrite <- Rinv_1. apply Rinv_lt_contravar; lra.
Qed.

Lemma arnet_variance act net x flow : Forall (fun v => / 100 < v < 1 + / 100) (snd (arnet_fwd act net x flow)).
Proof.
  unfold arnet_fwd, ar_normal_fwd. cbn [snd]. apply Forall_forall. intros v Hv. apply in_map_iff in Hv.
  destruct Hv as (lv & <- & _). assert (S := sigmoid_bounds lv). lra.
Qed.

Lemma arnet_lengths act net x flow : wf_arnet net ->
  length (fst (arnet_fwd act net x flow)) = an_dim net /\ length (snd (arnet_fwd act net x flow)) = an_dim net.
Proof.
  intros (_ & _ & _ & (M1 & _ & M2) & (V1 & _ & V2)). unfold arnet_fwd, ar_normal_fwd. cbn [fst snd].
  rewrite map2_length, !map_length, !masked_fwd_length. unfold create_final_mask.
  rewrite !map_length, seq_length. lia.
Qed.

(** ** Flow steps *)
Lemma upd_length j t x : (j < length x)%nat -> length (upd j t x) = length x.
Proof. intros H. unfold upd. rewrite app_length, firstn_length. cbn [length]. rewrite skipn_length. lia. Qed.
Lemma upd_same j t x : (j < length x)%nat -> nth j (upd j t x) 0 = t.
Proof.
  intros H. unfold upd. rewrite app_nth2 by (rewrite firstn_length; lia). rewrite firstn_length.
  replace (j - Nat.min j (length x))%nat with 0%nat by lia. reflexivity.
Qed.
Lemma upd_other j k t x : (j < length x)%nat -> k <> j -> nth k (upd j t x) 0 = nth k x 0.
Proof.
  unfold upd. revert j k. induction x as [|y x IH]; intros j k H Hk; [simpl in H; lia|].
  destruct j as [|j]; [destruct k; [congruence|reflexivity]|].
  destruct k as [|k]; [reflexivity|]. cbn [firstn skipn app nth]. apply IH; simpl in H; lia.
Qed.
Lemma upd_agree j d t x : (j < length x)%nat -> (d <= j)%nat -> agree d (upd j t x) x.
Proof.
  intros H Hd. split; [now apply upd_length|]. intros k Hk. apply upd_other; [auto|lia].
Qed.
Lemma agree_sym d x x' : agree d x x' -> agree d x' x.
Proof. intros (A & B). split; auto. intros j Hj. now rewrite B. Qed.

Lemma flow_step_nth n s x d : autoregressive n s -> length x = n -> (d < n)%nat ->
  nth d (flow_step s x) 0 = nth d (fst (s x)) 0 + sqrt (nth d (snd (s x)) 0) * nth d x 0.
Proof.
  intros H Hx Hd. destruct (H x Hx) as (L1 & L2 & _). unfold flow_step. destruct (s x) as [m v]. cbn [fst snd] in *.
  unfold vadd, vmul. rewrite (map2_nth Rplus _ _ d 0 0 0) by (rewrite ?map2_length, ?map_length; lia).
  rewrite (map2_nth Rmult _ _ d 0 0 0) by (rewrite ?map_length; lia).
  now rewrite (map_nth_lt sqrt _ _ 0 0) by lia.
Qed.
Lemma flow_step_length n s x : autoregressive n s -> length x = n -> length (flow_step s x) = n.
Proof.
  intros H Hx. destruct (H x Hx) as (L1 & L2 & _). unfold flow_step. destruct (s x) as [m v]. cbn [fst snd] in *.
  unfold vadd, vmul. rewrite !map2_length, map_length. lia.
Qed.
Lemma step_var_pos n s x d : autoregressive n s -> length x = n -> (d < n)%nat -> 0 < nth d (snd (s x)) 0.
Proof.
  intros H Hx Hd. destruct (H x Hx) as (_ & L2 & P & _). rewrite Forall_forall in P. apply P. apply nth_In. lia.
Qed.

Lemma flow_step_above n s x d j t : autoregressive n s -> length x = n -> (j < n)%nat -> (d < j)%nat ->
  nth d (flow_step s (upd j t x)) 0 = nth d (flow_step s x) 0.
Proof.
  intros H Hx Hj Hd. assert (Lu : length (upd j t x) = n) by (rewrite upd_length; lia).
  rewrite !(flow_step_nth n) by (auto; lia).
  destruct (H (upd j t x) Lu) as (_ & _ & _ & A). destruct (A x d) as (-> & ->); [apply upd_agree; lia|].
  rewrite upd_other by lia. reflexivity.
Qed.
Lemma flow_step_diag n s x d t : autoregressive n s -> length x = n -> (d < n)%nat ->
  nth d (flow_step s (upd d t x)) 0 = nth d (fst (s x)) 0 + sqrt (nth d (snd (s x)) 0) * t.
Proof.
  intros H Hx Hd. assert (Lu : length (upd d t x) = n) by (rewrite upd_length; lia).
  rewrite (flow_step_nth n) by auto.
  destruct (H (upd d t x) Lu) as (_ & _ & _ & A). destruct (A x d) as (-> & ->); [apply upd_agree; lia|].
  rewrite upd_same by lia. reflexivity.
Qed.

Lemma flow_step_injective n s x x' : autoregressive n s -> length x = n -> length x' = n ->
  flow_step s x = flow_step s x' -> x = x'.
Proof.
  intros H Hx Hx' E.
  assert (P : forall d, (d <= n)%nat -> agree d x x').
  { induction d as [|d IH]; intros Hd; [split; [lia|intros; lia]|]. destruct (IH ltac:(lia)) as (L & A).
    split; auto. intros j Hj. destruct (Nat.eq_dec j d) as [->|]; [|apply A; lia].
    assert (E1 := f_equal (fun l => nth d l 0) E). cbv beta in E1.
    rewrite !(flow_step_nth n) in E1 by (auto; lia).
    destruct (H x Hx) as (_ & _ & _ & B). destruct (B x' d) as (B1 & B2); [split; auto|].
    rewrite B1, B2 in E1. assert (V := step_var_pos n s x' d H Hx' ltac:(lia)).
    assert (S := sqrt_lt_R0 _ V).
    apply (Rmult_eq_reg_l (sqrt (nth d (snd (s x')) 0))); lra. }
  apply vec_ext; [lia|]. intros k Hk. apply (P n); lia.
Qed.

Lemma flow_step_surjective n s y : autoregressive n s -> length y = n ->
  exists x, length x = n /\ flow_step s x = y.
Proof.
  intros H Hy.
  assert (P : forall k, (k <= n)%nat -> exists x, length x = n /\
    forall d, (d < k)%nat -> nth d (flow_step s x) 0 = nth d y 0).
  { induction k as [|k IH]; intros Hk.
    - exists (repeat 0 n). split; [apply repeat_length|intros; lia].
    - destruct (IH ltac:(lia)) as (x & Hx & A).
      set (t := (nth k y 0 - nth k (fst (s x)) 0) / sqrt (nth k (snd (s x)) 0)).
      exists (upd k t x). split; [rewrite upd_length; lia|]. intros d Hd.
      destruct (Nat.eq_dec d k) as [->|].
      + rewrite (flow_step_diag n) by (auto; lia). unfold t.
        assert (V := step_var_pos n s x k H Hx ltac:(lia)). assert (S := sqrt_lt_R0 _ V). field. lra.
      + rewrite (flow_step_above n) by (auto; lia). apply A. lia. }
  destruct (P n ltac:(lia)) as (x & Hx & A). exists x. split; auto.
  apply vec_ext; [rewrite (flow_step_length n); auto|]. intros k Hk. apply A. rewrite (flow_step_length n) in Hk; auto.
Qed.

(** ** Determinants of lower triangular matrices *)
Lemma ldet_ext n : forall A B, meq n A B -> ldet n A = ldet n B.
Proof.
  induction n as [|n IH]; intros A B H; [reflexivity|]. cbn [ldet]. apply bsum_ext. intros j Hj.
  rewrite (H 0%nat j) by lia. f_equal. apply IH. intros i k Hi Hk. unfold minor0.
  apply H; [lia|]. destruct (k <? j)%nat; lia.
Qed.

Lemma ldet_lower n : forall A, lower n A -> ldet n A = rprod (map (fun d => A d d) (seq 0 n)).
Proof.
  induction n as [|n IH]; intros A H; [reflexivity|]. cbn [ldet].
  rewrite (bsum_single (S n) _ 0%nat) by (try lia; intros j Hj Hn; rewrite (H 0%nat j) by lia; ring).
  rewrite IH.
  - cbn [seq map rprod pow]. rewrite <- seq_shift, map_map. unfold minor0. simpl. ring.
  - intros i j Hi Hj Hij. unfold minor0. simpl. apply H; lia.
Qed.

Lemma jacobian_lower n s x J : autoregressive n s -> length x = n -> is_jacobian n (flow_step s) x J ->
  lower n J /\ forall d, (d < n)%nat -> J d d = sqrt (nth d (snd (s x)) 0).
Proof.
  intros H Hx HJ. split.
  - intros d j Hd Hj Hdj. specialize (HJ d j Hd Hj).
    eapply uniqueness_limite; [exact HJ|].
    assert (E : forall t, nth d (flow_step s (upd j t x)) 0 = nth d (flow_step s x) 0) by (intros; apply (flow_step_above n); auto).
    apply (derivable_pt_lim_ext (fun _ => nth d (flow_step s x) 0)); [intros; now rewrite E|]. apply derivable_pt_lim_const.
  - intros d Hd. specialize (HJ d d Hd Hd). eapply uniqueness_limite; [exact HJ|].
    apply (derivable_pt_lim_ext (fun t => nth d (fst (s x)) 0 + sqrt (nth d (snd (s x)) 0) * t)).
    { intros t. symmetry. now apply (flow_step_diag n). }
    set (a := nth d (fst (s x)) 0). set (b := sqrt _).
    assert (D : derivable_pt_lim (plus_fct (fct_cte a) (mult_real_fct b id)) (nth d x 0) (0 + b * 1)).
    { apply derivable_pt_lim_plus; [apply derivable_pt_lim_const|].
      apply derivable_pt_lim_scal. apply derivable_pt_lim_id. }
    replace (0 + b * 1) with b in D by ring. exact D.
Qed.

Lemma ln_sqrt x : 0 < x -> ln (sqrt x) = / 2 * ln x.
Proof.
  intros H. assert (S := sqrt_lt_R0 _ H). rewrite <- (sqrt_sqrt x) at 2 by lra. rewrite ln_mult by auto. lra.
Qed.

Lemma ln_rprod (f : nat -> R) l : (forall i, In i l -> 0 < f i) -> ln (rprod (map f l)) = sumf (fun i => ln (f i)) l.
Proof.
  induction l as [|i l IH]; intros H; [unfold sumf; simpl; apply ln_1|]. cbn [map rprod]. rewrite sumf_cons.
  rewrite ln_mult.
  - rewrite IH; auto. intros j Hj. apply H. now right.
  - apply H. now left.
  - apply rprod_pos. intros y Hy. apply in_map_iff in Hy. destruct Hy as (j & <- & Hj). apply H. now right.
Qed.

Lemma jacobian_logdet n s x J : autoregressive n s -> length x = n -> is_jacobian n (flow_step s) x J ->
  0 < ldet n J /\ ln (Rabs (ldet n J)) = / 2 * rsum (map ln (snd (s x))).
Proof.
  intros H Hx HJ. destruct (jacobian_lower n s x J H Hx HJ) as (L & D).
  assert (E : ldet n J = rprod (map (fun d => sqrt (nth d (snd (s x)) 0)) (seq 0 n))).
  { rewrite ldet_lower by auto. f_equal. apply map_ext_in. intros d Hd. apply in_seq in Hd. apply D. lia. }
  assert (P : forall d, In d (seq 0 n) -> 0 < nth d (snd (s x)) 0).
  { intros d Hd. apply in_seq in Hd. apply (step_var_pos n); auto. lia. }
  assert (Q : 0 < ldet n J).
  { rewrite E. apply rprod_pos. intros y Hy. apply in_map_iff in Hy. destruct Hy as (d & <- & Hd).
    apply sqrt_lt_R0. auto. }
  split; [exact Q|]. rewrite Rabs_right by lra. rewrite E, ln_rprod by (intros; apply sqrt_lt_R0; auto).
  rewrite (sumf_ext _ (fun d => / 2 * ln (nth d (snd (s x)) 0))) by (intros; apply ln_sqrt; auto).
  rewrite sumf_scal_l. f_equal. unfold sumf. f_equal. destruct (H x Hx) as (_ & L2 & _).
  transitivity (map ln (map (fun i => nth i (snd (s x)) 0) (seq 0 n))); [now rewrite map_map|].
  f_equal. rewrite <- L2. apply seq_nth_map.
Qed.

(** ** Strings *)
Lemma str_eqb_eq a : forall b, str_eqb a b = true <-> a = b.
Proof.
  induction a as [|x a IH]; intros [|y b]; simpl; try (split; congruence).
  rewrite andb_true_iff, IH. rewrite Ascii.eqb_eq. split; [intros (-> & ->); auto|intros E; injection E; auto].
Qed.

Lemma split_on_none c s : Forall (fun a => a <> c) s -> split_on c s = [s].
Proof.
  induction 1 as [|a s Ha Hs IH]; [reflexivity|]. simpl.
  destruct (Ascii.eqb_spec a c); [congruence|]. now rewrite IH.
Qed.
Lemma split_on_app c s t : Forall (fun a => a <> c) s -> split_on c (s ++ c :: t) = s :: split_on c t.
Proof.
  induction 1 as [|a s Ha Hs IH].
  - simpl. now rewrite Ascii.eqb_refl.
  - simpl. destruct (Ascii.eqb_spec a c); [congruence|]. now rewrite IH.
Qed.
Lemma split_join c l : l <> [] -> Forall (fun s => Forall (fun a => a <> c) s) l -> split_on c (join c l) = l.
Proof.
  induction l as [|p l IH]; intros Hn H; [congruence|]. inversion H as [|? ? Hp Hl]; subst.
  destruct l as [|q l]; [now apply split_on_none|].
  change (join c (p :: q :: l)) with (p ++ c :: join c (q :: l)). rewrite split_on_app by auto.
  now rewrite IH.
Qed.
