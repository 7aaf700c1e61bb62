(** Properties C24-C31, C75-C77: objective, parameters, optimisers and the
    training commands. *)
From Coq Require Import Reals List Arith Bool Lia Lra Permutation ZArith.
From Verif Require Import Prelude Vec Edit_Model Edit_Proofs Dec_Model Dec_Proofs
  Opt_Model Opt_Spec Opt_Proofs Opt_Pipe.
Import ListNotations.
Local Open Scope R_scope.

(** ** C24 *)

(** Whatever the order and the grouping of the additions (and the iteration
    order of the sets), the sum has the same content, or raises the same
    error. *)
Theorem C24_any_order_any_grouping : forall enum1 enum2 t1 t2,
  is_enum enum1 -> is_enum enum2 -> Permutation (leaves t1) (leaves t2) ->
  obs_res (eval enum1 t1) (eval enum2 t2).
Proof. exact eval_perm. Qed.

(** ... and backward() stores the same statistics. *)
Theorem C24_same_stored_statistics : forall enum1 enum2 t1 t2 e1 e2 std h,
  is_enum enum1 -> is_enum enum2 -> Permutation (leaves t1) (leaves t2) ->
  (forall x, In x (leaves t1) -> NoDup (e_params x)) ->
  eval enum1 t1 = Ok e1 -> eval enum2 t2 = Ok e2 ->
  hres_eq (backward enum1 std e1 h) (backward enum2 std e2 h).
Proof.
  intros enum1 enum2 t1 t2 e1 e2 std h E1 E2 P Hn H1 H2.
  apply backward_obs; auto.
  - exact (eval_NoDup enum1 t1 e1 Hn H1).
  - apply (eval_NoDup enum2 t2 e2); auto. intros x Hx. apply Hn.
    now apply (Permutation_in x (Permutation_sym P)).
  - pose proof (eval_perm enum1 enum2 t1 t2 E1 E2 P) as O. rewrite H1, H2 in O. exact O.
  - intros k. reflexivity.
Qed.

(** The empty objective is neutral. *)
Theorem C24_empty_is_neutral : forall enum ds e0 e,
  is_enum enum -> empty_elbo ds = Ok e0 -> e_ds e = ds ->
  exists l r, elbo_add enum e0 e = Ok l /\ elbo_add enum e e0 = Ok r /\
    obs_eq l e /\ obs_eq r e.
Proof.
  intros enum ds e0 e He H Hd. unfold empty_elbo in H.
  destruct (Nat.ltb 0 ds); [|discriminate]. injection H as <-.
  unfold elbo_add. cbn [e_ds e_value e_acc e_params e_mb]. rewrite Hd, Nat.eqb_refl.
  eexists; eexists; split; [reflexivity|]. split; [reflexivity|]. split.
  - split; [apply vplus_0_l|split; [|split; [|split]]]; cbn [e_acc e_params e_mb e_ds]; auto.
    + intros k. now rewrite add_acc_stats_get.
    + intros k. rewrite set_union_In. simpl. tauto.
  - split; [|split; [|split; [|split]]]; cbn [e_value e_acc e_params e_mb e_ds]; auto.
    + rewrite vplus_comm. apply vplus_0_l.
    + intros k. rewrite add_acc_stats_get by auto. rewrite opt_add_comm. reflexivity.
    + intros k. rewrite set_union_In. simpl. tauto.
Qed.

(** ** C25 *)

(** backward() on any sum of objectives: every connected parameter present in
    the statistics holds datasize/minibatchsize times the sum of its
    statistics; nothing else changes. *)
Theorem C25_backward_exact : forall enum t e std h h' k n,
  is_enum enum -> (forall x, In x (leaves t) -> NoDup (e_params x)) ->
  eval enum t = Ok e -> backward enum std e h = Ok h' ->
  Forall (sized k n) (leaves t) ->
  p_prior (h' k) = p_prior (h k) /\ p_post (h' k) = p_post (h k) /\ p_cbs (h' k) = p_cbs (h k) /\
  ((exists x, In x (leaves t) /\ In k (e_params x)) /\ (exists x, In x (leaves t) /\ has k x) ->
     length (p_stats (h' k)) = n /\
     forall i, (i < n)%nat -> nth i (p_stats (h' k)) 0 =
       INR (e_ds e) / INR (list_sum (map e_mb (leaves t))) * sumf (comp i k) (leaves t)) /\
  (~ ((exists x, In x (leaves t) /\ In k (e_params x)) /\ (exists x, In x (leaves t) /\ has k x)) ->
     h' k = h k).
Proof.
  intros enum t e std h h' k n He Hn Ht Hb Hs.
  pose proof (eval_NoDup enum t e Hn Ht) as Hnd.
  pose proof (backward_spec enum std e h h' k He Hnd Hb) as B.
  destruct (eval_ok_content enum t e He Ht) as (C1 & C2 & C3 & C4 & C5).
  pose proof (osum_sized k n (leaves t) Hs) as O. rewrite <- C2 in O.
  rewrite <- C3, <- C4.
  destruct (in_dec Nat.eq_dec k (e_params e)) as [i|i].
  - destruct (dget_acc (e_acc e) k) as [v|] eqn:E.
    + destruct O as (O1 & O2 & O3). rewrite B. cbn [set_stats p_prior p_post p_cbs p_stats].
      split; [reflexivity|split; [reflexivity|split; [reflexivity|split]]].
      * intros _. split; [now rewrite vscale_length|].
        intros j Hj. rewrite vscale_nth, O2 by auto. reflexivity.
      * intros Hc. exfalso. apply Hc. split; [assumption|].
        apply Exists_exists in O3. exact O3.
    + rewrite B. split; [reflexivity|split; [reflexivity|split; [reflexivity|split]]]; [|auto].
      intros [_ (x & Hx & Hh)]. rewrite Forall_forall in O. now elim (O x Hx).
  - rewrite B. split; [reflexivity|split; [reflexivity|split; [reflexivity|split]]]; [|auto].
    intros [Hc _]. contradiction.
Qed.

Theorem C25_different_sizes_raise : forall enum e1 e2,
  e_ds e1 <> e_ds e2 -> elbo_add enum e1 e2 = Err ValueError.
Proof.
  intros. unfold elbo_add. destruct (Nat.eqb_spec (e_ds e1) (e_ds e2)); congruence.
Qed.

(** An objective without any data cannot be differentiated. *)
Theorem C25_no_data_raises : forall enum ds e h,
  empty_elbo ds = Ok e ->
  backward enum true e h = Err AttributeError /\
  backward enum false e h = Err ZeroDivisionError.
Proof.
  intros enum ds e h H. unfold empty_elbo in H.
  destruct (Nat.ltb 0 ds); [|discriminate]. injection H as <-. auto.
Qed.

(** ** C26: the sum of the minibatch objectives is not the objective of the
    whole data. *)
Lemma elbo_of_value params kl ds b e : (0 < ds)%nat ->
  elbo_of params kl (Z.of_nat ds) b = Ok e -> e = inst params kl ds b /\ b_llh b <> [].
Proof.
  intros Hd H. destruct (b_llh b) eqn:E.
  - unfold elbo_of in H. rewrite E in H. discriminate.
  - rewrite elbo_of_inst in H; [|auto|rewrite E; discriminate]. split; congruence.
Qed.

Lemma elbos_inst params kl ds bs es : (0 < ds)%nat ->
  Forall2 (fun b e => elbo_of params kl (Z.of_nat ds) b = Ok e) bs es ->
  es = map (inst params kl ds) bs /\ Forall (fun b => b_llh b <> []) bs.
Proof.
  intros Hd H. induction H as [|b e bs es Hb Ht [-> IH2]]; [auto|].
  destruct (elbo_of_value params kl ds b e Hd Hb) as [-> Hne]. simpl. auto.
Qed.

(** Exact value of the sum of the objectives of the minibatches bs. *)
Theorem C26_sum_value_exact_partial : forall enum params kl ds bs es t e,
  is_enum enum -> (0 < ds)%nat ->
  Forall2 (fun b e => elbo_of params kl (Z.of_nat ds) b = Ok e) bs es ->
  Permutation (leaves t) es -> eval enum t = Ok e ->
  val_of (e_value e) =
  sumf (fun b => INR ds / INR (length (b_llh b)) * rsum (b_llh b)) bs
  - INR (length bs) * kl.
Proof.
  intros enum params kl ds bs es t e He Hd Hf Hl Ht.
  destruct (elbos_inst params kl ds bs es Hd Hf) as [-> _].
  destruct (eval_ok_content enum t e He Ht) as (C1 & _). rewrite (oval_perm _ _ Hl) in C1.
  assert (G : forall l v, oval (map (inst params kl ds) l) = Some v ->
    val_of v = sumf (fun b => INR ds / INR (length (b_llh b)) * rsum (b_llh b)) l
               - INR (length l) * kl).
  { induction l as [|x l IH]; cbn [map oval fold_right]; [discriminate|].
    fold (oval (map (inst params kl ds) l)). intros v Hv. rewrite sumf_cons.
    cbn [length]. rewrite S_INR.
    destruct (oval (map (inst params kl ds) l)) as [w|] eqn:E.
    - specialize (IH w eq_refl). injection Hv as <-.
      destruct w; simpl in IH |- *; lra.
    - destruct l as [|y l].
      + injection Hv as <-. unfold sumf. simpl. lra.
      + destruct (oval_some (map (inst params kl ds) (y :: l))) as [w Hw]; [discriminate|].
        rewrite Hw in E. discriminate. }
  apply G. exact C1.
Qed.

(** The right combination: averaging with weights minibatchsize/datasize. *)
Theorem C26_weighted_average_partial : forall params kl ds bs es full e,
  (0 < ds)%nat ->
  Forall2 (fun b e => elbo_of params kl (Z.of_nat ds) b = Ok e) bs es ->
  elbo_of params kl (Z.of_nat ds) full = Ok e ->
  concat (map b_llh bs) = b_llh full -> length (b_llh full) = ds ->
  sumf (fun x => INR (e_mb x) / INR ds * val_of (e_value x)) es = val_of (e_value e).
Proof.
  intros params kl ds bs es full e Hd Hf He Hc Hl.
  destruct (elbos_inst params kl ds bs es Hd Hf) as [-> Hne].
  destruct (elbo_of_value params kl ds full e Hd He) as [-> _].
  assert (Hds : 0 < INR ds) by now apply lt_0_INR.
  cbn [inst e_value val_of]. rewrite Hl, sumf_map. cbn [inst e_value val_of e_mb].
  rewrite (sumf_ext _ (fun b => rsum (b_llh b) - kl / INR ds * INR (length (b_llh b)))).
  - rewrite sumf_minus, sumf_scal_l.
    assert (E1 : sumf (fun b => rsum (b_llh b)) bs = rsum (b_llh full)).
    { rewrite <- Hc. clear. induction bs as [|b bs IH]; [reflexivity|].
      rewrite sumf_cons. simpl. now rewrite rsum_app, IH. }
    assert (E2 : sumf (fun b => INR (length (b_llh b))) bs = INR ds).
    { rewrite <- Hl, <- Hc. clear. induction bs as [|b bs IH]; [reflexivity|].
      rewrite sumf_cons. simpl. now rewrite app_length, plus_INR, IH. }
    rewrite E1, E2. field. lra.
  - intros b Hb. rewrite Forall_forall in Hne. specialize (Hne b Hb).
    assert (0 < INR (length (b_llh b))).
    { apply lt_0_INR. destruct (b_llh b); [congruence|simpl; lia]. }
    field. lra.
Qed.

Definition mk_batch (l : list R) : batch := {| b_llh := l; b_acc := [] |}.

Theorem C26_refuted : exists params kl ds b1 b2 e1 e2 e full,
  (0 < ds)%nat /\ length (b_llh b1 ++ b_llh b2) = ds /\
  elbo_of params kl (Z.of_nat ds) b1 = Ok e1 /\ elbo_of params kl (Z.of_nat ds) b2 = Ok e2 /\
  elbo_of params kl (Z.of_nat ds) (mk_batch (b_llh b1 ++ b_llh b2)) = Ok full /\
  elbo_add (fun l => l) e1 e2 = Ok e /\
  val_of (e_value e) <> val_of (e_value full).
Proof.
  exists [], 1, 2%nat, (mk_batch [-1]), (mk_batch [-1]). do 4 eexists.
  split; [lia|]. do 5 (split; [reflexivity|]). simpl. lra.
Qed.

(** ** C27 *)
Theorem C27_convex_step : forall lrate p i,
  length (p_prior p) = length (p_post p) -> length (p_stats p) = length (p_post p) ->
  (i < length (p_post p))%nat ->
  nth i (p_post (ngu lrate p)) 0 =
  (1 - lrate) * nth i (p_post p) 0 + lrate * (nth i (p_prior p) 0 + nth i (p_stats p) 0) /\
  p_prior (ngu lrate p) = p_prior p /\ p_stats (ngu lrate p) = p_stats p.
Proof.
  intros. split; [|split; reflexivity]. now apply new_nparams_nth.
Qed.

Theorem C27_full_step_forgets : forall p,
  length (p_prior p) = length (p_post p) -> length (p_stats p) = length (p_post p) ->
  p_post (ngu 1 p) = vadd (p_prior p) (p_stats p).
Proof.
  intros p H1 H2. unfold ngu, set_post. cbn [p_post].
  apply vec_ext.
  - rewrite new_nparams_length, vadd_length; congruence.
  - intros k Hk. rewrite new_nparams_length in Hk by auto.
    rewrite new_nparams_nth, vadd_nth by (auto; congruence || lia). ring.
Qed.

Theorem C27_geometric_convergence : forall lrate n p,
  length (p_prior p) = length (p_post p) -> length (p_stats p) = length (p_post p) ->
  length (p_post (iter n (ngu lrate) p)) = length (p_post p) /\
  (forall i, (i < length (p_post p))%nat ->
    nth i (p_post (iter n (ngu lrate) p)) 0 - (nth i (p_prior p) 0 + nth i (p_stats p) 0) =
    (1 - lrate) ^ n * (nth i (p_post p) 0 - (nth i (p_prior p) 0 + nth i (p_stats p) 0))) /\
  p_prior (iter n (ngu lrate) p) = p_prior p /\ p_stats (iter n (ngu lrate) p) = p_stats p.
Proof.
  intros lrate n p H1 H2. destruct (ngu_iter lrate n p H1 H2) as [A B].
  destruct (ngu_iter_fields lrate n p) as (C & D & _). auto.
Qed.

(** ** C28 *)
Theorem C28_observers_once_each_side : forall eff ord lrate p r,
  (forall l, Permutation (ord l) l) ->
  (forall c q, p_post (eff c q) = p_post q) ->
  (forall c q, p_cbs (eff c q) = p_cbs q) ->
  natural_grad_update eff ord lrate (p, []) = r ->
  exists before after,
    snd r = map (fun c => (c, p_post p)) before ++
            map (fun c => (c, p_post (fst r))) after /\
    Permutation before (map fst (filter snd (p_cbs p))) /\
    Permutation after (map fst (filter (fun c => negb (snd c)) (p_cbs p))).
Proof.
  intros eff ord lrate p r Ho He Hc <-.
  unfold natural_grad_update. cbv zeta.
  destruct (dispatch_trace eff ord true p [] He Hc) as (A & B & C).
  destruct (dispatch eff ord true (p, [])) as [p1 ev1]. cbn [fst snd] in A, B, C |- *.
  set (p2 := set_post p1 (new_nparams lrate p1)).
  destruct (dispatch_trace eff ord false p2 ev1 He Hc) as (D & E & F).
  destruct (dispatch eff ord false (p2, ev1)) as [p3 ev3]. cbn [fst snd] in D, E, F |- *.
  exists (map fst (filter (fun c => Bool.eqb (snd c) true) (ord (p_cbs p)))),
         (map fst (filter (fun c => Bool.eqb (snd c) false) (ord (p_cbs p2)))).
  assert (Hperm : forall (f : nat * bool -> bool) l1 l2, Permutation l1 l2 ->
    Permutation (filter f l1) (filter f l2)).
  { intros f l1 l2 P. induction P; simpl; auto.
    - destruct (f x); auto.
    - destruct (f x), (f y); auto using perm_swap.
    - eapply Permutation_trans; eauto. }
  split; [|split].
  - rewrite D, A, E. cbn [app]. rewrite !map_map. reflexivity.
  - apply Permutation_map. rewrite (filter_ext snd (fun c => Bool.eqb (snd c) true)).
    + apply Hperm, Ho.
    + intros [c b]. destruct b; reflexivity.
  - apply Permutation_map. replace (p_cbs p2) with (p_cbs p) by (symmetry; exact C).
    rewrite (filter_ext (fun c => negb (snd c)) (fun c => Bool.eqb (snd c) false)).
    + apply Hperm, Ho.
    + intros [c b]. destruct b; reflexivity.
Qed.

(** The update itself: the posterior seen by the later observers is the convex
    step computed from the statistics as left by the earlier ones. *)
Theorem C28_update_uses_transformed_stats : forall eff ord lrate p,
  (forall c q, p_post (eff c q) = p_post q) ->
  (forall c q, p_cbs (eff c q) = p_cbs q) ->
  let p1 := fst (dispatch eff ord true (p, [])) in
  p_post (fst (natural_grad_update eff ord lrate (p, []))) = new_nparams lrate p1.
Proof.
  intros eff ord lrate p He Hc. cbv zeta. unfold natural_grad_update.
  destruct (dispatch eff ord true (p, [])) as [p1 ev1]. cbn [fst snd].
  destruct (dispatch_trace eff ord false (set_post p1 (new_nparams lrate p1)) ev1 He Hc)
    as (_ & E & _).
  rewrite E. reflexivity.
Qed.

(** Registering is idempotent and never duplicates, so every registered
    observer is called exactly once on its side. *)
Theorem C28_registration_is_a_set : forall regs p c b,
  NoDup (p_cbs p) ->
  let q := fold_left (fun q r => register_callback q (fst r) (snd r)) regs p in
  NoDup (p_cbs q) /\
  (In (c, b) (p_cbs q) <-> In (c, b) (p_cbs p) \/ In (c, b) regs) /\
  p_post q = p_post p /\ p_prior q = p_prior p /\ p_stats q = p_stats p.
Proof.
  induction regs as [|[c0 b0] regs IH]; intros p c b Hn; cbv zeta; cbn [fold_left fst snd].
  - simpl. tauto.
  - assert (Hn' : NoDup (p_cbs (register_callback p c0 b0))).
    { unfold register_callback. destruct (in_dec cb_eq_dec (c0, b0) (p_cbs p)); [assumption|].
      cbn [p_cbs]. apply Permutation_NoDup with ((c0, b0) :: p_cbs p).
      - apply Permutation_cons_append.
      - now constructor. }
    destruct (IH (register_callback p c0 b0) c b Hn') as (A & B & C & D & E).
    split; [exact A|]. rewrite B, C, D, E.
    unfold register_callback. destruct (in_dec cb_eq_dec (c0, b0) (p_cbs p)) as [i|i];
      cbn [p_cbs p_post p_prior p_stats]; (split; [|auto]).
    + simpl. split; [tauto|]. intros [H|[H|H]]; auto. rewrite <- H. auto.
    + rewrite in_app_iff. simpl. tauto.
Qed.

(** ** C29 *)

(** In any program made of steps, statistics updates, re-initialisations,
    learning rate changes and checkpoints, the k-th step updates exactly the
    parameters of group k mod (number of groups), in order. *)
Theorem C29_round_robin : forall ops groups lrate h,
  let s := run_ops ops (new_optim groups lrate, h, []) in
  snd s = concat (map (fun k => nth (k mod length groups) groups [])
                      (seq 0 (nsteps ops))) /\
  o_count (fst (fst s)) = nsteps ops.
Proof.
  intros ops groups lrate h.
  destruct (run_log ops (new_optim groups lrate) h []) as (A & _ & C).
  cbv zeta. split; [exact A|exact C].
Qed.

Theorem C29_number_of_updates : forall ops groups lrate h g k,
  (g < length groups)%nat ->
  (forall i, (i < length groups)%nat ->
     count_occ Nat.eq_dec (nth i groups []) k = if Nat.eq_dec i g then 1%nat else 0%nat) ->
  count_occ Nat.eq_dec (snd (run_ops ops (new_optim groups lrate, h, []))) k =
  ((nsteps ops + length groups - 1 - g) / length groups)%nat.
Proof.
  intros ops groups lrate h g k Hg Hf.
  destruct (C29_round_robin ops groups lrate h) as [-> _].
  apply (count_mod (fun i => nth i groups []) (length groups) k g Hg Hf).
Qed.

(** One step: the parameters of the current group make one natural gradient
    step each, all the others are untouched. *)
Theorem C29_step_effect : forall o h log o' h' log' k,
  step (o, h, log) = (o', h', log') -> (0 < length (o_groups o))%nat ->
  NoDup (nth (o_count o mod length (o_groups o)) (o_groups o) []) ->
  h' k = (if in_dec Nat.eq_dec k (nth (o_count o mod length (o_groups o)) (o_groups o) [])
          then ngu (o_lrate o) (h k) else h k) /\
  o_count o' = S (o_count o) /\ o_groups o' = o_groups o /\ o_lrate o' = o_lrate o.
Proof.
  intros o h log o' h' log' k H Hg Hn.
  pose proof (step_heap o h log k) as A. pose proof (step_optim o h log) as B.
  rewrite H in A, B. cbn [fst snd] in A, B. subst o'. cbn. split; [|auto].
  rewrite A. unfold cur_group.
  rewrite (NoDup_count_occ Nat.eq_dec) in Hn. specialize (Hn k).
  destruct (in_dec Nat.eq_dec k _) as [i|i].
  - rewrite (count_occ_In Nat.eq_dec) in i. replace (count_occ _ _ k) with 1%nat by lia. reflexivity.
  - rewrite (count_occ_not_In Nat.eq_dec) in i. rewrite i. reflexivity.
Qed.

Theorem C29_init_step_zeroes : forall o h k,
  (In k (concat (o_groups o)) ->
     p_stats (init_step o h k) = repeat 0 (length (p_stats (h k)))) /\
  (~ In k (concat (o_groups o)) -> init_step o h k = h k) /\
  p_post (init_step o h k) = p_post (h k) /\ p_prior (init_step o h k) = p_prior (h k).
Proof.
  intros o h k. rewrite init_step_spec.
  destruct (in_dec Nat.eq_dec k (concat (o_groups o))); repeat split; try tauto.
Qed.

(** ** C30 *)
Theorem C30_checkpoints_are_transparent : forall ops s,
  run_ops ops s = run_ops (filter not_saveload ops) s.
Proof.
  intros ops s. unfold run_ops. revert s; induction ops as [|a ops IH]; intros s; [reflexivity|].
  destruct a; cbn [filter not_saveload fold_left]; try apply IH.
  replace (do_op s OSaveLoad) with s; [apply IH|].
  destruct s as [[o h] log]. destruct o. reflexivity.
Qed.

Theorem C30_generic_optimiser : forall S (v : vboptim S) (fresh : vboptim S),
  (vb_cjg S fresh = None <-> vb_cjg S v = None) ->
  (vb_std S fresh = None <-> vb_std S v = None) ->
  (forall o o', vb_cjg S v = Some o -> vb_cjg S fresh = Some o' -> o_groups o' = o_groups o) ->
  vb_load_state_dict S fresh (vb_state_dict S v) = Ok v.
Proof.
  intros S [c s] [c' s'] Hc Hs Hg. unfold vb_load_state_dict, vb_state_dict. simpl in *.
  destruct c as [o|], c' as [o'|]; simpl;
    try (exfalso; destruct Hc as [Hc1 Hc2]; (now discriminate Hc1) || (now discriminate Hc2));
    destruct s as [x|], s' as [y|]; simpl;
    try (exfalso; destruct Hs as [Hs1 Hs2]; (now discriminate Hs1) || (now discriminate Hs2));
    try reflexivity;
    unfold load_state_dict; rewrite (Hg o o' eq_refl eq_refl); destruct o; reflexivity.
Qed.

(** The file-based variant can never work. *)
Theorem C30_load_state_refuted : forall S (v : vboptim S) path,
  vb_load_state S v path = Err NameError.
Proof. reflexivity. Qed.

(** ** C31 *)
Lemma epoch_loop_all_divide b : b <> 0%Z ->
  forall utts pending updates,
  (forall i, In i utts -> (Z.of_nat i mod b = 0)%Z) -> utts <> [] ->
  epoch_loop b utts pending updates =
  Ok (updates ++ match utts with [] => [] | i :: t => (pending ++ [i]) :: map (fun i => [i]) t end, []).
Proof.
  intros Hb. induction utts as [|i t IH]; intros pending updates H Hne; [congruence|].
  cbn [epoch_loop]. destruct (Z.eqb_spec b 0); [contradiction|].
  rewrite (proj2 (Z.eqb_eq _ _) (H i (or_introl eq_refl))).
  destruct t as [|j t].
  - reflexivity.
  - rewrite IH; [|intros; apply H; now right|discriminate].
    cbn [map app]. rewrite <- app_assoc. reflexivity.
Qed.

(** The command cannot even start: beer.BayesianModelOptimizer does not
    exist. *)
Theorem C31_train_refuted : forall b n, train_main b n = Err AttributeError.
Proof. reflexivity. Qed.

(** And were the optimiser available, the default batch size -1 would update
    after every utterance. *)
Theorem C31_default_batch_size_refuted : forall n,
  train_epoch (-1) n = Ok (map (fun i => [i]) (seq 1 n), []).
Proof.
  intros [|n]; [reflexivity|]. unfold train_epoch.
  rewrite epoch_loop_all_divide; [reflexivity|lia| |discriminate].
  intros i _. replace (-1)%Z with (- (1))%Z by reflexivity.
  rewrite Z.mod_opp_r_z by (rewrite ?Z.mod_1_r; lia || reflexivity). reflexivity.
Qed.

(** With a positive batch size b, the updates cover the utterances by blocks
    of b; the remaining n mod b utterances never contribute. *)
Theorem C31_positive_batch_size_partial : forall b n, (0 < b)%nat ->
  exists updates rest,
  train_epoch (Z.of_nat b) n = Ok (updates, rest) /\
  concat updates ++ rest = seq 1 n /\
  Forall (fun u => length u = b) updates /\ (length rest < b)%nat /\
  length updates = (n / b)%nat.
Proof.
  intros b n Hb.
  assert (G : forall utts i0 pending updates q,
    utts = seq (S i0) (length utts) ->
    i0 = (b * q + length pending)%nat -> (length pending < b)%nat ->
    length updates = q -> Forall (fun u => length u = b) updates ->
    exists updates' rest, epoch_loop (Z.of_nat b) utts pending updates = Ok (updates', rest) /\
      concat updates' ++ rest = (concat updates ++ pending) ++ utts /\
      Forall (fun u => length u = b) updates' /\ (length rest < b)%nat /\
      (i0 + length utts = b * length updates' + length rest)%nat).
  { induction utts as [|i t IH]; intros i0 pending updates q Hu Hi Hp Hq HF.
    - exists updates, pending. cbn [epoch_loop length]. rewrite app_nil_r.
      split; [reflexivity|split; [reflexivity|split; [assumption|split; [assumption|]]]].
      rewrite Hq. lia.
    - cbn [epoch_loop]. destruct (Z.eqb_spec (Z.of_nat b) 0); [lia|].
      cbn [length seq] in Hu. injection Hu as -> Ht.
      rewrite <- Nat2Z.inj_mod.
      destruct (Z.eqb_spec (Z.of_nat (S i0 mod b)) 0) as [E|E].
      + assert (E' : (S i0 mod b = 0)%nat) by lia.
        assert (Hlen : S (length pending) = b).
        { assert (S (length pending) < b \/ S (length pending) = b)%nat as [L|L] by lia; [|exact L].
          exfalso. subst i0.
          replace (S (b * q + length pending))%nat with (S (length pending) + q * b)%nat in E' by lia.
          rewrite Nat.mod_add, Nat.mod_small in E' by lia. discriminate. }
        destruct (IH (S i0) [] (updates ++ [pending ++ [S i0]]) (S q)) as (u' & r & A & B & C & D & F).
        * exact Ht.
        * simpl. nia.
        * simpl. lia.
        * rewrite app_length. simpl. lia.
        * apply Forall_app. split; [assumption|]. constructor; [|constructor].
          rewrite app_length. simpl. lia.
        * exists u', r. split; [exact A|]. split; [|split; [assumption|split; [assumption|]]].
          -- rewrite B, concat_app. simpl. rewrite !app_nil_r, <- !app_assoc. reflexivity.
          -- cbn [length]. lia.
      + assert (E' : (S i0 mod b <> 0)%nat) by lia.
        assert (Hlen : (S (length pending) < b)%nat).
        { assert (S (length pending) < b \/ S (length pending) = b)%nat as [L|L] by lia; [exact L|].
          exfalso. apply E'. subst i0.
          replace (S (b * q + length pending))%nat with ((q + 1) * b)%nat by lia.
          apply Nat.mod_mul. lia. }
        destruct (IH (S i0) (pending ++ [S i0]) updates q) as (u' & r & A & B & C & D & F); auto.
        * rewrite app_length. simpl. lia.
        * rewrite app_length. simpl. lia.
        * exists u', r. split; [exact A|]. split; [|split; [assumption|split; [assumption|]]].
          -- rewrite B, <- !app_assoc. reflexivity.
          -- cbn [length]. lia. }
  destruct (G (seq 1 n) 0%nat [] [] 0%nat) as (u & r & A & B & C & D & E); auto.
  { now rewrite seq_length. } { simpl; lia. }
  exists u, r. split; [exact A|]. split; [exact B|]. split; [exact C|]. split; [exact D|].
  rewrite seq_length in E. simpl in E.
  apply (Nat.div_unique n b (length u) (length r)); lia.
Qed.

Theorem C31_zero_batch_size_raises : forall n, (0 < n)%nat ->
  train_epoch 0 n = Err ZeroDivisionError.
Proof. intros [|n] H; [lia|reflexivity]. Qed.

(** ** C75: training with the accumulate and update commands does not depend
    on how the utterances are split into jobs. *)
Theorem C75_split_into_jobs_is_irrelevant :
  forall enum1 enum2 params kl ds data jobs1 jobs2 all groups lrate saved h,
  is_enum enum1 -> is_enum enum2 -> (0 < ds)%nat ->
  Forall (Forall (known data)) jobs1 -> Permutation (concat jobs1) (concat jobs2) ->
  concat jobs1 <> [] ->
  exists a1 a2 h1 h2 s,
    mapM (accumulate_main enum1 params kl ds data) jobs1 = Ok a1 /\
    mapM (accumulate_main enum2 params kl ds data) jobs2 = Ok a2 /\
    update_main enum1 all groups lrate saved h a1 = Ok (h1, s) /\
    update_main enum2 all groups lrate saved h a2 = Ok (h2, s) /\
    heap_eq h1 h2.
Proof.
  intros enum1 enum2 params kl ds data jobs1 jobs2 all groups lrate saved h E1 E2 Hd Hk P Hne.
  assert (Hk2 : Forall (Forall (known data)) jobs2).
  { apply Forall_forall. intros j Hj. apply Forall_forall. intros x Hx.
    assert (Hx1 : In x (concat jobs1)).
    { apply (Permutation_in x (Permutation_sym P)). apply in_concat. eauto. }
    apply in_concat in Hx1. destruct Hx1 as (j1 & A & B).
    rewrite Forall_forall in Hk. specialize (Hk j1 A). rewrite Forall_forall in Hk. auto. }
  assert (Hne2 : concat jobs2 <> []).
  { intros Hc. rewrite Hc in P. apply Permutation_sym, Permutation_nil in P. contradiction. }
  destruct (update_elbo enum1 params kl ds data jobs1 E1 Hd Hk Hne) as (a1 & e1 & n1 & A1 & B1 & C1 & D1).
  destruct (update_elbo enum2 params kl ds data jobs2 E2 Hd Hk2 Hne2) as (a2 & e2 & n2 & A2 & B2 & C2 & D2).
  assert (P' : Permutation (map (fun x => inst params kl ds (utt_batch data x)) (concat jobs1))
                           (map (fun x => inst params kl ds (utt_batch data x)) (concat jobs2)))
    by now apply Permutation_map.
  assert (Hm : map (fun x => inst params kl ds (utt_batch data x)) (concat jobs1) <> [])
    by (intros Hc; apply map_eq_nil in Hc; contradiction).
  pose proof (sum_content_obs _ _ e1 e2 P' Hm C1 C2) as (O1 & O2 & O3 & O4 & O5).
  set (o := match saved with None => new_optim groups lrate
            | Some s => load_state_dict (new_optim groups lrate) s end).
  assert (OS : obs_eq (sync e1 all) (sync e2 all)).
  { split; [exact O1|split; [exact O2|split; [|split; [exact O4|exact O5]]]].
    intros k. simpl. reflexivity. }
  pose proof (backward_obs enum1 enum2 true (sync e1 all) (sync e2 all)
                (init_step o h) (init_step o h) E1 E2 (NoDup_nodup _ _) (NoDup_nodup _ _) OS
                (fun k => eq_refl)) as HB.
  assert (Hok : exists hb, backward enum1 true (sync e1 all) (init_step o h) = Ok hb).
  { destruct C1 as (V & _ & _ & M & _).
    destruct (tensor_value params kl ds data (concat jobs1) _ V) as [r Hr].
    assert (Hk' : Forall (known data) (concat jobs1)).
    { apply Forall_forall. intros x Hx. apply in_concat in Hx. destruct Hx as (j & Hj & Hx).
      rewrite Forall_forall in Hk. specialize (Hk j Hj). rewrite Forall_forall in Hk. auto. }
    pose proof (sum_mb_pos params kl ds data (concat jobs1) Hk' Hne) as Hp.
    unfold backward. cbn [sync e_value e_mb]. rewrite Hr.
    destruct (Nat.eqb_spec (e_mb e1) 0); [rewrite M in *; lia|eauto]. }
  destruct Hok as [hb1 Hb1]. rewrite Hb1 in HB.
  destruct (backward enum2 true (sync e2 all) (init_step o h)) as [hb2|] eqn:Hb2; [|contradiction].
  simpl in HB.
  exists a1, a2.
  pose proof (step_heap o hb1 []) as S1. pose proof (step_heap o hb2 []) as S2.
  pose proof (step_optim o hb1 []) as T1. pose proof (step_optim o hb2 []) as T2.
  destruct (step (o, hb1, [])) as [[o1 h1] l1] eqn:St1.
  destruct (step (o, hb2, [])) as [[o2 h2] l2] eqn:St2.
  cbn [fst snd] in S1, S2, T1, T2.
  exists h1, h2, (state_dict o1).
  split; [exact A1|]. split; [exact A2|]. split; [|split].
  - unfold update_main. fold o. rewrite B1. cbn [bindr]. rewrite Hb1. cbn [bindr].
    rewrite St1. reflexivity.
  - unfold update_main. fold o. rewrite B2. cbn [bindr]. rewrite Hb2. cbn [bindr].
    rewrite St2, T1, T2. reflexivity.
  - intros k. rewrite S1, S2, (HB k). reflexivity.
Qed.

(** ** C76: the learning rate given to the update command is only used when
    there is no saved optimiser state. *)
Theorem C76_learning_rate_refuted : forall enum all groups lrate lrate' s h jobs,
  update_main enum all groups lrate (Some s) h jobs =
  update_main enum all groups lrate' (Some s) h jobs.
Proof. reflexivity. Qed.

(** Without statistics to read there is no update. *)
Theorem C76_no_statistics : forall enum all groups lrate saved h,
  update_main enum all groups lrate saved h [] = Err AttributeError.
Proof. reflexivity. Qed.

Theorem C76_state_carries_on_partial : forall enum all groups lrate saved h jobs h' s,
  update_main enum all groups lrate saved h jobs = Ok (h', s) ->
  s = (match saved with None => lrate | Some s0 => fst s0 end,
       S (match saved with None => 0 | Some s0 => snd s0 end)).
Proof.
  intros enum all groups lrate saved h jobs h' s H. unfold update_main in H.
  destruct (foldM (update_loop enum) jobs None) as [[[e n]|]|]; cbn [bindr] in H; try discriminate.
  set (o := match saved with None => new_optim groups lrate
            | Some s => load_state_dict (new_optim groups lrate) s end) in *.
  destruct (backward enum true (sync e all) (init_step o h)) as [h1|]; cbn [bindr] in H; [|discriminate].
  pose proof (step_optim o h1 []) as T. destruct (step (o, h1, [])) as [[o' h2] l].
  cbn [fst] in T. injection H as _ <-. rewrite T. unfold state_dict, o.
  destruct saved as [[r c]|]; reflexivity.
Qed.

(** ** C77: utterances missing from the data set. *)
Theorem C77_first_missing_refuted : forall enum params kl ds data u utts,
  (0 < ds)%nat -> dget Nat.eq_dec data u = None ->
  accumulate_main enum params kl ds data (u :: utts) = Err NameError.
Proof.
  intros enum params kl ds data u utts Hd Hu. unfold accumulate_main, empty_elbo.
  destruct (Nat.ltb_spec 0 ds); [|lia]. cbn [bindr foldM]. unfold acc_utt at 1. rewrite Hu.
  reflexivity.
Qed.

Definition in_data (data : list (nat * batch)) (u : nat) : bool :=
  match dget Nat.eq_dec data u with Some _ => true | None => false end.

Theorem C77_later_missing_skipped_partial : forall enum params kl ds data u utts,
  in_data data u = true ->
  accumulate_main enum params kl ds data (u :: utts) =
  accumulate_main enum params kl ds data (filter (in_data data) (u :: utts)).
Proof.
  intros enum params kl ds data u utts Hu. unfold accumulate_main.
  destruct (empty_elbo ds) as [e0|]; [|reflexivity]. cbn [bindr]. f_equal.
  cbn [filter]. rewrite Hu. cbn [foldM].
  assert (H1 : forall st st', acc_utt enum params kl ds data st u = Ok st' ->
    fst (fst st') <> None).
  { intros [[v e] c] st' H. unfold acc_utt, in_data in *.
    destruct (dget Nat.eq_dec data u); [|discriminate].
    destruct (elbo_of _ _ _ _); [|discriminate]. cbn [bindr] in H.
    destruct (elbo_add _ _ _); [|discriminate]. injection H as <-. discriminate. }
  assert (G : forall l st, fst (fst st) <> None ->
    foldM (acc_utt enum params kl ds data) l st =
    foldM (acc_utt enum params kl ds data) (filter (in_data data) l) st).
  { induction l as [|x l IH]; intros [[v e] c] Hv; [reflexivity|].
    cbn [fst] in Hv. cbn [filter]. unfold in_data at 1.
    destruct (dget Nat.eq_dec data x) as [b|] eqn:E.
    - cbn [foldM]. unfold acc_utt at 1 3. rewrite E.
      destruct (elbo_of _ _ _ _) as [e1|]; [|reflexivity]. cbn [bindr].
      destruct (elbo_add _ _ _) as [e2|]; [|reflexivity]. cbn [bindr].
      apply IH. discriminate.
    - cbn [foldM]. unfold acc_utt at 1. rewrite E. destruct v as [v|]; [|congruence].
      cbn [bindr]. apply IH. discriminate. }
  destruct (acc_utt enum params kl ds data (None, e0, 0%nat) u) as [st|] eqn:E; [|reflexivity].
  cbn [bindr]. apply G. eauto.
Qed.

(** ** Examples *)
Definition ex_param (v : R) : param :=
  {| p_prior := [1; 2]; p_post := [v; v]; p_stats := [0; 0]; p_cbs := [(7%nat, true); (8%nat, false)] |}.

Definition ex_e1 : elbo :=
  {| e_value := VTensor 3; e_acc := [(0%nat, [1; 1]); (1%nat, [2])]; e_params := [0; 1]%nat;
     e_mb := 2; e_ds := 6 |}.
Definition ex_e2 : elbo :=
  {| e_value := VTensor 4; e_acc := [(0%nat, [5; 7])]; e_params := [0]%nat; e_mb := 1; e_ds := 6 |}.

Example ex_C25 : exists e h',
  elbo_add (fun l => l) ex_e1 ex_e2 = Ok e /\
  backward (fun l => l) true e (fun _ => ex_param 0) = Ok h' /\
  p_stats (h' 0%nat) = [12; 16] /\ p_stats (h' 1%nat) = [4] /\ h' 2%nat = ex_param 0.
Proof.
  eexists; eexists. split; [reflexivity|]. split; [reflexivity|]. simpl.
  split; [|split; [|reflexivity]]; repeat f_equal; lra.
Qed.

Example ex_C27 : p_post (ngu (/2) (set_stats (ex_param 4) [3; 0])) = [4; 3].
Proof. unfold ngu, new_nparams, vadd, vsub, vscale. simpl. repeat f_equal; lra. Qed.

Example ex_C28 :
  snd (natural_grad_update (fun _ p => p) (@rev _) 1 (ex_param 4, [])) =
  [(7%nat, [4; 4]); (8%nat, [1; 2])].
Proof.
  unfold natural_grad_update, dispatch, new_nparams, vadd, vsub, vscale. simpl. repeat f_equal; lra.
Qed.

Example ex_C29 : forall h,
  snd (run_ops [OStep; OStore 0 [1]; OStep; OSaveLoad; OStep; OInit; OStep; OStep]
               (new_optim [[0; 1]; [2]]%nat 1, h, [])) = [0; 1; 2; 0; 1; 2; 0; 1]%nat.
Proof. reflexivity. Qed.

Example ex_C31 : train_epoch 2 5 = Ok ([[1; 2]; [3; 4]]%nat, [5%nat]).
Proof. reflexivity. Qed.

Definition ex_data : list (nat * batch) :=
  [(10%nat, {| b_llh := [-1; -3]; b_acc := [(0%nat, [1; 2])] |});
   (11%nat, {| b_llh := [-2]; b_acc := [(0%nat, [3; 4])] |})].

Example ex_C75 : Forall (known ex_data) [10; 11]%nat /\
  exists a s h', accumulate_main (fun l => l) [0%nat] 0 3 ex_data [11; 10]%nat = Ok a /\
  update_main (fun l => l) [0%nat] [[0%nat]] 1 None (fun _ => ex_param 9) [a] = Ok (h', s) /\
  p_post (h' 0%nat) = [5; 8].
Proof.
  split.
  - repeat constructor; eexists; split; try reflexivity; discriminate.
  - eexists; eexists; eexists. split; [reflexivity|]. split; [reflexivity|]. simpl.
    unfold ngu, new_nparams, set_post, vadd, vsub, vscale; cbn -[Rplus Rmult].
    f_equal; [field|f_equal; field].
Qed.

Example ex_C77 :
  accumulate_main (fun l => l) [0%nat] 0 3 ex_data [12; 10]%nat = Err NameError.
Proof. reflexivity. Qed.

Print Assumptions C24_any_order_any_grouping.
Print Assumptions C24_same_stored_statistics.
Print Assumptions C24_empty_is_neutral.
Print Assumptions C25_backward_exact.
Print Assumptions C26_sum_value_exact_partial.
Print Assumptions C26_weighted_average_partial.
Print Assumptions C26_refuted.
Print Assumptions C27_convex_step.
Print Assumptions C27_geometric_convergence.
Print Assumptions C28_observers_once_each_side.
Print Assumptions C29_round_robin.
Print Assumptions C29_number_of_updates.
Print Assumptions C30_checkpoints_are_transparent.
Print Assumptions C31_positive_batch_size_partial.
Print Assumptions C75_split_into_jobs_is_irrelevant.
