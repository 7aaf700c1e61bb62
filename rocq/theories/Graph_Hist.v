(** C01 and C02: histories of graph operations, normalisation. *)
From Coq Require Import Reals List Lra Lia Arith Bool Permutation Sorting.Sorted.
From Verif Require Import Prelude Graph_Model Graph_Spec Graph_Proofs.
Import ListNotations.
Local Open Scope R_scope.

(** ** Histories *)

(** The calls (and attribute writes) a user can make on a Graph; [h] is any
    other graph. *)
Inductive gop : Type :=
| OpState (pdf : option nat)
| OpArc (s e : nat) (w : R)
| OpNormalize
| OpReplace (s : nat) (h : graph)
| OpStart (s : nat)
| OpEnd (s : nat).

Definition apply_op (g : graph) (o : gop) : result graph :=
  match o with
  | OpState p => Ok (snd (add_state g p))
  | OpArc s e w => Ok (add_arc g s e w)
  | OpNormalize => normalize g
  | OpReplace s h => replace_state g s h
  | OpStart s => Ok (set_start g s)
  | OpEnd s => Ok (set_end g s)
  end.

Definition run_ops (ops : list gop) (g : graph) : result graph := foldM apply_op ops g.

Lemma foldM_app {A S} (f : S -> A -> result S) l1 l2 s :
  foldM f (l1 ++ l2) s = bindr (foldM f l1 s) (foldM f l2).
Proof.
  revert s. induction l1 as [|a l1 IH]; intros s; simpl; [reflexivity|].
  destruct (f s a); simpl; auto.
Qed.

Lemma copy_arcs_states ren arcs : forall g g',
  foldM (copy_arc ren) arcs g = Ok g' ->
  g_states g' = g_states g /\ g_count g' = g_count g.
Proof.
  induction arcs as [|a arcs IH]; intros g g' H; simpl in H.
  - inv H. auto.
  - unfold copy_arc at 1 in H. destruct (rename ren (a_start a)); [|discriminate].
    destruct (rename ren (a_end a)); [|discriminate]. simpl in H.
    apply IH in H. simpl in H. exact H.
Qed.

(** Whatever the arcs, a successful replacement has this effect on the states. *)
Lemma replace_states g x h g' :
  replace_state g x h = Ok g' ->
  g_count g' = (g_count g + length (g_states h))%nat /\
  In x (states g ++ seq (g_count g) (length (g_states h))) /\
  g_states g' = filter (fun s => negb (Nat.eqb (fst s) x))
     (g_states g ++ combine (seq (g_count g) (length (g_states h))) (map snd (g_states h))).
Proof.
  unfold replace_state. rewrite copy_states_eq. intros H.
  match type of H with bindr ?r _ = _ => destruct r as [g2|] eqn:E2; [|discriminate] end.
  simpl in H. apply copy_arcs_states in E2. simpl in E2. destruct E2 as [Es Ec].
  match type of H with bindr ?r _ = _ => destruct r as [l|]; [|discriminate] end.
  simpl in H.
  match type of H with bindr ?r _ = _ => destruct r as [l'|]; [|discriminate] end.
  simpl in H. unfold del_state, pdf_of in H. simpl in H. rewrite Es in H.
  match type of H with match ?r with _ => _ end = _ => destruct r as [o|] eqn:El; [|discriminate] end.
  inv H. simpl. split; [exact Ec|]. split; [|reflexivity].
  apply lookup_in in El. apply (in_map fst) in El. rewrite map_app in El. simpl in El.
  rewrite combine_map_fst in El by now rewrite seq_length, map_length. exact El.
Qed.

Lemma normalize_states g g' :
  normalize g = Ok g' -> g_states g' = g_states g /\ g_count g' = g_count g.
Proof.
  unfold normalize. destruct (foldM normalize_state (states g) (g_arcs g)); [|discriminate].
  intros H. inv H. auto.
Qed.

(** ** Invariant: ids are increasing and below the counter *)
Definition ordered (g : graph) : Prop :=
  StronglySorted lt (states g) /\ forall s, In s (states g) -> (s < g_count g)%nat.

Lemma SSorted_app (l1 l2 : list nat) :
  StronglySorted lt l1 -> StronglySorted lt l2 ->
  (forall a b, In a l1 -> In b l2 -> (a < b)%nat) -> StronglySorted lt (l1 ++ l2).
Proof.
  induction l1 as [|a l1 IH]; simpl; intros H1 H2 H; [exact H2|].
  inversion_clear H1 as [|? ? H1' Ha]. constructor.
  - apply IH; auto.
  - apply Forall_app. split; [exact Ha|]. apply Forall_forall. intros b Hb. auto.
Qed.

Lemma SSorted_seq n : forall a, StronglySorted lt (seq a n).
Proof.
  induction n as [|n IH]; intros a; simpl; constructor; auto.
  apply Forall_forall. intros x Hx. apply in_seq in Hx. lia.
Qed.

Lemma SSorted_map_filter {A} (f : A -> nat) p l :
  StronglySorted lt (map f l) -> StronglySorted lt (map f (filter p l)).
Proof.
  induction l as [|a l IH]; simpl; intros H; [constructor|].
  inversion_clear H as [|? ? H' Ha]. destruct (p a); simpl; auto. constructor; auto.
  rewrite Forall_forall in *. intros y Hy. apply Ha. apply in_map_iff in Hy.
  destruct Hy as (b & <- & Hb). apply filter_In in Hb. apply in_map. tauto.
Qed.

Lemma ordered_step g o g' : ordered g -> apply_op g o = Ok g' ->
  ordered g' /\ (g_count g <= g_count g')%nat.
Proof.
  intros [H1 H2] H. destruct o; simpl in H.
  - inv H. unfold ordered, states in *. simpl. rewrite map_app. simpl. split; [split|lia].
    + apply SSorted_app; auto. { constructor; constructor. }
      intros a b Ha [<-|[]]. auto.
    + intros s Hs. apply in_app_iff in Hs. destruct Hs as [Hs|[<-|[]]]; [|lia].
      apply H2 in Hs. lia.
  - inv H. unfold ordered, states in *. simpl. auto.
  - apply normalize_states in H. destruct H as [E1 E2]. unfold ordered, states in *.
    rewrite E1, E2. auto.
  - apply replace_states in H. destruct H as (E1 & _ & E2).
    unfold ordered, states in *. rewrite E1, E2. split; [split|lia].
    + apply SSorted_map_filter. rewrite map_app.
      rewrite combine_map_fst by now rewrite seq_length, map_length.
      apply SSorted_app; auto. { apply SSorted_seq. }
      intros a b Ha Hb. apply in_seq in Hb. apply H2 in Ha. lia.
    + intros t Ht. apply in_map_iff in Ht. destruct Ht as ([t' o] & <- & Ht).
      apply filter_In in Ht. destruct Ht as [Ht _]. apply in_app_iff in Ht. simpl.
      destruct Ht as [Ht|Ht].
      * apply (in_map fst) in Ht. apply H2 in Ht. simpl in Ht. lia.
      * apply in_combine_l in Ht. apply in_seq in Ht. lia.
  - inv H. unfold ordered, states in *. simpl. auto.
  - inv H. unfold ordered, states in *. simpl. auto.
Qed.

Lemma ordered_run ops : forall g g', ordered g -> run_ops ops g = Ok g' ->
  ordered g' /\ (g_count g <= g_count g')%nat.
Proof.
  induction ops as [|o ops IH]; intros g g' Hg H; unfold run_ops in *; simpl in H.
  - inv H. auto.
  - destruct (apply_op g o) as [g1|] eqn:E; [|discriminate]. simpl in H.
    destruct (ordered_step _ _ _ Hg E) as [Hg1 Hle].
    destruct (IH _ _ Hg1 H) as [H1 H2]. split; auto. lia.
Qed.

Lemma ordered_empty : ordered empty_graph.
Proof. split; simpl; [constructor|tauto]. Qed.

Lemma SSorted_NoDup (l : list nat) : StronglySorted lt l -> NoDup l.
Proof.
  induction 1 as [|a l H IH Ha]; constructor; auto.
  intros Hc. rewrite Forall_forall in Ha. apply Ha in Hc. lia.
Qed.

(** A registered state survives an operation unless it is the replaced one; no
    old id is ever re-registered. *)
Lemma survives_step g o g' s p :
  ordered g -> apply_op g o = Ok g' -> (s < g_count g)%nat ->
  (In (s, p) (g_states g') <->
   In (s, p) (g_states g) /\ forall h, o <> OpReplace s h).
Proof.
  intros [H1 H2] H Hs. destruct o as [p0| | |x h| |]; simpl in H.
  - inv H. simpl. rewrite in_app_iff. simpl. split.
    + intros [Hi|[Hi|[]]]; [split; [auto|intros h; discriminate]|]. inv Hi. lia.
    + intros [Hi _]. auto.
  - inv H. simpl. split; [intros Hi; split; [exact Hi|intros h; discriminate]|tauto].
  - apply normalize_states in H. destruct H as [E1 _]. rewrite E1.
    split; [intros Hi; split; [exact Hi|intros h; discriminate]|tauto].
  - apply replace_states in H. destruct H as (_ & _ & E). rewrite E, filter_In, in_app_iff.
    simpl. rewrite negb_true_iff, Nat.eqb_neq. split.
    + intros [[Hi|Hi] Hne].
      * split; auto. intros h' Hc. inv Hc. auto.
      * apply in_combine_l in Hi. apply in_seq in Hi. lia.
    + intros [Hi Hne]. split; auto. intros ->. apply (Hne h). reflexivity.
  - inv H. simpl. split; [intros Hi; split; [exact Hi|intros h; discriminate]|tauto].
  - inv H. simpl. split; [intros Hi; split; [exact Hi|intros h; discriminate]|tauto].
Qed.

Lemma survives_run ops : forall g g' s p,
  ordered g -> run_ops ops g = Ok g' -> (s < g_count g)%nat ->
  (In (s, p) (g_states g') <->
   In (s, p) (g_states g) /\ forall h, ~ In (OpReplace s h) ops).
Proof.
  induction ops as [|o ops IH]; intros g g' s p Hg H Hs; unfold run_ops in *; simpl in H.
  - inv H. simpl. tauto.
  - destruct (apply_op g o) as [g1|] eqn:E; [|discriminate]. simpl in H.
    destruct (ordered_step _ _ _ Hg E) as [Hg1 Hle].
    rewrite (IH g1 g' s p Hg1 H) by lia.
    rewrite (survives_step g o g1 s p Hg E Hs). simpl. split.
    + intros [[Hi Hn] Hr]. split; auto. intros h [Hc|Hc]; [apply (Hn h Hc)|apply (Hr h Hc)].
    + intros [Hi Hr]. split; [split; auto|].
      * intros h Hc. apply (Hr h). now left.
      * intros h Hc. apply (Hr h). now right.
Qed.

(** ** The compiled numbering *)
Lemma emitting_spec g : StronglySorted lt (states g) ->
  StronglySorted lt (map fst (emitting g)) /\
  (forall s p, In (s, p) (emitting g) <-> In (s, Some p) (g_states g)).
Proof.
  unfold emitting, states. induction (g_states g) as [|[s o] l IH]; simpl; intros H.
  - split; [constructor|tauto].
  - inversion_clear H as [|? ? H' Ha]. destruct (IH H') as [IH1 IH2].
    destruct o as [p|]; simpl.
    + split.
      * constructor; auto. rewrite Forall_forall in *. intros y Hy. apply in_map_iff in Hy.
        destruct Hy as ([t q] & <- & Hq). apply IH2 in Hq. simpl. apply Ha.
        apply (in_map fst) in Hq. exact Hq.
      * intros t q. rewrite IH2. split; (intros [E|Hq]; [inv E; now left|now right]).
    + split; auto. intros t q. rewrite IH2. split; [auto|].
      intros [E|Hq]; [discriminate|auto].
Qed.

Lemma compile_map g c : compile g = Ok c -> c_map c = pdf_id_mapping g /\ c_n c = length (emitting g).
Proof.
  unfold compile. destruct (raw_init g); [|discriminate]. simpl.
  destruct (raw_final g); [|discriminate]. simpl.
  destruct (raw_trans g); [|discriminate]. simpl. intros H; inv H. auto.
Qed.

(** ** C02 *)
Definition out_nonzero (arcs : list arc) (s : nat) : Prop :=
  filter (fun a => Nat.eqb (a_start a) s) arcs = [] \/ out_sum arcs s <> 0.

Definition norm1 (sts : list nat) (arcs : list arc) (a : arc) : arc :=
  if mem (a_start a) sts
  then Arc (a_start a) (a_end a) (a_weight a / out_sum arcs (a_start a)) else a.

Lemma mem_in x l : mem x l = true <-> In x l.
Proof.
  unfold mem. rewrite existsb_exists. split.
  - intros (y & Hy & E). apply Nat.eqb_eq in E. now subst.
  - intros H. exists x. split; auto. apply Nat.eqb_refl.
Qed.

Lemma mem_false x l : mem x l = false <-> ~ In x l.
Proof. rewrite <- mem_in. destruct (mem x l); intuition congruence. Qed.

Lemma out_sum_scale arcs s c t :
  out_sum (scale_out arcs s c) t = if Nat.eqb t s then out_sum arcs t / c else out_sum arcs t.
Proof.
  unfold out_sum, scale_out. induction arcs as [|a arcs IH]; simpl.
  - destruct (Nat.eqb t s); unfold sumf; simpl; lra.
  - destruct (Nat.eqb (a_start a) s) eqn:E1; simpl;
    destruct (Nat.eqb (a_start a) t) eqn:E2; simpl; rewrite ?sumf_cons; rewrite IH;
    try (apply Nat.eqb_eq in E1); try (apply Nat.eqb_eq in E2);
    destruct (Nat.eqb t s) eqn:E3; simpl; try lra;
    try (apply Nat.eqb_eq in E3); try (apply Nat.eqb_neq in E3); 
    try (apply Nat.eqb_neq in E1); try congruence; lra.
Qed.

Lemma filter_scale arcs s c t :
  filter (fun a => Nat.eqb (a_start a) t) (scale_out arcs s c) = [] <->
  filter (fun a => Nat.eqb (a_start a) t) arcs = [].
Proof.
  unfold scale_out. induction arcs as [|a arcs IH]; simpl; [tauto|].
  destruct (Nat.eqb (a_start a) s); simpl; destruct (Nat.eqb (a_start a) t); auto;
  split; discriminate.
Qed.

Lemma normalize_state_spec arcs s :
  (out_nonzero arcs s -> normalize_state arcs s = Ok (map (norm1 [s] arcs) arcs)) /\
  (~ out_nonzero arcs s -> normalize_state arcs s = Err ZeroDivisionError).
Proof.
  assert (E1 : forall a, norm1 [s] arcs a =
     if Nat.eqb (a_start a) s then Arc (a_start a) (a_end a) (a_weight a / out_sum arcs s) else a).
  { intros a. unfold norm1, mem. simpl. rewrite orb_false_r.
    destruct (Nat.eqb (a_start a) s) eqn:E; auto. apply Nat.eqb_eq in E. now rewrite E. }
  unfold normalize_state, out_nonzero.
  destruct (filter (fun a => Nat.eqb (a_start a) s) arcs) as [|b l] eqn:Ef.
  - split; [|tauto]. intros _. f_equal.
    rewrite <- (map_id arcs) at 1. apply map_ext_in. intros a Ha. rewrite E1.
    destruct (Nat.eqb (a_start a) s) eqn:E; auto. exfalso.
    assert (In a (filter (fun a => Nat.eqb (a_start a) s) arcs)) by (apply filter_In; auto).
    rewrite Ef in H. contradiction.
  - destruct (Req_EM_T (out_sum arcs s) 0) as [E|E].
    + split; [intros [H|H]; [discriminate|contradiction]|reflexivity].
    + split; [|tauto]. intros _. f_equal. apply map_ext. intros a. now rewrite E1.
Qed.

Lemma scale_is_norm1 arcs s : map (norm1 [s] arcs) arcs = scale_out arcs s (out_sum arcs s).
Proof.
  unfold scale_out. apply map_ext. intros a. unfold norm1, mem. simpl. rewrite orb_false_r.
  destruct (Nat.eqb (a_start a) s) eqn:E; auto. apply Nat.eqb_eq in E. now rewrite E.
Qed.

Lemma out_nonzero_dec arcs s : out_nonzero arcs s \/ ~ out_nonzero arcs s.
Proof.
  unfold out_nonzero. destruct (filter (fun a => Nat.eqb (a_start a) s) arcs); [left; now left|].
  destruct (Req_EM_T (out_sum arcs s) 0); [right; intros [H|H]; [discriminate|auto]|left; now right].
Qed.

Lemma normalize_fold sts : forall arcs, NoDup sts ->
  ((forall s, In s sts -> out_nonzero arcs s) ->
     foldM normalize_state sts arcs = Ok (map (norm1 sts arcs) arcs)) /\
  ((exists s, In s sts /\ ~ out_nonzero arcs s) ->
     foldM normalize_state sts arcs = Err ZeroDivisionError).
Proof.
  induction sts as [|s sts IH]; intros arcs Hnd.
  - simpl. split; [|intros (s & [] & _)]. intros _. f_equal. rewrite <- (map_id arcs) at 1.
    apply map_ext. intros a. reflexivity.
  - inversion_clear Hnd as [|? ? Hs Hnd'].
    destruct (normalize_state_spec arcs s) as [N1 N2].
    assert (Hother : forall t, In t sts ->
      (out_nonzero (scale_out arcs s (out_sum arcs s)) t <-> out_nonzero arcs t)).
    { intros t Ht. unfold out_nonzero. rewrite filter_scale, out_sum_scale.
      destruct (Nat.eqb t s) eqn:E; [|tauto]. apply Nat.eqb_eq in E. subst. contradiction. }
    destruct (IH (scale_out arcs s (out_sum arcs s)) Hnd') as [I1 I2]. simpl. split.
    + intros H. rewrite N1 by (apply H; now left). simpl. rewrite scale_is_norm1.
      rewrite I1 by (intros t Ht; apply Hother; auto; apply H; now right).
      f_equal. unfold scale_out at 2. rewrite map_map. apply map_ext_in. intros a Ha.
      unfold norm1 at 2. unfold mem. simpl.
      destruct (Nat.eqb (a_start a) s) eqn:E; simpl.
      * apply Nat.eqb_eq in E. unfold norm1. simpl.
        assert (Hm : mem (a_start a) sts = false) by (apply mem_false; congruence).
        rewrite Hm, E. reflexivity.
      * unfold norm1. fold (mem (a_start a) sts).
        destruct (mem (a_start a) sts); auto. rewrite out_sum_scale.
        now rewrite E.
    + intros (t & [<-|Ht] & Hn).
      * rewrite N2 by exact Hn. reflexivity.
      * destruct (normalize_state arcs s) as [l|e] eqn:El.
        -- simpl.
           assert (El' : l = scale_out arcs s (out_sum arcs s)).
           { rewrite <- scale_is_norm1.
             destruct (out_nonzero_dec arcs s) as [Ho|Ho].
             - specialize (N1 Ho). congruence.
             - specialize (N2 Ho). discriminate. }
           rewrite El'. apply I2. exists t. split; auto. now rewrite Hother.
        -- destruct (out_nonzero_dec arcs s) as [Ho|Ho].
           ++ specialize (N1 Ho). discriminate.
           ++ specialize (N2 Ho). exact N2.
Qed.

Lemma normalize_spec g : NoDup (states g) ->
  ((forall s, In s (states g) -> out_nonzero (g_arcs g) s) /\
     normalize g = Ok (with_arcs g (map (norm1 (states g) (g_arcs g)) (g_arcs g)))) \/
  ((exists s, In s (states g) /\ ~ out_nonzero (g_arcs g) s) /\
     normalize g = Err ZeroDivisionError).
Proof.
  intros Hnd. destruct (normalize_fold (states g) (g_arcs g) Hnd) as [H1 H2].
  assert (D : (forall s, In s (states g) -> out_nonzero (g_arcs g) s) \/
              (exists s, In s (states g) /\ ~ out_nonzero (g_arcs g) s)).
  { clear. induction (states g) as [|s l IH]; [left; intros s []|].
    destruct (out_nonzero_dec (g_arcs g) s) as [Hs|Hs].
    - destruct IH as [IH|(t & Ht & IH)].
      + left. intros t [<-|Ht]; auto.
      + right. exists t. split; [now right|auto].
    - right. exists s. split; [now left|auto]. }
  unfold normalize. destruct D as [D|D].
  - left. split; auto. rewrite (H1 D). reflexivity.
  - right. split; auto. rewrite (H2 D). reflexivity.
Qed.

Lemma out_sum_norm1 sts arcs s :
  out_sum (map (norm1 sts arcs) arcs) s =
  if mem s sts then out_sum arcs s / out_sum arcs s else out_sum arcs s.
Proof.
  assert (G : forall l, sumf a_weight (filter (fun a => Nat.eqb (a_start a) s) (map (norm1 sts arcs) l)) =
     if mem s sts then sumf a_weight (filter (fun a => Nat.eqb (a_start a) s) l) / out_sum arcs s
     else sumf a_weight (filter (fun a => Nat.eqb (a_start a) s) l)).
  { induction l as [|a l IH]; simpl.
    - destruct (mem s sts); unfold sumf; simpl; lra.
    - assert (Es : a_start (norm1 sts arcs a) = a_start a).
      { unfold norm1. destruct (mem (a_start a) sts); reflexivity. }
      rewrite Es. destruct (Nat.eqb (a_start a) s) eqn:E; [|exact IH].
      rewrite !sumf_cons, IH. apply Nat.eqb_eq in E. unfold norm1. rewrite E.
      destruct (mem s sts); simpl; lra. }
  apply G.
Qed.

(** ** Well-used histories keep the graph well formed *)
Definition good_op (g : graph) (o : gop) : Prop :=
  match o with
  | OpArc s e _ => In s (states g) /\ In e (states g)
  | OpReplace x h => In x (states g) /\ wf h /\ no_self_loop g x /\
      (exists s, g_start h = Some s /\ In s (states h)) /\
      (exists e, g_end h = Some e /\ In e (states h))
  | _ => True
  end.

Fixpoint good_history (ops : list gop) (g : graph) : Prop :=
  match ops with
  | [] => True
  | o :: ops => good_op g o /\
                forall g', apply_op g o = Ok g' -> good_history ops g'
  end.

Lemma norm1_key sts arcs a : key (norm1 sts arcs a) = key a.
Proof. unfold norm1. destruct (mem (a_start a) sts); reflexivity. Qed.

Lemma wf_step g o g' : wf g -> good_op g o -> apply_op g o = Ok g' -> wf g'.
Proof.
  intros W G H. destruct o as [p|s e w| |x h|s|s]; simpl in H, G.
  - inv H. assert (Est : forall s, In s (states (snd (add_state g p))) <->
              In s (states g) \/ s = g_count g).
    { intros s. unfold states. simpl. rewrite map_app, in_app_iff. simpl. intuition. }
    constructor.
    + unfold states. simpl. rewrite map_app. simpl. apply NoDup_app_intro.
      * apply W.
      * repeat constructor. simpl. tauto.
      * intros y H1 [<-|[]]. apply (wf_fresh g W) in H1. lia.
    + intros s Hs. apply Est in Hs. simpl. destruct Hs as [Hs| ->]; [|lia].
      apply (wf_fresh g W) in Hs. lia.
    + intros a Ha. rewrite !Est. destruct (wf_arcs g W a Ha). auto.
    + apply W.
  - inv H. destruct G as [G1 G2]. constructor; try apply W.
    + intros a Ha. simpl in Ha. apply arc_add_in in Ha. destruct Ha as [Ha| ->].
      * apply (wf_arcs g W a Ha).
      * split; assumption.
    + simpl. apply arc_add_nodup. apply W.
  - destruct (normalize_spec g (wf_nodup g W)) as [[_ E]|[_ E]]; rewrite E in H; inv H.
    constructor; try apply W.
    + intros a Ha. simpl in Ha. apply in_map_iff in Ha. destruct Ha as (b & <- & Hb).
      assert (E1 : a_start (norm1 (states g) (g_arcs g) b) = a_start b)
        by (unfold norm1; destruct (mem (a_start b) (states g)); reflexivity).
      assert (E2 : a_end (norm1 (states g) (g_arcs g) b) = a_end b)
        by (unfold norm1; destruct (mem (a_start b) (states g)); reflexivity).
      rewrite E1, E2. apply (wf_arcs g W b Hb).
    + simpl. rewrite map_map. rewrite (map_ext _ key) by (apply norm1_key). apply W.
  - destruct G as (G1 & G2 & G3 & (hs & G4 & G5) & (he & G6 & G7)).
    rewrite (replace_state_eq g h x hs he) in H; auto. inv H. apply replaced_wf; auto.
  - inv H. constructor; apply W.
  - inv H. constructor; apply W.
Qed.

Lemma wf_run ops : forall g g', wf g -> good_history ops g -> run_ops ops g = Ok g' -> wf g'.
Proof.
  induction ops as [|o ops IH]; intros g g' W G H; unfold run_ops in *; simpl in *.
  - now inv H.
  - destruct G as [G1 G2]. destruct (apply_op g o) as [g1|] eqn:E; [|discriminate].
    simpl in H. eapply IH; [|eauto|exact H]. eapply wf_step; eauto.
Qed.

Lemma wf_empty : wf empty_graph.
Proof. constructor; simpl; try tauto; constructor. Qed.
