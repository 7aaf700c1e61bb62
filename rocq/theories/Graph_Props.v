(** Properties C01-C06 of beer/graph.py:Graph. *)
From Coq Require Import Reals List Lra Lia Arith Bool Permutation Sorting.Sorted.
From Verif Require Import Prelude Graph_Model Graph_Spec Graph_Proofs Graph_Hist Graph_Lang Graph_Eps.
Import ListNotations.
Local Open Scope R_scope.

(** ** C01 *)

(** add_state never returns an identifier twice, whatever happens in between,
    and never one which is registered. *)
Theorem C01_fresh_ids : forall ops ops' g g' p p',
  run_ops ops empty_graph = Ok g ->
  run_ops ops' (snd (add_state g p)) = Ok g' ->
  ~ In (fst (add_state g p)) (states g) /\
  (fst (add_state g p) < fst (add_state g' p'))%nat.
Proof.
  intros ops ops' g g' p p' H H'.
  destruct (ordered_run _ _ _ ordered_empty H) as [O1 _].
  destruct (ordered_step g (OpState p) _ O1 eq_refl) as [O2 _].
  destruct (ordered_run _ _ _ O2 H') as [_ H3]. simpl in *. split; [|lia].
  intros Hc. apply O1 in Hc. lia.
Qed.

(** A state registered at some point is still there, with its pdf id, exactly
    when it has not been replaced. *)
Theorem C01_surviving_states : forall ops ops' g g' s o,
  run_ops ops empty_graph = Ok g -> run_ops ops' g = Ok g' -> In s (states g) ->
  (In (s, o) (g_states g') <->
   In (s, o) (g_states g) /\ forall h, ~ In (OpReplace s h) ops').
Proof.
  intros ops ops' g g' s o H H' Hs.
  destruct (ordered_run _ _ _ ordered_empty H) as [O1 _].
  apply survives_run; auto. now apply O1.
Qed.

(** compile() numbers the emitting states by increasing identifier (i.e. in
    insertion order) and pdf_id_mapping lists their pdf ids in that order. *)
Theorem C01_compiled_order : forall ops g c,
  run_ops ops empty_graph = Ok g -> compile g = Ok c ->
  exists sts, StronglySorted lt sts /\
    (forall s, In s sts <-> is_emitting g s) /\
    Forall2 (fun s p => In (s, Some p) (g_states g)) sts (c_map c) /\
    length (c_map c) = c_n c.
Proof.
  intros ops g c H Hc. destruct (ordered_run _ _ _ ordered_empty H) as [[O1 _] _].
  destruct (compile_map g c Hc) as [E1 E2].
  destruct (emitting_spec g O1) as [S1 S2].
  exists (map fst (emitting g)). split; [exact S1|]. split; [|split].
  - intros s. symmetry. apply emitting_in.
  - rewrite E1. unfold pdf_id_mapping.
    assert (G : forall l, incl l (emitting g) ->
      Forall2 (fun s p => In (s, Some p) (g_states g)) (map fst l) (map snd l)).
    { induction l as [|[s p] l IH]; intros Hl; simpl; constructor.
      - apply S2. apply Hl. now left.
      - apply IH. intros x Hx. apply Hl. now right. }
    apply G, incl_refl.
  - rewrite E1, E2. unfold pdf_id_mapping. apply map_length.
Qed.

(** Histories which only mention registered states (and replace states without
    self-loop by well-formed graphs) build well-formed graphs, which compile. *)
Theorem C01_good_histories_compile : forall ops g,
  good_history ops empty_graph -> run_ops ops empty_graph = Ok g ->
  wf g /\ exists c, compile g = Ok c.
Proof.
  intros ops g G H. assert (W : wf g) by (eapply wf_run; eauto; apply wf_empty).
  split; auto. now apply compile_ok.
Qed.

(** A two-state unit, and its use in another graph. *)
Definition unit_ops : list gop :=
  [OpState None; OpState (Some 7%nat); OpState None;
   OpArc 0 1 1; OpArc 1 1 (1/2); OpArc 1 2 (1/2); OpStart 0; OpEnd 2].
Definition unit_graph : graph :=
  Graph 3 [(0, None); (1, Some 7); (2, None)]%nat
        [Arc 0 1 1; Arc 1 1 (1/2); Arc 1 2 (1/2)] (Some 0%nat) (Some 2%nat).
Definition main_ops : list gop :=
  [OpState None; OpState None; OpState None; OpArc 0 1 1; OpArc 1 2 1;
   OpStart 0; OpEnd 2; OpReplace 1 unit_graph; OpState (Some 9%nat)].

Example ex_unit : run_ops unit_ops empty_graph = Ok unit_graph.
Proof. reflexivity. Qed.

Example ex_main : exists g, run_ops main_ops empty_graph = Ok g /\
  states g = [0; 2; 3; 4; 5; 6]%nat /\ pdf_id_mapping g = [7; 9]%nat.
Proof. eexists. split; [reflexivity|]. split; reflexivity. Qed.

Example ex_main_good : good_history main_ops empty_graph.
Proof.
  assert (W : wf unit_graph).
  { eapply (wf_run unit_ops empty_graph); [apply wf_empty| |apply ex_unit].
    unfold unit_ops.
    repeat (split; [simpl; tauto|let g := fresh "g" in let E := fresh "E" in intros g E; inv E]).
    exact I. }
  simpl. split; auto. intros g1 E; inv E. split; auto. intros g1 E; inv E.
  split; auto. intros g1 E; inv E. split; [simpl; auto|]. intros g1 E; inv E.
  split; [simpl; auto|]. intros g1 E; inv E. split; auto. intros g1 E; inv E.
  split; auto. intros g1 E; inv E. split.
  - split; [simpl; auto|]. split; [exact W|]. split.
    + intros a Ha. simpl in Ha. destruct Ha as [<-|[<-|[]]]; simpl; lia.
    + split; eexists; split; try reflexivity; simpl; auto.
  - intros g1 E. split; auto.
Qed.

(** ** C02 *)

(** normalize() succeeds exactly when no registered state with outgoing arcs has
    zero total weight; then each arc keeps its end points and its place, and the
    new weight is the old one divided by the old sum of its start state. *)
Theorem C02_normalize_exact : forall g, NoDup (states g) ->
  let total s := sumf (fun a => if Nat.eqb (a_start a) s then a_weight a else 0) (g_arcs g) in
  (forall g', normalize g = Ok g' ->
     g_states g' = g_states g /\ g_start g' = g_start g /\ g_end g' = g_end g /\
     Forall2 (fun a b => a_start b = a_start a /\ a_end b = a_end a /\
        (In (a_start a) (states g) -> a_weight b = a_weight a / total (a_start a)) /\
        (~ In (a_start a) (states g) -> a_weight b = a_weight a)) (g_arcs g) (g_arcs g') /\
     forall s, In s (states g) ->
        (forall a, In a (g_arcs g) -> a_start a <> s) \/
        (total s <> 0 /\
         sumf (fun a => if Nat.eqb (a_start a) s then a_weight a else 0) (g_arcs g') = 1)) /\
  (normalize g = Err ZeroDivisionError <->
     exists s, In s (states g) /\ (exists a, In a (g_arcs g) /\ a_start a = s) /\ total s = 0) /\
  (forall e, normalize g = Err e -> e = ZeroDivisionError).
Proof.
  intros g Hnd total.
  assert (Et : forall arcs s, out_sum arcs s =
     sumf (fun a => if Nat.eqb (a_start a) s then a_weight a else 0) arcs).
  { intros. unfold out_sum. now rewrite sumf_filter. }
  assert (Enz : forall s, ~ out_nonzero (g_arcs g) s <->
      (exists a, In a (g_arcs g) /\ a_start a = s) /\ total s = 0).
  { intros s. unfold out_nonzero. rewrite Et. fold (total s). split.
    - intros H. split.
      + destruct (filter (fun a => Nat.eqb (a_start a) s) (g_arcs g)) as [|b l] eqn:Ef.
        * exfalso. apply H. now left.
        * exists b. assert (Hb : In b (b :: l)) by now left. rewrite <- Ef in Hb.
          apply filter_In in Hb. destruct Hb as [Hb1 Hb2]. apply Nat.eqb_eq in Hb2. auto.
      + destruct (Req_EM_T (total s) 0); auto. exfalso. apply H. now right.
    - intros [(a & Ha & Es) H0] [H|H]; [|contradiction].
      assert (Hin : In a (filter (fun a => Nat.eqb (a_start a) s) (g_arcs g)))
        by (apply filter_In; split; auto; now apply Nat.eqb_eq).
      rewrite H in Hin. contradiction. }
  destruct (normalize_spec g Hnd) as [[H E]|[H E]]; rewrite E.
  - split; [|split].
    + intros g' Hg'. inv Hg'. simpl. repeat split.
      * assert (G : forall l, Forall2 (fun a b => a_start b = a_start a /\ a_end b = a_end a /\
        (In (a_start a) (states g) -> a_weight b = a_weight a / total (a_start a)) /\
        (~ In (a_start a) (states g) -> a_weight b = a_weight a)) l
          (map (norm1 (states g) (g_arcs g)) l)).
        { induction l as [|a l IH]; simpl; constructor; auto.
          unfold norm1. destruct (mem (a_start a) (states g)) eqn:Em; simpl.
          - apply mem_in in Em. rewrite Et. tauto.
          - apply mem_false in Em. tauto. }
        apply G.
      * intros s Hs. destruct (H s Hs) as [H0|H0].
        -- left. intros a Ha Es.
           assert (Hin : In a (filter (fun a => Nat.eqb (a_start a) s) (g_arcs g)))
             by (apply filter_In; split; auto; now apply Nat.eqb_eq).
           rewrite H0 in Hin. contradiction.
        -- right. rewrite Et in H0. split; [exact H0|].
           rewrite <- Et, out_sum_norm1. apply mem_in in Hs. rewrite Hs.
           rewrite <- Et in H0. field. exact H0.
    + split; [discriminate|]. intros (s & Hs & Hz). apply Enz in Hz. exfalso. auto.
    + discriminate.
  - split; [discriminate|]. split.
    + split; [|reflexivity]. intros _. destruct H as (s & Hs & Hz). exists s. split; auto.
      now apply Enz.
    + intros e He. now inv He.
Qed.

(** The iteration order of the arc set is irrelevant. *)
Theorem C02_order_independent : forall g arcs2, NoDup (states g) ->
  Permutation (g_arcs g) arcs2 ->
  match normalize g, normalize (with_arcs g arcs2) with
  | Ok g1, Ok g2 => Permutation (g_arcs g1) (g_arcs g2)
  | Err e1, Err e2 => e1 = e2
  | _, _ => False
  end.
Proof.
  intros g arcs2 Hnd Hp.
  assert (Es : forall s, out_sum arcs2 s = out_sum (g_arcs g) s).
  { intros s. unfold out_sum. rewrite !sumf_filter. apply sumf_perm. now apply Permutation_sym. }
  assert (Ez : forall s, out_nonzero arcs2 s <-> out_nonzero (g_arcs g) s).
  { intros s. unfold out_nonzero. rewrite Es.
    assert (Ef : filter (fun a => Nat.eqb (a_start a) s) (g_arcs g) = [] <->
                 filter (fun a => Nat.eqb (a_start a) s) arcs2 = []).
    { assert (F : forall l1 l2 : list arc, Permutation l1 l2 ->
         filter (fun a => Nat.eqb (a_start a) s) l1 = [] ->
         filter (fun a => Nat.eqb (a_start a) s) l2 = []).
      { intros l1 l2 Hl Hf. destruct (filter _ l2) as [|b l] eqn:E2; auto.
        assert (Hb : In b (filter (fun a => Nat.eqb (a_start a) s) l2)) by (rewrite E2; now left).
        apply filter_In in Hb. destruct Hb as [Hb1 Hb2].
        assert (Hb : In b (filter (fun a => Nat.eqb (a_start a) s) l1)).
        { apply filter_In. split; auto. eapply Permutation_in; [apply Permutation_sym; exact Hl|auto]. }
        rewrite Hf in Hb. contradiction. }
      split; apply F; auto. now apply Permutation_sym. }
    rewrite Ef. tauto. }
  destruct (normalize_spec g Hnd) as [[H1 E1]|[(s1 & H1 & H1') E1]];
  destruct (normalize_spec (with_arcs g arcs2) Hnd) as [[H2 E2]|[(s2 & H2 & H2') E2]];
  rewrite E1, E2; simpl in *; auto.
  - rewrite (map_ext (norm1 (states (with_arcs g arcs2)) arcs2) (norm1 (states g) (g_arcs g))).
    + now apply Permutation_map.
    + intros a. unfold norm1, states. simpl. now rewrite Es.
  - apply H2'. apply Ez. apply H1. exact H2.
  - apply H1'. apply Ez. apply H2. exact H1.
Qed.

Theorem C02_idempotent : forall g g', NoDup (states g) ->
  normalize g = Ok g' -> normalize g' = Ok g'.
Proof.
  intros g g' Hnd H.
  destruct (normalize_spec g Hnd) as [[H1 E1]|[_ E1]]; rewrite E1 in H; inv H.
  set (arcs := g_arcs g) in *. set (sts := states g) in *.
  assert (Est : states (with_arcs g (map (norm1 sts arcs) arcs)) = sts) by reflexivity.
  assert (Hs1 : forall s, In s sts ->
     filter (fun a => Nat.eqb (a_start a) s) (map (norm1 sts arcs) arcs) = [] \/
     out_sum (map (norm1 sts arcs) arcs) s = 1).
  { intros s Hs. destruct (H1 s Hs) as [H0|H0].
    - left. destruct (filter _ (map _ _)) as [|b l] eqn:Ef; auto.
      assert (Hb : In b (b :: l)) by now left. rewrite <- Ef in Hb.
      apply filter_In in Hb. destruct Hb as [Hb1 Hb2]. apply in_map_iff in Hb1.
      destruct Hb1 as (a & <- & Ha). rewrite <- H0. 
      assert (Hin : In a (filter (fun a => Nat.eqb (a_start a) s) arcs)).
      { apply filter_In. split; auto. pose proof (norm1_key sts arcs a) as K. unfold key in K.
        inversion K as [[K1 K2]]. rewrite <- ?K1. exact Hb2. }
      rewrite H0 in Hin. contradiction.
    - right. rewrite out_sum_norm1. apply mem_in in Hs. rewrite Hs. field. exact H0. }
  destruct (normalize_spec (with_arcs g (map (norm1 sts arcs) arcs)) Hnd)
    as [[H2 E2]|[(s & H2 & H3) E2]].
  - rewrite E2. rewrite Est. simpl. f_equal. unfold with_arcs. simpl. f_equal.
    rewrite <- (map_id (map (norm1 sts arcs) arcs)) at 3. apply map_ext_in. intros b Hb.
    unfold norm1 at 1. destruct (mem (a_start b) sts) eqn:Em; auto.
    apply mem_in in Em. destruct (Hs1 _ Em) as [H0|H0].
    + exfalso. assert (Hin : In b (filter (fun a => Nat.eqb (a_start a) (a_start b)) (map (norm1 sts arcs) arcs)))
        by (apply filter_In; split; auto; apply Nat.eqb_refl).
      rewrite H0 in Hin. contradiction.
    + rewrite H0. destruct b as [b1 b2 b3]. simpl. f_equal. field.
  - exfalso. apply H3. destruct (Hs1 s H2) as [H0|H0]; [now left|]. right. simpl. rewrite H0. lra.
Qed.

Example ex_C02 : exists g', normalize
    (Graph 2 [(0, None); (1, Some 0)]%nat [Arc 0 1 3; Arc 0 0 1] None None) = Ok g' /\
    map a_weight (g_arcs g') = [3/4; 1/4].
Proof.
  destruct (normalize_spec (Graph 2 [(0, None); (1, Some 0)]%nat [Arc 0 1 3; Arc 0 0 1] None None))
    as [[_ ->]|[(s & Hs & Hz) _]].
  - repeat constructor; simpl; intuition; lia.
  - eexists. split; [reflexivity|]. simpl. unfold norm1, mem, out_sum, sumf. simpl. 
    f_equal; [field|f_equal; field].
  - exfalso. simpl in Hs. destruct Hs as [<-|[<-|[]]]; apply Hz; unfold out_nonzero; simpl.
    + right. unfold out_sum, sumf. simpl. lra.
    + now left.
Qed.

(** ** C03 *)
Theorem C03_terminates : forall fwd g s w, find_pdf_ids fwd g s w <> None.
Proof. intros fwd g s w H. destruct (find_terminates fwd g s w) as (r & Hr). congruence. Qed.

Theorem C03_next_exact : forall g s w, wf g ->
  exists l, find_next_pdf_ids g (Some s) w = Some (Ok l) /\
    forall t, In t (map fst l) <-> next_emitting true g s t.
Proof.
  intros g s w W. destruct (find_ok true g (Some s) w W) as (l & Hl & _). exists l.
  split; [exact Hl|]. eapply find_exact; eauto.
Qed.

Theorem C03_previous_exact : forall g s w, wf g ->
  exists l, find_previous_pdf_ids g (Some s) w = Some (Ok l) /\
    forall t, In t (map fst l) <-> next_emitting false g s t.
Proof.
  intros g s w W. destruct (find_ok false g (Some s) w W) as (l & Hl & _). exists l.
  split; [exact Hl|]. eapply find_exact; eauto.
Qed.

(** When the start (end) state has never been set, every emitting state with an
    incoming (outgoing) arc is found instead. *)
Theorem C03_unset_state : forall fwd g w, wf g ->
  exists l, find_pdf_ids fwd g None w = Some (Ok l) /\
    forall t, In t (map fst l) <-> is_emitting g t /\ exists x, step fwd g x t.
Proof.
  intros fwd g w W. destruct (find_ok fwd g None w W) as (l & Hl & _). exists l.
  split; [exact Hl|]. eapply find_exact_unset; eauto.
Qed.

(** A cycle of non-emitting states (0 <-> 1) with an exit to 2. *)
Example ex_C03 : find_next_pdf_ids
   (Graph 3 [(0, None); (1, None); (2, Some 5)]%nat [Arc 0 1 1; Arc 1 0 1; Arc 1 2 1] None None)
   (Some 0%nat) 1 = Some (Ok [(2%nat, 1 * 1 * 1)]).
Proof. reflexivity. Qed.

(** ** C04 *)
Ltac nodup := repeat (apply NoDup_cons; [simpl; intuition congruence|]); apply NoDup_nil.


(** s=0 -> e1=1 -> e2=2 -> a=4 and e1 -> c=3. *)
Definition bad_graph : graph :=
  Graph 5 [(0, Some 0); (1, None); (2, None); (3, Some 1); (4, Some 2)]%nat
        [Arc 0 1 1; Arc 1 2 (1/2); Arc 1 3 (1/2); Arc 2 4 1] (Some 0%nat) (Some 4%nat).

Lemma bad_graph_wf : wf bad_graph.
Proof.
  constructor; simpl.
  - unfold states; simpl. nodup.
  - intros s Hs; intuition; lia.
  - intros a Ha. decompose [or] Ha; try contradiction; subst a; simpl; intuition.
  - unfold key; simpl. nodup.
Qed.

Lemma bad_graph_normalised : normalised bad_graph /\ nonneg_weights bad_graph /\ eps_acyclic bad_graph.
Proof.
  split; [|split].
  - intros s Hs. simpl in Hs.
    destruct Hs as [<-|[<-|[<-|[<-|[<-|[]]]]]];
      first [right; unfold sumf; simpl; lra
            |left; intros a Ha; simpl in Ha; decompose [or] Ha; try contradiction; subst a; simpl; lia].
  - intros a Ha. simpl in Ha. decompose [or] Ha; try contradiction; subst a; simpl; lra.
  - exists (fun s => 4 - s)%nat. intros a Ha Hs He. simpl in Ha.
    decompose [or] Ha; try contradiction; subst a; unfold non_emitting in *; simpl in *;
    try lia; intuition; congruence.
Qed.

(** The weight given to the path 0 -> 1 -> 2 -> 4 is 1 although the product of
    its weights is 1/2, in a well-formed, normalised, acyclic graph. *)
Theorem C04_path_weights_refuted :
  exists g m s t i j, wf g /\ normalised g /\ nonneg_weights g /\ eps_acyclic g /\
    raw_trans g = Ok m /\ state2pdf g s = Some i /\ state2pdf g t = Some j /\
    forall d, m i j <> eps_weight (3 + d) g s t.
Proof.
  exists bad_graph. eexists. exists 0%nat, 4%nat, 0%nat, 2%nat.
  destruct bad_graph_normalised as (H1 & H2 & H3).
  split; [apply bad_graph_wf|]. split; [exact H1|]. split; [exact H2|]. split; [exact H3|].
  split; [reflexivity|]. split; [reflexivity|]. split; [reflexivity|].
  intros d. unfold mat_add. simpl.
  assert (E : eps_weight (3 + d) bad_graph 0 4 = 1/2).
  { cbn [eps_weight plus]. unfold sumf. simpl. 
    destruct d; simpl; unfold sumf; simpl; lra. }
  simpl in E. rewrite E. lra.
Qed.

(** The claim holds when no arc links two non-emitting states: every epsilon
    path then has at most two arcs.  Missing for the full claim: longer paths,
    where the code drops the first weight after the start state and squares the
    last one (see the refutation). *)
Theorem C04_path_weights_partial : forall g m s t i j d, wf g -> no_eps_eps g ->
  raw_trans g = Ok m -> state2pdf g s = Some i -> state2pdf g t = Some j ->
  m i j = eps_weight (2 + d) g s t.
Proof. intros. now apply raw_trans_flat. Qed.

(** Same for the initial weights when the start state leads only to emitting
    states. *)
Theorem C04_init_weights_partial : forall g s v t j d, wf g -> g_start g = Some s ->
  (forall a, In a (g_arcs g) -> a_start a = s -> is_emitting g (a_end a)) ->
  raw_init g = Ok v -> state2pdf g t = Some j ->
  v j = eps_weight (1 + d) g s t.
Proof. intros. eapply raw_init_flat; eauto. Qed.

Definition flat_graph : graph :=
  Graph 4 [(0, Some 0); (1, None); (2, Some 1); (3, Some 2)]%nat
        [Arc 0 1 (1/2); Arc 0 2 (1/4); Arc 0 0 (1/4); Arc 1 2 (1/3); Arc 1 3 (2/3)]
        (Some 1%nat) None.

Lemma flat_graph_wf : wf flat_graph.
Proof.
  constructor; simpl.
  - unfold states; simpl. nodup.
  - intros s Hs; intuition; lia.
  - intros a Ha. decompose [or] Ha; try contradiction; subst a; simpl; intuition.
  - unfold key; simpl. nodup.
Qed.

Lemma flat_graph_flat : no_eps_eps flat_graph.
Proof.
  intros a Ha Hn. simpl in Ha. unfold is_emitting.
  decompose [or] Ha; try contradiction; subst a; simpl; eauto 10;
  exfalso; unfold non_emitting in Hn; simpl in Hn; intuition; congruence.
Qed.

Lemma flat_graph_norm : normalised flat_graph /\ nonneg_weights flat_graph.
Proof.
  split.
  - intros s Hs. simpl in Hs.
    destruct Hs as [<-|[<-|[<-|[<-|[]]]]];
      first [right; unfold sumf; simpl; lra
            |left; intros a Ha; simpl in Ha; decompose [or] Ha; try contradiction; subst a; simpl; lia].
  - intros a Ha. simpl in Ha. decompose [or] Ha; try contradiction; subst a; simpl; lra.
Qed.

Example ex_C04 : exists m, raw_trans flat_graph = Ok m /\ m 0%nat 1%nat = 1/4 + 1/2 * (1/3).
Proof.
  destruct (compile_ok flat_graph flat_graph_wf) as (c & Hc).
  destruct (compile_trans _ _ Hc) as (m & Hm & _). exists m. split; auto.
  rewrite (C04_path_weights_partial flat_graph m 0 2 0 1 0 flat_graph_wf flat_graph_flat Hm
             eq_refl eq_refl).
  simpl. unfold sumf. simpl. lra.
Qed.

(** ** C05 *)
Theorem C05_rows : forall n m i, (i < n)%nat ->
  norm_rows n m i i = m i i /\
  (0 < m i i -> 0 < sumf (m i) (seq 0 n) - m i i -> sumf (norm_rows n m i) (seq 0 n) = 1) /\
  ((forall j, (j < n)%nat -> 0 <= m i j) -> m i i <= 1 ->
     forall j, (j < n)%nat -> 0 <= norm_rows n m i j).
Proof.
  intros n m i Hi. unfold norm_rows. split; [apply norm_row_diag|]. split.
  - intros; now apply norm_row_sum.
  - intros; now apply norm_row_nonneg.
Qed.

(** Full claim, for the graphs without arc between non-emitting states. *)
Theorem C05_substochastic_partial : forall g c i, wf g -> no_eps_eps g ->
  nonneg_weights g -> normalised g -> compile g = Ok c -> (i < c_n c)%nat ->
  (forall j, (j < c_n c)%nat -> 0 <= c_trans c i j) /\
  sumf (c_trans c i) (seq 0 (c_n c)) <= 1.
Proof. exact rows_substochastic. Qed.

Example ex_C05 : exists c, compile flat_graph = Ok c /\ sumf (c_trans c 0%nat) (seq 0 3) = 1.
Proof.
  destruct (compile_ok flat_graph flat_graph_wf) as (c & Hc). exists c. split; auto.
  destruct (compile_trans _ _ Hc) as (m & Hm & En & Et). rewrite Et.
  destruct (C05_rows 3 m 0) as (_ & H & _); [lia|].
  pose proof (fun i j => C04_path_weights_partial flat_graph m i j) as P.
  assert (E : m 0%nat 0%nat = 1/4 /\ m 0%nat 1%nat = 5/12 /\ m 0%nat 2%nat = 1/3).
  { rewrite (P 0 0 0 0 0 flat_graph_wf flat_graph_flat Hm eq_refl eq_refl)%nat.
    rewrite (P 0 2 0 1 0 flat_graph_wf flat_graph_flat Hm eq_refl eq_refl)%nat.
    rewrite (P 0 3 0 2 0 flat_graph_wf flat_graph_flat Hm eq_refl eq_refl)%nat.
    simpl. unfold sumf. simpl. lra. }
  destruct E as (E0 & E1 & E2).
  apply H; [lra|]. unfold sumf. simpl. lra.
Qed.

(** In general a row of a normalised graph can sum to more than one. *)
Theorem C05_substochastic_refuted :
  exists g c i, wf g /\ normalised g /\ nonneg_weights g /\ eps_acyclic g /\
    compile g = Ok c /\ (i < c_n c)%nat /\ sumf (c_trans c i) (seq 0 (c_n c)) = 3/2.
Proof.
  exists bad_graph. destruct (compile_ok bad_graph bad_graph_wf) as (c & Hc). exists c, 0%nat.
  destruct bad_graph_normalised as (H1 & H2 & H3).
  split; [apply bad_graph_wf|]. split; [exact H1|]. split; [exact H2|]. split; [exact H3|].
  split; [exact Hc|]. destruct (compile_trans _ _ Hc) as (m & Hm & En & Et).
  rewrite En, Et. split; [simpl; lia|].
  assert (Hm' : raw_trans bad_graph = Ok m) by exact Hm. 
  cbv [raw_trans bad_graph g_arcs foldM acc_arc pdf_of a_start a_end a_weight lookup g_states
       Nat.eqb state2pdf emitting flat_map snd fst app index_of option_map bindr yields
       find_next_pdf_ids find_pdf_ids arcs_of out_arcs filter map rev explore dest mem existsb
       orb length plus] in Hm'.
  inversion Hm' as [Em].
  unfold norm_rows, norm_row. cbn [length emitting bad_graph g_states flat_map snd app].
  assert (E0 : m 0%nat 0%nat = 0) by (rewrite <- Em; unfold mat_add; simpl; lra).
  rewrite Em, E0. destruct (Rlt_dec 0 0); [lra|].
  rewrite <- Em. unfold sumf. simpl. unfold mat_add. simpl. lra.
Qed.

(** ** C06 *)

(** On well-formed graphs, for a state without self-loop: the replaced state
    disappears, the others keep their pdf id, a disjoint copy of the states of
    the sub-graph is added. *)
Theorem C06_replace_states : forall g h x hs he, wf g -> wf h -> In x (states g) ->
  g_start h = Some hs -> g_end h = Some he -> In hs (states h) -> In he (states h) ->
  no_self_loop g x ->
  exists g' r, replace_state g x h = Ok g' /\ wf g' /\
    (forall s t, In s (states h) -> In t (states h) -> r s = r t -> s = t) /\
    (forall s, In s (states h) -> ~ In (r s) (states g)) /\
    (forall s o, In (s, o) (g_states g') <->
       (In (s, o) (g_states g) /\ s <> x) \/ (exists t, In (t, o) (g_states h) /\ s = r t)) /\
    g_start g' = g_start g /\ g_end g' = g_end g.
Proof.
  intros g h x hs he Wg Wh Hx Hs He Hsin Hein Hl.
  exists (replaced g h x hs he), (rho (mkren g h)).
  split; [now apply replace_state_eq|]. split; [now apply replaced_wf|].
  split; [intros; eapply rho_inj; eauto|].
  split. { intros s H1 H2. apply (wf_fresh g Wg) in H2. apply (rho_range g h) in H1. lia. }
  split; [|auto]. intros s o. now apply in_replaced_states.
Qed.

(** The label sequences (with weights) of the new graph are those of the old
    graph where each visit to x is replaced by a sequence of the sub-graph. *)
Theorem C06_replace_language : forall g h x hs he s e, wf g -> wf h -> In x (states g) ->
  g_start h = Some hs -> g_end h = Some he -> In hs (states h) -> In he (states h) ->
  no_self_loop g x ->
  g_start g = Some s -> g_end g = Some e -> In s (states g) -> In e (states g) ->
  s <> x -> e <> x ->
  exists g', replace_state g x h = Ok g' /\
  forall ls w,
    generates g' ls w <->
    exists o ms w1 ls' w2, In (s, o) (g_states g) /\ mwalk g x s ms w1 e /\
       subst h ms ls' w2 /\ ls = label o ++ ls' /\ w = w1 * w2.
Proof.
  intros g h x hs he s e Wg Wh Hx Hs He Hsin Hein Hl E1 E2 I1 I2 N1 N2.
  exists (replaced g h x hs he). split; [now apply replace_state_eq|].
  intros. now apply replace_language.
Qed.

(** A state with a self-loop can never be replaced. *)
Theorem C06_self_loop_refuted : forall g h x hs he w, wf g -> wf h -> In x (states g) ->
  g_start h = Some hs -> g_end h = Some he -> In hs (states h) -> In he (states h) ->
  In (Arc x x w) (g_arcs g) -> replace_state g x h = Err KeyError.
Proof.
  intros g h x hs he w Wg Wh Hx Hs He Hsin Hein Hl.
  now apply (replace_self_loop g h x hs he Wg Wh Hx Hs He Hsin Hein (Arc x x w) Hl).
Qed.

(** Replacing the start (or end) state succeeds but leaves a graph which
    generates nothing. *)
Theorem C06_start_state_refuted : forall g h x hs he, wf g -> wf h -> In x (states g) ->
  g_start h = Some hs -> g_end h = Some he -> In hs (states h) -> In he (states h) ->
  no_self_loop g x -> g_start g = Some x ->
  exists g', replace_state g x h = Ok g' /\ forall ls w, ~ generates g' ls w.
Proof.
  intros g h x hs he Wg Wh Hx Hs He Hsin Hein Hl E.
  exists (replaced g h x hs he). split; [now apply replace_state_eq|].
  intros ls w (s & e & o & ls' & E1 & _ & Ho & _). simpl in E1. rewrite E in E1. inv E1.
  apply in_replaced_states in Ho; auto. destruct Ho as [[_ Ho]|(t & Ht & Et)]; [auto|].
  assert (Hts : In t (states h)) by (apply in_states_iff; eauto).
  apply (rho_range g h) in Hts. apply (wf_fresh g Wg) in Hx. lia.
Qed.

(** A sub-graph without end (start) state cannot replace a state with outgoing
    (incoming) arcs. *)
Theorem C06_unset_ends : forall g h x a, wf h -> In a (g_arcs g) ->
  (a_start a = x /\ g_end h = None) \/ (a_end a = x /\ g_start h = None) ->
  replace_state g x h = Err KeyError.
Proof.
  intros g h x a Wh Ha Hc. unfold replace_state. rewrite copy_states_eq. fold (states h). fold (mkren g h).
  rewrite copy_arcs_eq by (intros b Hb; rewrite mkren_dom; now apply (wf_arcs h Wh)).
  set (g2 := with_arcs _ _). cbn [bindr].
  assert (Ha2 : In a (g_arcs g2)).
  { unfold g2. simpl. generalize (map (rarc (mkren g h)) (g_arcs h)). intros l.
    assert (K : forall l acc, In a acc -> In a (fold_left arc_add l acc)).
    { induction l0 as [|b l0 IH]; intros acc Hacc; [exact Hacc|]. cbn [fold_left]. apply IH. unfold arc_add.
      destruct (existsb (same_key b) acc); [exact Hacc|]. apply in_or_app. now left. }
    now apply K. }
  assert (R : forall s e, rename_opt (mkren g h) s = Err e -> e = KeyError).
  { intros [s|] e; unfold rename_opt, rename; [destruct (lookup s (mkren g h)); [discriminate|]|]; congruence. }
  assert (M : forall o (f : arc -> nat -> arc) l e,
     mapM (fun a => bindr (rename_opt (mkren g h) o) (fun y => Ok (f a y))) l = Err e -> e = KeyError).
  { intros o f l e. induction l as [|b l IH]; cbn [mapM]; [discriminate|].
    destruct (rename_opt (mkren g h) o) as [y|e'] eqn:Ey; cbn [bindr].
    - destruct (mapM _ l); cbn [bindr]; [discriminate|]. intros H. inv H. now apply IH.
    - intros H. inv H. eapply R; eauto. }
  assert (N : forall (f : arc -> nat -> arc) l, l <> [] ->
     mapM (fun a => bindr (rename_opt (mkren g h) None) (fun y => Ok (f a y))) l = Err KeyError).
  { intros f [|b l] Hl; [congruence|reflexivity]. }
  unfold reroute. destruct (mapM _ (out_arcs g2 x)) as [l1|e1] eqn:E1; cbn [bindr].
  2:{ now rewrite (M _ (fun a e => Arc e (a_end a) (a_weight a)) _ _ E1). }
  destruct Hc as [[Hs Hn]|[He Hn]].
  - exfalso. rewrite Hn in E1. rewrite (N (fun a e => Arc e (a_end a) (a_weight a))) in E1; [discriminate|].
    intros Hnil. assert (Hf : In a (out_arcs g2 x)) by (apply filter_In; split; auto; now apply Nat.eqb_eq).
    rewrite Hnil in Hf. contradiction.
  - rewrite Hn. rewrite (N (fun a s => Arc (a_start a) s (a_weight a))); [reflexivity|].
    intros Hnil. assert (Hf : In a (in_arcs g2 x)) by (apply filter_In; split; auto; now apply Nat.eqb_eq).
    rewrite Hnil in Hf. contradiction.
Qed.

(** 0 -> 1 -> 2 where 1 is replaced by the unit: generates 7, 7 7, ... *)
Example ex_C06 : exists g', replace_state
   (Graph 3 [(0, None); (1, None); (2, None)]%nat [Arc 0 1 1; Arc 1 2 1] (Some 0%nat) (Some 2%nat))
   1 unit_graph = Ok g' /\ generates g' [7; 7]%nat (1 * (1 * (1/2 * (1/2 * (1 * 1))))).
Proof.
  eexists. split; [reflexivity|]. exists 0%nat, 2%nat, None, [7;7]%nat.
  split; [reflexivity|]. split; [reflexivity|]. split; [simpl; auto|]. split; [|reflexivity].
  apply (walk_cons _ 0 3 None [7;7]%nat); [simpl; auto 10|simpl; auto 10|].
  apply (walk_cons _ 3 4 (Some 7)%nat [7]%nat); [simpl; auto 10|simpl; auto 10|].
  apply (walk_cons _ 4 4 (Some 7)%nat []%nat); [simpl; auto 10|simpl; auto 10|].
  apply (walk_cons _ 4 5 None []%nat); [simpl; auto 10|simpl; auto 10|].
  apply (walk_cons _ 5 2 None []%nat); [simpl; auto 10|simpl; auto 10|].
  constructor.
Qed.

Print Assumptions C01_fresh_ids.
Print Assumptions C01_compiled_order.
Print Assumptions C01_good_histories_compile.
Print Assumptions C02_normalize_exact.
Print Assumptions C03_next_exact.
Print Assumptions C04_path_weights_partial.
Print Assumptions C04_path_weights_refuted.
Print Assumptions C05_substochastic_partial.
Print Assumptions C05_substochastic_refuted.
Print Assumptions C06_replace_language.
Print Assumptions C06_self_loop_refuted.
Print Assumptions C06_start_state_refuted.
Print Assumptions C06_unset_ends.
