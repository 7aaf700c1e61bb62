(** C104: the compiled graph accepts the sequences of the graph. *)
From Coq Require Import Reals String List Arith Bool Lra Lia.
From Verif Require Import Prelude Graph_Model Graph_Spec Graph_Proofs Graph_Eps Graph_Hist
  Graph_Lang Gb_Model Gb_Spec Gb_Lang Gb_Proofs Gb_Loop Gb_Props Cl_Spec Cl_Proofs.
Import ListNotations.
Local Open Scope R_scope.

(** Positive weights, non-emitting ends and no compiled self-transition of
    probability one or more. *)
Theorem C104_compile_language_partial : forall g s e c, wf g ->
  (forall a, In a (g_arcs g) -> 0 < a_weight a) ->
  g_start g = Some s -> g_end g = Some e -> non_emitting g s -> non_emitting g e ->
  compile g = Ok c -> (forall i, (i < c_n c)%nat -> c_trans c i i < 1) ->
  forall ls, ls <> [] -> (accepts g ls <-> chain_accepts c ls).
Proof. intros; eapply compile_language; eauto. Qed.

(** The last hypothesis holds when a self-loop weight is below one and no path
    through non-emitting states returns to the state it left. *)
Lemma diag_direct g c : wf g -> compile g = Ok c ->
  (forall a, In a (g_arcs g) -> a_start a = a_end a -> a_weight a < 1) ->
  (forall a, In a (g_arcs g) -> non_emitting g (a_end a) ->
     ~ next_emitting true g (a_end a) (a_start a)) ->
  forall i, (i < c_n c)%nat -> c_trans c i i < 1.
Proof.
  intros W Hc Hself Hret i Hi. destruct (compile_trans g c Hc) as (m & Em & En & Et).
  destruct (raw_trans_eq g W) as (m' & Em' & Hm). assert (m' = m) by congruence. subst m'.
  rewrite Et. unfold norm_rows. rewrite norm_row_diag, Hm.
  rewrite En in Hi. destruct (idx_surj g W i Hi) as (x & Hx).
  assert (Hterm : forall a, In a (g_arcs g) ->
    (if at_idx g (a_start a) i
     then sumf (fun y => if at_idx g (fst y) i then snd y else 0) (follow g a) else 0) =
    if Nat.eqb (a_start a) x && Nat.eqb (a_end a) x then a_weight a else 0).
  { intros a Ha. rewrite (at_idx_eq g x i (a_start a) Hx).
    destruct (Nat.eqb (a_start a) x) eqn:Es; [|reflexivity]. apply Nat.eqb_eq in Es. cbn [andb].
    rewrite (sumf_ext (fun y => if at_idx g (fst y) i then snd y else 0)
                      (fun y => if Nat.eqb (fst y) x then snd y else 0)).
    2:{ intros y _. now rewrite (at_idx_eq g x i (fst y) Hx). }
    unfold follow. destruct (wf_arcs g W a Ha) as [_ Hin].
    destruct (in_states_pdf g _ Hin) as ([p|] & Ep); rewrite Ep.
    - unfold sumf. simpl. destruct (Nat.eqb (a_end a) x); lra.
    - destruct (pdf_eps g _ W Ep) as (Hne & _ & Hnem).
      destruct (find_ok true g (Some (a_end a)) (a_weight a) W) as (l & El & Hl).
      unfold find_next_pdf_ids. rewrite El. rewrite sumf_zero.
      + destruct (Nat.eqb (a_end a) x) eqn:Ee; [|reflexivity]. apply Nat.eqb_eq in Ee. exfalso.
        apply Hnem. rewrite Ee. apply emitting_in. apply index_of_nth in Hx. destruct Hx as (p & Hx).
        apply nth_error_In in Hx. apply (in_map fst) in Hx. exact Hx.
      + intros [t v] Ht. simpl. destruct (Nat.eqb t x) eqn:E; [|reflexivity]. apply Nat.eqb_eq in E. subst t.
        exfalso. apply (Hret a Ha Hne). rewrite Es.
        apply (find_exact true g _ _ l W El). apply in_map_iff. exists (x, v). auto. }
  rewrite (sumf_ext _ _ _ Hterm). pose proof (wf_keys g W) as K. clear - K Hself.
  induction (g_arcs g) as [|a l IH]; [unfold sumf; simpl; lra|]. rewrite sumf_cons.
  simpl in K. inversion_clear K as [|? ? K1 K2].
  destruct (Nat.eqb (a_start a) x && Nat.eqb (a_end a) x) eqn:E.
  - apply andb_true_iff in E. rewrite !Nat.eqb_eq in E. destruct E as [E1 E2].
    rewrite sumf_zero.
    + assert (a_weight a < 1) by (apply Hself; [now left|congruence]). lra.
    + intros b Hb. destruct (Nat.eqb (a_start b) x && Nat.eqb (a_end b) x) eqn:F; [|reflexivity].
      apply andb_true_iff in F. rewrite !Nat.eqb_eq in F. destruct F as [F1 F2]. exfalso. apply K1.
      apply in_map_iff. exists b. split; [unfold key; congruence|exact Hb].
  - rewrite Rplus_0_l. apply IH; auto. intros; apply Hself; auto. now right.
Qed.

Theorem C104_no_return_language : forall g s e c, wf g ->
  (forall a, In a (g_arcs g) -> 0 < a_weight a) ->
  g_start g = Some s -> g_end g = Some e -> non_emitting g s -> non_emitting g e ->
  (forall a, In a (g_arcs g) -> a_start a = a_end a -> a_weight a < 1) ->
  (forall a, In a (g_arcs g) -> non_emitting g (a_end a) ->
     ~ next_emitting true g (a_end a) (a_start a)) ->
  compile g = Ok c ->
  forall ls, ls <> [] -> (accepts g ls <-> chain_accepts c ls).
Proof.
  intros g s e c W P Hs He Ns Ne H1 H2 Hc. eapply compile_language; eauto.
  now apply (diag_direct g c).
Qed.

(** Normalised graph whose sequence "0 1" is lost: the weights of the
    non-emitting path back to state 1 are wrong (see C04), its
    self-transition gets probability one and the others zero. *)
Definition lost_graph : graph :=
  Graph 6 [(0, None); (1, Some 0); (2, None); (3, None); (4, Some 1); (5, None)]%nat
    [Arc 0 1 1; Arc 1 1 (1/2); Arc 1 2 (1/2); Arc 2 3 (1/10); Arc 2 4 (9/10); Arc 3 1 1; Arc 4 5 1]
    (Some 0%nat) (Some 5%nat).

Lemma lost_graph_wf : wf lost_graph.
Proof.
  constructor; simpl.
  - unfold states; simpl. (repeat (apply NoDup_cons; [simpl; intuition congruence|]); apply NoDup_nil).
  - intros s Hs; unfold states in Hs; simpl in Hs; intuition; lia.
  - intros a Ha. unfold states. simpl. decompose [or] Ha; try contradiction; subst a; simpl; intuition.
  - unfold key; simpl. (repeat (apply NoDup_cons; [simpl; intuition congruence|]); apply NoDup_nil).
Qed.

Theorem C104_compile_language_refuted :
  exists g s e c, wf g /\ normalised g /\
    (forall a, In a (g_arcs g) -> 0 < a_weight a) /\
    g_start g = Some s /\ g_end g = Some e /\ non_emitting g s /\ non_emitting g e /\
    compile g = Ok c /\ accepts g [0; 1]%nat /\ ~ chain_accepts c [0; 1]%nat.
Proof.
  destruct (compile_ok lost_graph lost_graph_wf) as (c & Hc).
  exists lost_graph, 0%nat, 5%nat, c. split; [apply lost_graph_wf|]. split; [|split; [|split; [|split]]].
  - intros s Hs. unfold states in Hs. simpl in Hs.
    decompose [or] Hs; try contradiction; subst s; simpl; unfold sumf; simpl.
    1, 2, 3, 4, 5: right; lra.
    left. intros a Ha. decompose [or] Ha; try contradiction; subst a; simpl; lia.
  - intros a Ha. simpl in Ha. decompose [or] Ha; try contradiction; subst a; simpl; lra.
  - reflexivity.
  - reflexivity.
  - split; [now left|]. split; [unfold non_emitting; simpl; auto 9|]. split; [exact Hc|]. split.
    + exists (1 * (1/2 * (9/10 * (1 * 1)))). exists 0%nat, 5%nat, None, [0; 1]%nat.
      split; [reflexivity|]. split; [reflexivity|]. split; [now left|]. split; [|reflexivity].
      change [0; 1]%nat with (label (Some 0%nat) ++ (label None ++ (label (Some 1%nat) ++ (label None ++ [])))).
      eapply walk_cons; [simpl; left; reflexivity|simpl; auto|].
      eapply walk_cons with (c := 2%nat); [simpl; auto|simpl; auto|].
      eapply walk_cons with (c := 4%nat); [simpl; auto 7|simpl; auto 7|].
      eapply walk_cons with (c := 5%nat); [simpl; auto 9|simpl; auto 9|]. constructor.
    + intros (vi & vf & l & i & _ & _ & Hlt & Hmap & _ & Hlink & _).
      destruct (compile_map _ _ Hc) as [Em En]. rewrite Em in Hmap. rewrite En in Hlt.
      destruct l as [|j [|k l]]; try discriminate. simpl in Hmap. inversion Hmap as [[E1 E2]].
      assert (Hi : (i < 2)%nat) by (apply Hlt; now left).
      assert (Hj : (j < 2)%nat) by (apply Hlt; right; now left).
      destruct i as [|[|i]]; [|discriminate|lia]. destruct j as [|[|j]]; [discriminate| |lia].
      inversion Hlink as [|? ? ? Hp _]. subst. clear - Hp Hc.
      destruct (compile_trans _ _ Hc) as (m & Hm & _ & Et). rewrite Et in Hp.
      assert (E : m 0%nat 0%nat = 1 /\ m 0%nat 1%nat = 9/20).
      { clear - Hm. revert Hm. unfold raw_trans. cbn. intros H. inv H. unfold mat_add. cbn. split; lra. }
      destruct E as [E0 E1]. unfold norm_rows, norm_row in Hp. cbn [length emitting lost_graph g_states flat_map app snd fst seq Nat.eqb] in Hp.
      rewrite E0 in Hp. replace ((1 - 1)) with 0 in Hp by lra.
      unfold sumf in Hp. simpl in Hp. rewrite E0, E1 in Hp.
      destruct (Rlt_dec 0 1); [|lra]. destruct (Rlt_dec 0 _) as [?|Hn]; [|lra].
      unfold Rdiv in Hp. rewrite Rmult_0_l, Rmult_0_r in Hp. cbn in Hp. lra.
Qed.

(** The three-state unit. *)
Example ex_C104 : forall c, compile (unit_of bakis3 0 4) = Ok c ->
  chain_accepts c [0; 0; 1]%nat /\ ~ chain_accepts c [1; 0]%nat.
Proof.
  intros c Hc.
  assert (W : wf (unit_of bakis3 0 4)) by (apply unit_of_wf, bakis3_contiguous).
  assert (L : forall ls, ls <> [] -> (accepts (unit_of bakis3 0 4) ls <-> chain_accepts c ls)).
  { apply (C104_no_return_language _ 0 3); auto; try reflexivity.
    - apply unit_of_pos. intros a Ha. simpl in Ha. decompose [or] Ha; try contradiction; subst a; simpl; lra.
    - unfold non_emitting. simpl. auto.
    - unfold non_emitting. simpl. auto 7.
    - intros a Ha. simpl in Ha. decompose [or] Ha; try contradiction; subst a; simpl; intros; try lia; lra.
    - intros a Ha Hne (x & Hr & (b & Hb & E1 & E2) & _).
      assert (Ex : a_end a = 3%nat /\ x = 3%nat).
      { unfold non_emitting in Hne. simpl in Ha, Hne.
        decompose [or] Ha; try contradiction; subst a; simpl in *; destruct Hne as [H|[H|[H|[H|[]]]]];
          inversion H. split; [reflexivity|]. clear - Hr. remember 3%nat as y eqn:Ey in Hr.
        induction Hr as [|u v H1 IH (d & Hd & F1 & F2) _]; [exact Ey|]. exfalso. rewrite IH in F1 by exact Ey.
        simpl in Hd. decompose [or] Hd; try contradiction; subst d; simpl in F1; lia. }
      destruct Ex as [_ ->]. simpl in Hb. decompose [or] Hb; try contradiction; subst b; simpl in E1; lia. }
  split.
  - apply L; [discriminate|]. exists (1 * (1/2 * (1/2 * (1/2 * 1)))). exists 0%nat, 3%nat, None, [0; 0; 1]%nat.
    split; [reflexivity|]. split; [reflexivity|]. split; [now left|]. split; [|reflexivity].
    change [0; 0; 1]%nat with (label (Some 0%nat) ++ (label (Some 0%nat) ++ (label (Some 1%nat) ++ (label None ++ [])))).
    eapply walk_cons with (c := 1%nat); [simpl; auto|simpl; auto|].
    eapply walk_cons with (c := 1%nat); [simpl; auto|simpl; auto|].
    eapply walk_cons with (c := 2%nat); [simpl; auto|simpl; auto|].
    eapply walk_cons with (c := 3%nat); [simpl; auto 9|simpl; auto 9|]. constructor.
  - intros H. apply L in H; [|discriminate]. destruct H as (w & s & e & o & ls' & Es & _ & Ho & Hw & El).
    inversion Es. subst s. simpl in Ho. destruct Ho as [Ho|[Ho|[Ho|[Ho|[]]]]]; inversion Ho. subst o.
    simpl in El. subst ls'. inversion Hw as [|? x o ls ? ? ? Ha Hx Hr E]. subst.
    simpl in Ha, Hx.
    repeat match goal with
           | H : _ \/ _ |- _ => destruct H
           | H : False |- _ => contradiction
           | H : Arc _ _ _ = Arc _ _ _ |- _ => inversion H; clear H; subst
           | H : (_, _) = (_, _) |- _ => inversion H; clear H; subst
           end; try discriminate; try lia.
Qed.

Print Assumptions C104_compile_language_partial.
Print Assumptions C104_no_return_language.
Print Assumptions C104_compile_language_refuted.
