(** Proofs about the phone-loop and decoding graphs. *)
From Coq Require Import Reals String List Arith Bool Lra Lia Permutation Sorted.
From Verif Require Import Prelude Graph_Model Graph_Spec Graph_Proofs Graph_Eps Graph_Hist
  Graph_Lang Gb_Model Gb_Spec Gb_Lang Gb_Proofs.
Import ListNotations.
Local Open Scope R_scope.

(** ** The states of the phone loop, for any list of units *)

Lemma unit_states_spec : forall names g d g' d',
  unit_states g names d = (g', d') ->
  g_count g' = (g_count g + length names)%nat /\
  g_states g' = g_states g ++ plain (g_count g) (length names) /\
  g_arcs g' = g_arcs g /\ g_start g' = g_start g /\ g_end g' = g_end g /\
  (forall n s, In (n, s) d' -> In (n, s) d \/ (g_count g <= s < g_count g')%nat).
Proof.
  induction names as [|nm r IH]; intros g d g' d' H.
  - simpl in H. inv H. simpl. rewrite app_nil_r. repeat split; auto; lia.
  - cbn [unit_states] in H. unfold add_state in H. apply IH in H.
    cbn [g_count g_states g_arcs g_start g_end] in H.
    destruct H as (H1 & H2 & H3 & H4 & H5 & H6). simpl length.
    split; [lia|]. split.
    { rewrite H2, <- app_assoc. reflexivity. }
    do 3 (split; [assumption|]). intros n s Hin. apply H6 in Hin. destruct Hin as [Hin|Hin].
    + apply sset_in in Hin. destruct Hin as [[-> ->]|Hin]; [right; lia|now left].
    + right. lia.
Qed.

Lemma loop_arc_states u2s f g u g' : loop_arc u2s f g u = Ok g' ->
  g_states g' = g_states g /\ g_count g' = g_count g /\ g_start g' = g_start g /\ g_end g' = g_end g.
Proof.
  unfold loop_arc. destruct (sget u u2s); simpl; [|discriminate]. intros H; inv H. auto.
Qed.

Lemma foldM_states {A} (f : graph -> A -> result graph) l :
  (forall g a g', f g a = Ok g' -> g_states g' = g_states g /\ g_count g' = g_count g /\
     g_start g' = g_start g /\ g_end g' = g_end g) ->
  forall g g', foldM f l g = Ok g' -> g_states g' = g_states g /\ g_count g' = g_count g /\
     g_start g' = g_start g /\ g_end g' = g_end g.
Proof.
  intros Hf. induction l as [|a l IH]; intros g g' H; simpl in H.
  - inv H. auto.
  - destruct (f g a) as [g1|] eqn:E; [|discriminate]. apply Hf in E. apply IH in H.
    destruct E as (E1 & E2 & E3 & E4). destruct H as (H1 & H2 & H3 & H4).
    repeat split; congruence.
Qed.

Lemma nset_in {A} k (v : A) d k' v' : In (k', v') (nset k v d) ->
  (k' = k /\ v' = v) \/ In (k', v') d.
Proof.
  induction d as [|[a b] d IH]; simpl; [intros [H|[]]; inversion H; auto|].
  destruct (Nat.eqb k a) eqn:E; simpl.
  - apply Nat.eqb_eq in E. subst. intros [H|H]; [inversion H; auto|auto].
  - intros [H|H]; [auto|]. destruct (IH H); auto.
Qed.

Lemma fold_sset_in {A} (l d : list (string * A)) n v :
  In (n, v) (fold_left (fun d us => sset (fst us) (snd us) d) l d) -> In (n, v) d \/ In (n, v) l.
Proof.
  revert d. induction l as [|[a b] l IH]; intros d H; simpl in *; [auto|].
  apply IH in H. destruct H as [H|H]; [|auto]. apply sset_in in H.
  destruct H as [[-> ->]|H]; auto.
Qed.

Lemma fold_nset_in (l : list (string * nat)) d s n :
  In (s, n) (fold_left (fun d us => nset (snd us) (fst us) d) l d) -> In (s, n) d \/ In (n, s) l.
Proof.
  revert d. induction l as [|[a b] l IH]; intros d H; simpl in *; [auto|].
  apply IH in H. destruct H as [H|H]; [|auto]. apply nset_in in H.
  destruct H as [[-> ->]|H]; auto.
Qed.

Lemma fold_sset_swap_in (l : list (nat * string)) d n s :
  In (n, s) (fold_left (fun d su => sset (snd su) (fst su) d) l d) -> In (n, s) d \/ In (s, n) l.
Proof.
  revert d. induction l as [|[a b] l IH]; intros d H; simpl in *; [auto|].
  apply IH in H. destruct H as [H|H]; [|auto]. apply sset_in in H.
  destruct H as [[-> ->]|H]; auto.
Qed.

Lemma phoneloop_states group lines pl sym : mkphoneloopgraph group lines = Ok (pl, sym) ->
  exists m, g_states pl = plain 0 (3 + m) /\ g_count pl = (3 + m)%nat /\
    forall s n, In (s, n) sym -> (s < 3 + m)%nat.
Proof.
  unfold mkphoneloopgraph. destruct (mapM unit_line lines) as [ul|] eqn:Eu; [|discriminate].
  cbn [bindr]. unfold add_state, set_start, set_end.
  cbn [g_count g_states g_arcs g_start g_end empty_graph app].
  destruct (unit_states _ (map fst ul) []) as [g new] eqn:Es.
  apply unit_states_spec in Es. cbn [g_count g_states g_arcs g_start g_end] in Es.
  destruct Es as (S1 & S2 & S3 & S4 & S5 & S6).
  set (u2s := fold_left (fun d us => sset (fst us) (snd us) d) new _).
  set (s2u := fold_left (fun d us => nset (snd us) (fst us) d) u2s []).
  match goal with |- bindr ?X _ = _ -> _ => destruct X as [seu|]; [|discriminate] end.
  cbn [bindr]. intros H.
  destruct (foldM (loop_arc u2s (fun s => (0%nat, s))) seu g) as [g1|] eqn:E1; [|discriminate].
  cbn [bindr] in H.
  destruct (foldM (loop_arc u2s (fun s => (s, 1%nat))) seu g1) as [g2|] eqn:E2; [|discriminate].
  cbn [bindr] in H.
  match type of H with bindr ?X _ = _ => destruct X as [g3|] eqn:E3; [|discriminate] end.
  cbn [bindr] in H. destruct (normalize g3) as [g4|] eqn:E4; [|discriminate]. inv H.
  apply (foldM_states _ _ (fun g a g' => loop_arc_states u2s _ g a g')) in E1.
  apply (foldM_states _ _ (fun g a g' => loop_arc_states u2s _ g a g')) in E2.
  apply foldM_states in E3.
  2:{ intros g' a g'' Hx. destruct (loop_arc u2s (fun s => (2%nat, s)) g' (fst a)) as [gx|] eqn:Ex;
      [|discriminate]. cbn [bindr] in Hx. apply loop_arc_states in Ex, Hx.
      destruct Ex as (X1 & X2 & X3 & X4). destruct Hx as (Y1 & Y2 & Y3 & Y4).
      repeat split; congruence. }
  apply normalize_states in E4.
  exists (length (map fst ul)). split; [|split].
  - destruct E4 as [-> _]. destruct E3 as [-> _]. destruct E2 as [-> _]. destruct E1 as [-> _].
    rewrite S2. reflexivity.
  - destruct E4 as [_ ->]. destruct E3 as [_ [-> _] ]. destruct E2 as [_ [-> _] ].
    destruct E1 as [_ [-> _] ]. exact S1.
  - intros s n H. unfold s2u in H. apply fold_nset_in in H. destruct H as [[]|H].
    unfold u2s in H. apply fold_sset_in in H. destruct H as [H|H].
    + simpl in H. destruct H as [H|[H|[H|[] ] ] ]; inversion H; lia.
    + apply S6 in H. destruct H as [[]|H]. lia.
Qed.

Lemma pdfs_old (l : list (nat * option nat)) p : (forall s, In s l -> snd s = None) ->
  pdfs (filter p l) = [].
Proof.
  induction l as [|[s o] l IH]; intros H; [reflexivity|]. simpl.
  assert (o = None) by (apply (H (s, o)); now left). subst.
  assert (E : pdfs (filter p l) = []) by (apply IH; intros; apply H; now right).
  destruct (p (s, None)); [unfold pdfs in *; simpl; exact E|exact E].
Qed.

(** Whatever the replaced states of the phone loop, the pdf ids follow the
    order of the units. *)
Lemma decode_fold_pdfs N p2s : (forall n s, In (n, s) p2s -> (s < N)%nat) ->
  forall (units : list (string * graph)) g g', (N <= g_count g)%nat ->
  (forall s o, In (s, o) (g_states g) -> (s < N)%nat -> o = None) ->
  foldM (fun g ph => bindr (sget (fst ph) p2s) (fun s => replace_state g s (snd ph))) units g = Ok g' ->
  pdf_id_mapping g' = pdf_id_mapping g ++ concat (map (fun u => pdf_id_mapping (snd u)) units).
Proof.
  intros Hp. induction units as [|[n h] units IH]; intros g g' Hc Ho H; cbn [foldM fst snd] in H.
  - inv H. simpl. now rewrite app_nil_r.
  - destruct (sget n p2s) as [x|] eqn:Ex; [|discriminate]. cbn [bindr] in H.
    destruct (replace_state g x h) as [g1|] eqn:E1; [|discriminate]. cbn [bindr] in H.
    apply sget_in in Ex. apply Hp in Ex.
    destruct (replace_states g x h g1 E1) as (C1 & _ & S1).
    assert (Ef : filter (fun s => negb (Nat.eqb (fst s) x))
             (combine (seq (g_count g) (length (g_states h))) (map snd (g_states h))) =
             combine (seq (g_count g) (length (g_states h))) (map snd (g_states h))).
    { apply filter_all_true. intros [s o] Hs. apply in_combine_l in Hs. apply in_seq in Hs. simpl.
      apply negb_true_iff, Nat.eqb_neq. lia. }
    rewrite filter_app, Ef in S1.
    apply IH in H.
    + rewrite H. cbn [map concat snd]. rewrite app_assoc. f_equal. rewrite !mapping_pdfs, S1, pdfs_app.
      f_equal.
      * clear - Ho Ex. induction (g_states g) as [|[s o] l IHl]; [reflexivity|]. simpl.
        assert (IH' := IHl (fun s o Hs => Ho s o (or_intror Hs))).
        destruct (Nat.eqb s x) eqn:E; simpl; unfold pdfs in *; simpl.
        -- apply Nat.eqb_eq in E. subst s. rewrite (Ho x o (or_introl eq_refl) Ex). simpl. exact IH'.
        -- f_equal. exact IH'.
      * unfold pdfs. f_equal. apply combine_map_snd. rewrite seq_length, map_length. reflexivity.
    + lia.
    + intros s o Hs Hlt. rewrite S1 in Hs. apply in_app_iff in Hs. destruct Hs as [Hs|Hs].
      * apply filter_In in Hs. eapply Ho; [apply Hs|exact Hlt].
      * apply in_combine_l in Hs. apply in_seq in Hs. lia.
Qed.

Lemma decode_mapping group lines pl sym units g sp ep :
  mkphoneloopgraph group lines = Ok (pl, sym) ->
  mkdecodegraph pl sym units = Ok (g, sp, ep) ->
  pdf_id_mapping g = concat (map (fun u => pdf_id_mapping (snd u)) units).
Proof.
  intros H1 H2. destruct (phoneloop_states _ _ _ _ H1) as (m & S1 & C1 & B1).
  unfold mkdecodegraph in H2.
  match type of H2 with bindr ?X _ = _ => destruct X as [g1|] eqn:E1; [|discriminate] end.
  cbn [bindr] in H2. destruct (normalize g1) as [g2|] eqn:E2; [|discriminate]. cbn [bindr] in H2.
  match type of H2 with bindr ?X _ = _ => destruct X as [l|] eqn:E3; [|discriminate] end.
  cbn [bindr] in H2. inv H2.
  apply normalize_states in E2. rewrite mapping_pdfs. destruct E2 as [-> _]. rewrite <- mapping_pdfs.
  apply (decode_fold_pdfs (3 + m)) in E1.
  - rewrite E1. rewrite (mapping_pdfs pl), S1.
    assert (Z : pdfs (plain 0 (3 + m)) = []).
    { clear. unfold pdfs, plain. rewrite map_map. simpl. induction (seq 3 m); [reflexivity|].
      simpl in *. exact IHl. }
    rewrite Z. reflexivity.
  - intros n s H. apply fold_sset_swap_in in H. destruct H as [[]|H]. eapply B1; eauto.
  - rewrite C1. lia.
  - intros s o Hs _. rewrite S1 in Hs. apply in_plain in Hs. tauto.
Qed.

(** ** The arcs, for distinct unit names *)

Definition special (n : string) : Prop := n = START_SYM \/ n = END_SYM \/ n = PIVOT_SYM.

Lemma unit_states_eq : forall names g d, NoDup (map fst d ++ names) ->
  unit_states g names d =
  (Graph (g_count g + length names) (g_states g ++ plain (g_count g) (length names))
         (g_arcs g) (g_start g) (g_end g),
   d ++ combine names (seq (g_count g) (length names))).
Proof.
  induction names as [|nm r IH]; intros g d H.
  - simpl. rewrite !app_nil_r, Nat.add_0_r. destruct g; reflexivity.
  - cbn [unit_states]. unfold add_state.
    assert (Hn : ~ In nm (map fst d)).
    { intros Hc. apply NoDup_remove_2 in H. apply H. apply in_app_iff. now left. }
    rewrite sset_fresh by auto. rewrite IH.
    + cbn [g_count g_states g_arcs g_start g_end]. f_equal; [f_equal|].
      * simpl. lia.
      * rewrite <- app_assoc. reflexivity.
      * rewrite <- app_assoc. reflexivity.
    + rewrite map_app, <- app_assoc. exact H.
Qed.

Lemma fold_sset_append {A} (l : list (string * A)) : forall d, NoDup (map fst d ++ map fst l) ->
  fold_left (fun d us => sset (fst us) (snd us) d) l d = d ++ l.
Proof.
  induction l as [|[n v] l IH]; intros d H; simpl; [now rewrite app_nil_r|].
  assert (Hn : ~ In n (map fst d)).
  { intros Hc. simpl in H. apply NoDup_remove_2 in H. apply H. apply in_app_iff. now left. }
  rewrite sset_fresh by auto. rewrite IH.
  - rewrite <- app_assoc. reflexivity.
  - rewrite map_app, <- app_assoc. exact H.
Qed.

Lemma nset_fresh {A} k (v : A) d : ~ In k (map fst d) -> nset k v d = d ++ [(k, v)].
Proof.
  induction d as [|[k' v'] d IH]; simpl; [reflexivity|]. intros H.
  destruct (Nat.eqb k k') eqn:E.
  - apply Nat.eqb_eq in E. subst. exfalso. apply H. now left.
  - f_equal. apply IH. tauto.
Qed.

Definition swap (l : list (string * nat)) : list (nat * string) :=
  map (fun us => (snd us, fst us)) l.

Lemma fold_nset_append (l : list (string * nat)) : forall d, NoDup (map fst d ++ map snd l) ->
  fold_left (fun d us => nset (snd us) (fst us) d) l d = d ++ swap l.
Proof.
  induction l as [|[n v] l IH]; intros d H; simpl; [now rewrite app_nil_r|].
  assert (Hn : ~ In v (map fst d)).
  { intros Hc. simpl in H. apply NoDup_remove_2 in H. apply H. apply in_app_iff. now left. }
  rewrite nset_fresh by auto. rewrite IH.
  - rewrite <- app_assoc. reflexivity.
  - rewrite map_app, <- app_assoc. exact H.
Qed.

Lemma fold_sset_swap_append (l : list (string * nat)) : forall d, NoDup (map fst d ++ map fst l) ->
  fold_left (fun d su => sset (snd su) (fst su) d) (swap l) d = d ++ l.
Proof.
  induction l as [|[n v] l IH]; intros d H; simpl; [now rewrite app_nil_r|].
  assert (Hn : ~ In n (map fst d)).
  { intros Hc. simpl in H. apply NoDup_remove_2 in H. apply H. apply in_app_iff. now left. }
  rewrite sset_fresh by auto. rewrite IH.
  - rewrite <- app_assoc. reflexivity.
  - rewrite map_app, <- app_assoc. exact H.
Qed.

Lemma normalize_wf g g' : wf g -> normalize g = Ok g' -> wf g'.
Proof. intros W H. exact (wf_step g OpNormalize g' W I H). Qed.

Fixpoint last_error (l : list string) : option string :=
  match l with [] => None | [a] => Some a | _ :: l' => last_error l' end.

Lemma last_error_last a d : forall l, last_error (a :: l) = Some (List.last (a :: l) d).
Proof.
  intros l. revert a. induction l as [|b l IH]; intros a; [reflexivity|].
  change (last_error (a :: b :: l)) with (last_error (b :: l)). rewrite IH. reflexivity.
Qed.

Section Loop.
  Variables (group : option string) (lines : list (list string)) (ul : list (string * string)).
  Hypothesis Hul : mapM unit_line lines = Ok ul.
  Hypothesis Hnd : NoDup (map fst ul).
  Hypothesis Hsp : forall u, In u (map fst ul) -> ~ special u.

  Let m := length ul.
  Definition u2s : list (string * nat) :=
    [(START_SYM, 0); (END_SYM, 1); (PIVOT_SYM, 2)]%nat ++ combine (map fst ul) (seq 3 m).

  Lemma u2s_keys : map fst u2s = [START_SYM; END_SYM; PIVOT_SYM] ++ map fst ul.
  Proof.
    unfold u2s. rewrite map_app, combine_map_fst; [reflexivity|]. now rewrite map_length, seq_length.
  Qed.

  Lemma u2s_vals : map snd u2s = seq 0 (3 + m).
  Proof.
    unfold u2s. rewrite map_app, combine_map_snd; [reflexivity|]. now rewrite map_length, seq_length.
  Qed.

  Lemma u2s_nodup : NoDup (map fst u2s).
  Proof.
    rewrite u2s_keys. apply NoDup_app_intro; auto.
    - repeat constructor; simpl; intros H; repeat destruct H as [H|H]; try discriminate; auto.
    - intros x Hx Hx'. apply (Hsp x Hx'). unfold special. simpl in Hx. intuition.
  Qed.

  Definition st (u : string) : nat := match sget u u2s with Ok s => s | Err _ => O end.

  Lemma st_ok u : In u (map fst u2s) -> sget u u2s = Ok (st u).
  Proof. intros H. unfold st. destruct (sget_ok u u2s H) as (s & ->). reflexivity. Qed.

  Lemma st_unit u : In u (map fst ul) -> (3 <= st u < 3 + m)%nat /\ In (u, st u) u2s.
  Proof.
    intros H.
    assert (Hk : In u (map fst u2s)) by (rewrite u2s_keys; apply in_app_iff; now right).
    assert (Hi : In (u, st u) u2s) by (apply sget_in; now apply st_ok).
    split; [|exact Hi].
    unfold u2s in Hi. apply in_app_iff in Hi. destruct Hi as [Hi|Hi].
    - exfalso. apply (Hsp u H). unfold special. simpl in Hi.
      destruct Hi as [Hi|[Hi|[Hi|[] ] ] ]; inversion Hi; auto.
    - apply in_combine_r in Hi. apply in_seq in Hi. exact Hi.
  Qed.

  Lemma st_pivot : st PIVOT_SYM = 2%nat.
  Proof. reflexivity. Qed.

  Lemma st_inj u v : In u (map fst ul) -> In v (map fst ul) -> st u = st v -> u = v.
  Proof.
    intros Hu Hv E. destruct (st_unit u Hu) as [_ H1]. destruct (st_unit v Hv) as [_ H2].
    rewrite E in H1.
    assert (Nd : NoDup (map snd u2s)) by (rewrite u2s_vals; apply seq_NoDup).
    clear - H1 H2 Nd. induction u2s as [|[a b] l IH]; [inversion H1|].
    simpl in Nd. inversion_clear Nd as [|? ? N1 N2].
    destruct H1 as [H1|H1]; destruct H2 as [H2|H2].
    - congruence.
    - inversion H1. subst. exfalso. apply N1. apply in_map_iff. exists (v, st v). auto.
    - inversion H2. subst. exfalso. apply N1. apply in_map_iff. exists (u, st v). auto.
    - auto.
  Qed.

  Definition seu : list string :=
    match group with
    | None => [PIVOT_SYM]
    | Some gr => map fst (filter (fun ug => String.eqb (snd ug) gr) ul)
    end.

  Definition raw_arcs : list arc :=
    map (fun u => Arc 0 (st u) 1) seu ++ map (fun u => Arc (st u) 1 1) seu ++
    flat_map (fun u => [Arc 2 (st (fst u)) 1; Arc (st (fst u)) 2 1]) ul.

  Definition raw_loop : graph :=
    Graph (3 + m) (plain 0 (3 + m)) (fold_left arc_add raw_arcs []) (Some 0%nat) (Some 1%nat).

  Lemma foldM_loop_arc f us g : (forall u, In u us -> In u (map fst u2s)) ->
    foldM (loop_arc u2s f) us g =
    Ok (with_arcs g (fold_left arc_add (map (fun u => Arc (fst (f (st u))) (snd (f (st u))) 1) us)
                               (g_arcs g))).
  Proof.
    revert g. induction us as [|u us IH]; intros g H; simpl; [destruct g; reflexivity|].
    unfold loop_arc at 1. rewrite st_ok by (apply H; now left). cbn [bindr].
    rewrite IH by (intros; apply H; now right). reflexivity.
  Qed.

  Lemma foldM_loop_arc2 us g : (forall u, In u us -> In (fst u) (map fst u2s)) ->
    foldM (fun g (u : string * string) =>
             bindr (loop_arc u2s (fun s => (2%nat, s)) g (fst u)) (fun g =>
             loop_arc u2s (fun s => (s, 2%nat)) g (fst u))) us g =
    Ok (with_arcs g (fold_left arc_add
          (flat_map (fun u => [Arc 2 (st (fst u)) 1; Arc (st (fst u)) 2 1]) us) (g_arcs g))).
  Proof.
    revert g. induction us as [|u us IH]; intros g H; cbn [foldM flat_map fold_left app];
      [destruct g; reflexivity|].
    unfold loop_arc at 1 2. rewrite st_ok by (apply H; now left). cbn [bindr].
    rewrite IH by (intros; apply H; now right). reflexivity.
  Qed.

  Lemma seu_keys u : In u seu -> In u (map fst u2s).
  Proof.
    unfold seu. rewrite u2s_keys. destruct group as [gr|].
    - intros H. apply in_map_iff in H. destruct H as (x & <- & H). apply filter_In in H.
      apply in_app_iff. right. apply in_map. tauto.
    - intros [<-|[]]. simpl. auto.
  Qed.

  Lemma ul_keys u : In u ul -> In (fst u) (map fst u2s).
  Proof. intros H. rewrite u2s_keys. apply in_app_iff. right. now apply in_map. Qed.

  Lemma phoneloop_eq : group <> Some ""%string ->
    mkphoneloopgraph group lines = bindr (normalize raw_loop) (fun g => Ok (g, swap u2s)).
  Proof.
    intros Hgr. unfold mkphoneloopgraph. rewrite Hul. cbn [bindr]. unfold add_state, set_start, set_end.
    cbn [g_count g_states g_arcs g_start g_end empty_graph app].
    rewrite unit_states_eq by (simpl; exact Hnd). cbn [g_count g_states g_arcs g_start g_end app].
    rewrite map_length. fold m.
    rewrite fold_sset_append.
    2:{ rewrite combine_map_fst by now rewrite map_length, seq_length.
        pose proof u2s_nodup as N. rewrite u2s_keys in N. exact N. }
    change ([(START_SYM, 0%nat); (END_SYM, 1%nat); (PIVOT_SYM, 2%nat)] ++
            combine (map fst ul) (seq 3 m)) with u2s.
    rewrite fold_nset_append by (cbn [map app]; rewrite u2s_vals; apply seq_NoDup).
    cbn [app].
    assert (Epiv : nget 2 (swap u2s) = Ok PIVOT_SYM).
    { unfold nget. assert (L : lookup 2%nat (swap u2s) = Some PIVOT_SYM).
      { apply lookup_nodup.
        - unfold swap. rewrite map_map. cbn [fst].
          change (map (fun x : string * nat => snd x) u2s) with (map snd u2s).
          rewrite u2s_vals. apply seq_NoDup.
        - unfold swap, u2s. simpl. auto. }
      now rewrite L. }
    match goal with |- bindr ?X _ = _ => assert (Eseu : X = Ok seu) end.
    { unfold seu. destruct group as [gr|].
      - destruct (String.eqb gr "") eqn:E; [|reflexivity]. apply String.eqb_eq in E. congruence.
      - rewrite Epiv. reflexivity. }
    rewrite Eseu. cbn [bindr].
    rewrite foldM_loop_arc by apply seu_keys. cbn [bindr].
    rewrite foldM_loop_arc by apply seu_keys. cbn [bindr].
    rewrite foldM_loop_arc2 by apply ul_keys. cbn [bindr].
    assert (Eg : forall A B : graph, A = B -> bindr (normalize A) (fun g => Ok (g, swap u2s)) =
      bindr (normalize B) (fun g => Ok (g, swap u2s))) by congruence.
    apply Eg. unfold raw_loop, with_arcs. cbn [g_count g_states g_arcs g_start g_end].
    f_equal. unfold raw_arcs. rewrite !fold_left_app. reflexivity.
  Qed.

  Lemma loop_keys s e : In (s, e) (map key (g_arcs raw_loop)) <->
    (exists u, In u seu /\ ((s = 0%nat /\ e = st u) \/ (s = st u /\ e = 1%nat))) \/
    (exists u, In u (map fst ul) /\ ((s = 2%nat /\ e = st u) \/ (s = st u /\ e = 2%nat))).
  Proof.
    simpl. rewrite fold_arc_add_keys. unfold raw_arcs. rewrite !map_app, !in_app_iff, !map_map.
    simpl. unfold key. simpl. split.
    - intros [[]|[H|[H|H]]].
      + apply in_map_iff in H. destruct H as (u & E & Hu). inversion E. left. eauto.
      + apply in_map_iff in H. destruct H as (u & E & Hu). inversion E. left. eauto.
      + apply in_map_iff in H. destruct H as (a & E & Ha). apply in_flat_map in Ha.
        destruct Ha as (u & Hu & [<-|[<-|[]]]); simpl in E; inversion E; right;
          exists (fst u); (split; [now apply in_map|auto]).
    - intros [(u & Hu & [[-> ->]|[-> ->]])|(u & Hu & H)]; right.
      + left. apply in_map_iff. eauto.
      + right. left. apply in_map_iff. eauto.
      + right. right. apply in_map_iff in Hu. destruct Hu as (x & <- & Hx). apply in_map_iff.
        destruct H as [[-> ->]|[-> ->]].
        * exists (Arc 2 (st (fst x)) 1). split; [reflexivity|]. apply in_flat_map. exists x.
          split; [exact Hx|now left].
        * exists (Arc (st (fst x)) 2 1). split; [reflexivity|]. apply in_flat_map. exists x.
          split; [exact Hx|right; now left].
  Qed.

  Lemma seu_st u : In u seu -> (2 <= st u < 3 + m)%nat.
  Proof.
    unfold seu. destruct group as [gr|].
    - intros H. apply in_map_iff in H. destruct H as (x & <- & Hx). apply filter_In in Hx.
      destruct (st_unit (fst x)) as [H _]; [apply in_map; tauto|lia].
    - intros [<-|[]]. rewrite st_pivot. lia.
  Qed.

  Lemma loop_wf : wf raw_loop.
  Proof.
    assert (Es : states raw_loop = seq 0 (3 + m)) by (unfold states; simpl g_states; apply states_plain).
    constructor.
    - rewrite Es. apply seq_NoDup.
    - intros s Hs. rewrite Es in Hs. apply in_seq in Hs. simpl. lia.
    - intros a Ha. rewrite Es. rewrite !in_seq.
      assert (K : In (a_start a, a_end a) (map key (g_arcs raw_loop))).
      { apply in_map_iff. exists a. split; [reflexivity|exact Ha]. }
      apply loop_keys in K. destruct K as [(u & Hu & K)|(u & Hu & K)].
      + apply seu_st in Hu. lia.
      + apply st_unit in Hu. lia.
    - simpl. apply fold_arc_add_nodup. constructor.
  Qed.

  Lemma loop_pos : pos_weights raw_loop.
  Proof.
    intros a Ha. simpl in Ha. apply fold_arc_add_in in Ha. destruct Ha as [[]|Ha].
    unfold raw_arcs in Ha. rewrite !in_app_iff, !in_map_iff, in_flat_map in Ha.
    destruct Ha as [(u & <- & _)|[(u & <- & _)|(u & _ & [<-|[<-|[]]])]]; simpl; lra.
  Qed.

  Lemma loop_no_self x : (3 <= x)%nat -> no_self_loop raw_loop x.
  Proof.
    intros Hx a Ha [E1 E2].
    assert (K : In (a_start a, a_end a) (map key (g_arcs raw_loop))).
    { apply in_map_iff. exists a. split; [reflexivity|exact Ha]. }
    apply loop_keys in K. destruct K as [(u & Hu & K)|(u & Hu & K)]; lia.
  Qed.

  (** ** The decoding graph *)
  Variable units : list (string * graph).
  Hypothesis Hperm : Permutation (map fst units) (map fst ul).
  Hypothesis Huse : forall n h, In (n, h) units -> usable h.
  Hypothesis Hpos : forall n h, In (n, h) units -> pos_weights h.
  Variable pl : graph.
  Hypothesis Hpl : normalize raw_loop = Ok pl.

  Definition dec_list : list (nat * graph) := map (fun u => (st (fst u), snd u)) units.

  Lemma units_in n h : In (n, h) units -> In n (map fst ul).
  Proof.
    intros H. eapply Permutation_in; [exact Hperm|]. apply in_map_iff. exists (n, h). auto.
  Qed.

  Lemma units_nodup : NoDup (map fst units).
  Proof. eapply Permutation_NoDup; [apply Permutation_sym; exact Hperm|exact Hnd]. Qed.

  Lemma dec_nodup : NoDup (map fst dec_list).
  Proof.
    unfold dec_list. rewrite map_map. cbn [fst].
    pose proof units_nodup as N. pose proof units_in as I. clear - N I Hsp Hnd.
    induction units as [|[n h] us IH]; [constructor|]. simpl in *. inversion_clear N as [|? ? N1 N2].
    constructor.
    - intros Hc. apply in_map_iff in Hc. destruct Hc as ([n' h'] & E & Hin). simpl in E.
      apply st_inj in E.
      + subst. apply N1. apply in_map_iff. exists (n, h'). auto.
      + eapply I. right. eauto.
      + eapply I. now left.
    - apply IH; auto. intros; eapply I; right; eauto.
  Qed.

  Lemma dec_states x : In x (map fst dec_list) <-> (3 <= x < 3 + m)%nat.
  Proof.
    unfold dec_list. rewrite map_map. cbn [fst]. split.
    - intros H. apply in_map_iff in H. destruct H as ([n h] & <- & Hin). apply units_in in Hin.
      apply st_unit in Hin. simpl. lia.
    - intros H. assert (Hv : In x (map snd u2s)) by (rewrite u2s_vals; apply in_seq; lia).
      apply in_map_iff in Hv. destruct Hv as ([n x'] & E & Hin). simpl in E. subst x'.
      assert (Hn : In n (map fst ul)).
      { unfold u2s in Hin. apply in_app_iff in Hin. destruct Hin as [Hin|Hin].
        - simpl in Hin. destruct Hin as [Hin|[Hin|[Hin|[] ] ] ]; inversion Hin; lia.
        - apply in_combine_l in Hin. exact Hin. }
      assert (Es : st n = x).
      { unfold st. rewrite (sget_nodup n u2s x); auto. apply u2s_nodup. }
      apply (Permutation_in _ (Permutation_sym Hperm)) in Hn.
      apply in_map_iff in Hn. destruct Hn as ([n' h] & E & Hn). simpl in E. subst n'.
      apply in_map_iff. exists (n, h). auto.
  Qed.

  Lemma dec_fold g : foldM (fun g ph => bindr (sget (fst ph) u2s) (fun s =>
                              replace_state g s (snd ph))) units g = replace_all dec_list g.
  Proof.
    unfold replace_all, dec_list. pose proof units_in as I. clear - I. revert g.
    induction units as [|[n h] us IH]; intros g; [reflexivity|]. cbn [foldM map fst snd].
    rewrite st_ok.
    2:{ rewrite u2s_keys. apply in_app_iff. right. eapply I. now left. }
    cbn [bindr]. destruct (replace_state g (st n) h) as [g1|]; [|reflexivity]. cbn [bindr].
    apply IH. intros; eapply I; right; eauto.
  Qed.

  Lemma pl_facts : g_states pl = plain 0 (3 + m) /\ g_start pl = Some 0%nat /\
    g_end pl = Some 1%nat /\ g_count pl = (3 + m)%nat /\ wf pl /\ pos_weights pl /\
    (forall s e, (exists v, In (Arc s e v) (g_arcs pl)) <-> In (s, e) (map key (g_arcs raw_loop))).
  Proof.
    destruct (normalize_arcs _ _ (wf_nodup _ loop_wf) Hpl) as (E1 & E2 & E3 & E4 & A1 & A2).
    destruct (normalize_pos _ (wf_nodup _ loop_wf) loop_pos) as (pl' & Hpl' & Pp).
    rewrite Hpl in Hpl'. inv Hpl'.
    split; [exact E1|]. split; [exact E2|]. split; [exact E3|]. split; [exact E4|].
    split; [eapply normalize_wf; [apply loop_wf|exact Hpl]|]. split; [exact Pp|].
    intros s e. split.
    - intros (v & Hv). apply A2 in Hv. destruct Hv as (v' & Hv'). simpl in Hv'. apply in_map_iff.
      exists (Arc s e v'). auto.
    - intros H. apply in_map_iff in H. destruct H as ([a b v] & E & H). unfold key in E. simpl in E.
      inversion E. subst. apply A1 in H. simpl in H. exact H.
  Qed.

  Lemma pl_states : states pl = seq 0 (3 + m).
  Proof. unfold states. destruct pl_facts as [-> _]. apply states_plain. Qed.

  Lemma decode_replaced : exists g, replace_all dec_list pl = Ok g /\ wf g /\ pos_weights g /\
    (forall ls w, generates g ls w <-> lwalk pl (sg_of dec_list nosg) 0 ls w 1).
  Proof.
    destruct pl_facts as (P1 & P2 & P3 & P4 & P5 & P6 & P7).
    destruct (replace_all_spec dec_list pl nosg P5 dec_nodup) as
      (g & H1 & H2 & H3 & H4 & H5 & _ & H6 & _ & H7).
    - intros x h Hin.
      assert (Hx : (3 <= x < 3 + m)%nat) by (apply dec_states; apply in_map_iff; exists (x, h); auto).
      split; [rewrite pl_states; apply in_seq; lia|]. split.
      + unfold dec_list in Hin. apply in_map_iff in Hin. destruct Hin as ([n h'] & E & Hin).
        inversion E. subst. eauto.
      + intros [s e v] Ha [E1 E2]. simpl in E1, E2. subst s e.
        assert (K : In (x, x) (map key (g_arcs raw_loop))) by (apply P7; eauto).
        apply in_map_iff in K. destruct K as (b & E & Hb). unfold key in E. inversion E.
        exact (loop_no_self x (proj1 Hx) b Hb (conj H0 (eq_trans H1 H0))).
    - reflexivity.
    - reflexivity.
    - exists g. split; [exact H1|]. split; [exact H2|]. split.
      { apply H6; [exact P6|]. intros x h Hin. unfold dec_list in Hin. apply in_map_iff in Hin.
        destruct Hin as ([n h'] & E & Hin). inversion E. subst. eauto. }
      intros ls w.
      assert (N0 : ~ In 0%nat (map fst dec_list)) by (rewrite dec_states; lia).
      assert (N1 : ~ In 1%nat (map fst dec_list)) by (rewrite dec_states; lia).
      assert (I0 : In 0%nat (states pl)) by (rewrite pl_states; apply in_seq; lia).
      assert (I1 : In 1%nat (states pl)) by (rewrite pl_states; apply in_seq; lia).
      rewrite <- (H7 0%nat 1%nat ls w I0 N0 I1 N1). rewrite lwalk_walk by reflexivity.
      unfold generates. rewrite H3, H4, P2, P3. split.
      + intros (s & e & o & ls' & E1 & E2 & Ho & Hw & ->). inv E1. inv E2.
        apply (H5 _ I0 N0) in Ho. rewrite P1 in Ho. apply in_plain in Ho. destruct Ho as [_ ->].
        exact Hw.
      + intros Hw. exists 0%nat, 1%nat, None, ls. repeat split; auto.
        apply (H5 _ I0 N0). rewrite P1. apply in_plain. split; [lia|reflexivity].
  Qed.

  (** *** Walks of the loop are sequences of units *)

  Definition hmms (sq : list string) (hs : list graph) : Prop :=
    Forall2 (fun n h => sget n units = Ok h) sq hs.

  Definition in_loop (sq : list string) : Prop := Forall (fun u => In u (map fst ul)) sq.

  (** what may follow a unit or the pivot *)
  Definition ends_well (sq : list string) : Prop :=
    match group with
    | None => True
    | Some gr => exists b, last_error sq = Some b /\ In (b, gr) ul
    end.

  Let sg := sg_of dec_list nosg.

  Lemma sg_unit u : In u (map fst ul) -> exists h, sget u units = Ok h /\ sg (st u) = Some h.
  Proof.
    intros Hu. pose proof Hu as Hu'. apply (Permutation_in _ (Permutation_sym Hperm)) in Hu'.
    apply in_map_iff in Hu'. destruct Hu' as ([u' h] & E & Hin). simpl in E. subst u'.
    exists h. split; [apply sget_nodup; [apply units_nodup|exact Hin]|].
    unfold sg, sg_of.
    assert (L : lookup (st u) dec_list = Some h).
    { apply lookup_nodup; [apply dec_nodup|]. unfold dec_list. apply in_map_iff. exists (u, h). auto. }
    now rewrite L.
  Qed.

  Lemma sg_plain x : (x < 3)%nat -> sg x = None.
  Proof.
    intros Hx. unfold sg, sg_of. destruct (lookup x dec_list) as [h|] eqn:E; [|reflexivity].
    apply lookup_in in E. assert (H : In x (map fst dec_list)) by (apply in_map_iff; exists (x, h); auto).
    apply dec_states in H. lia.
  Qed.

  Lemma pl_state x o : In (x, o) (g_states pl) -> o = None /\ (x < 3 + m)%nat.
  Proof. destruct pl_facts as [-> _]. intros H. apply in_plain in H. intuition. Qed.

  Lemma in_seu u : In u seu <->
    match group with None => u = PIVOT_SYM | Some gr => In (u, gr) ul end.
  Proof.
    unfold seu. destruct group as [gr|].
    - rewrite in_map_iff. split.
      + intros ([a b] & <- & H). apply filter_In in H. destruct H as [H E]. simpl in E.
        apply String.eqb_eq in E. subst. exact H.
      + intros H. exists (u, gr). split; [reflexivity|]. apply filter_In. split; [exact H|].
        apply String.eqb_refl.
    - simpl. intuition.
  Qed.

  Lemma loop_forward a ls w : lwalk pl sg a ls w 1 ->
    (a = 1%nat -> ls = []) /\
    (a = 2%nat -> exists sq hs v, in_loop sq /\ ends_well sq /\ hmms sq hs /\ catgen hs ls v) /\
    (forall u, In u (map fst ul) -> a = st u ->
       exists sq hs v, in_loop sq /\ ends_well (u :: sq) /\ hmms sq hs /\ catgen hs ls v).
  Proof.
    intros H. remember 1%nat as b eqn:Eb.
    induction H as [a|a c o l wl ls w v b Ha Hc Hv Hw IH]; subst.
    { split; [reflexivity|]. split; [discriminate|]. intros u Hu E. apply st_unit in Hu. lia. }
    specialize (IH eq_refl). destruct IH as (IH1 & IH2 & IH3).
    destruct (pl_state c o Hc) as [-> Hcm].
    destruct pl_facts as (_ & _ & _ & _ & _ & _ & P7).
    assert (K : In (a, c) (map key (g_arcs raw_loop))) by (apply P7; eauto).
    apply loop_keys in K. clear P7.
    split; [|split].
    - intros ->. exfalso. destruct K as [(u & Hu & K)|(u & Hu & K)].
      + apply seu_st in Hu. lia.
      + apply st_unit in Hu. lia.
    - intros ->. destruct K as [(u & Hu & [[K1 K2]|[K1 K2]])|(u & Hu & [[K1 K2]|[K1 K2]])].
      + lia.
      + subst c. unfold visit in Hv. rewrite sg_plain in Hv by lia. destruct Hv as [-> ->].
        rewrite IH1 by reflexivity. simpl.
        assert (Eg : group = None).
        { destruct group as [gr|] eqn:Eg; [|reflexivity]. exfalso.
          assert (Hu' : In u (map fst ul)).
          { pose proof (proj1 (in_seu u) Hu) as Hx. rewrite Eg in Hx. apply in_map_iff. exists (u, gr). auto. }
          apply st_unit in Hu'. lia. }
        exists [], [], 1. unfold in_loop, ends_well, hmms. rewrite Eg.
        split; [constructor|]. split; [exact I|]. split; constructor.
      + subst c. destruct (sg_unit u Hu) as (h & Eh & Es).
        destruct (IH3 u Hu eq_refl) as (sq & hs & v' & I1 & I2 & I3 & I4).
        unfold visit in Hv. rewrite Es in Hv.
        exists (u :: sq), (h :: hs), (wl * v'). split; [constructor; auto|]. split; [exact I2|].
        split; [constructor; auto|]. constructor; auto.
      + subst c. exfalso. apply st_unit in Hu. lia.
    - intros x Hx ->. pose proof (proj1 (st_unit x Hx)) as Bx.
      destruct K as [(u & Hu & [[K1 K2]|[K1 K2]])|(u & Hu & [[K1 K2]|[K1 K2]])].
      + lia.
      + subst c. unfold visit in Hv. rewrite sg_plain in Hv by lia. destruct Hv as [-> ->].
        rewrite IH1 by reflexivity. simpl.
        exists [], [], 1. split; [constructor|]. split; [|split; constructor].
        unfold ends_well. destruct group as [gr|] eqn:Eg; [|exact I].
        pose proof (proj1 (in_seu u) Hu) as Hu'. rewrite Eg in Hu'. exists x. split; [reflexivity|].
        assert (x = u); [|subst; exact Hu']. apply st_inj; auto. apply in_map_iff. exists (u, gr). auto.
      + lia.
      + subst c. unfold visit in Hv. rewrite sg_plain in Hv by lia. destruct Hv as [-> ->]. simpl.
        destruct (IH2 eq_refl) as (sq & hs & v' & I1 & I2 & I3 & I4).
        exists sq, hs, v'. split; [exact I1|]. split; [|split; auto].
        unfold ends_well in *. destruct group as [gr|]; [|exact I].
        destruct I2 as (b & Eb & Hb). exists b. split; [|exact Hb].
        destruct sq; [discriminate|exact Eb].
  Qed.

  Lemma go a c l w ls : In (a, c) (map key (g_arcs raw_loop)) -> (c < 3 + m)%nat ->
    visit sg c None l w -> (exists w', lwalk pl sg c ls w' 1) ->
    exists w', lwalk pl sg a (l ++ ls) w' 1.
  Proof.
    intros K Hc Hv (w' & Hw). destruct pl_facts as (P1 & _ & _ & _ & _ & _ & P7).
    apply P7 in K. destruct K as (v & K). exists (v * (w * w')).
    econstructor; [exact K| |exact Hv|exact Hw]. rewrite P1. apply in_plain.
    split; [lia|reflexivity].
  Qed.

  Lemma go_plain a c ls : In (a, c) (map key (g_arcs raw_loop)) -> (c < 3)%nat ->
    (exists w', lwalk pl sg c ls w' 1) -> exists w', lwalk pl sg a ls w' 1.
  Proof.
    intros K Hc Hw. change ls with ([] ++ ls). apply (go a c [] 1); auto; [lia|].
    unfold visit. rewrite sg_plain by lia. auto.
  Qed.

  Lemma go_unit a u h l w ls : In (a, st u) (map key (g_arcs raw_loop)) -> In u (map fst ul) ->
    sget u units = Ok h -> generates h l w ->
    (exists w', lwalk pl sg (st u) ls w' 1) -> exists w', lwalk pl sg a (l ++ ls) w' 1.
  Proof.
    intros K Hu Eh Hg Hw. apply (go a (st u) l w); auto; [apply st_unit in Hu; lia|].
    destruct (sg_unit u Hu) as (h' & Eh' & Es). rewrite Eh in Eh'. inv Eh'.
    unfold visit. rewrite Es. exact Hg.
  Qed.

  Lemma at_end : exists w', lwalk pl sg 1 [] w' 1.
  Proof. exists 1. constructor. Qed.

  (** from a unit: stop, or continue through the pivot *)
  Lemma loop_backward : forall sq hs ls v, in_loop sq -> hmms sq hs -> catgen hs ls v ->
    (ends_well sq -> exists w, lwalk pl sg 2 ls w 1) /\
    (forall u, In u (map fst ul) -> ends_well (u :: sq) -> exists w, lwalk pl sg (st u) ls w 1).
  Proof.
    induction sq as [|a sq IH]; intros hs ls v Hl Hh Hc.
    - inversion Hh. subst. inversion Hc. subst.
      assert (A : ends_well [] -> exists w, lwalk pl sg 2 [] w 1).
      { unfold ends_well. destruct group as [gr|] eqn:Eg; [intros (b & E & _); discriminate|].
        intros _. apply (go_plain 2 1); [|lia|apply at_end]. apply loop_keys. left. exists PIVOT_SYM.
        split; [apply in_seu; now rewrite Eg|]. right. auto. }
      split; [exact A|]. intros u Hu He.
      destruct group as [gr|] eqn:Eg.
      + unfold ends_well in He. rewrite Eg in He. destruct He as (b & E & Hb). inversion E. subst b.
        apply (go_plain _ 1); [|lia|apply at_end]. apply loop_keys. left. exists u.
        split; [apply in_seu; now rewrite Eg|]. auto.
      + apply (go_plain _ 2); [|lia|apply A; unfold ends_well; rewrite Eg; exact I].
        apply loop_keys. right. exists u. auto.
    - inversion Hh as [|? h ? hs' Eh Hh']. subst. inversion Hc as [|? ? l w ls' v' Hg Hc']. subst.
      inversion_clear Hl as [|? ? Ha Hl'].
      destruct (IH hs' ls' v' Hl' Hh' Hc') as [_ IH2].
      assert (A : ends_well (a :: sq) -> exists w, lwalk pl sg 2 (l ++ ls') w 1).
      { intros He. apply (go_unit 2 a h l w); auto. apply loop_keys. right. exists a. auto. }
      split; [exact A|]. intros u Hu He.
      apply (go_plain _ 2); [apply loop_keys; right; exists u; auto|lia|].
      apply A. unfold ends_well in *. destruct group; [|exact I]. exact He.
  Qed.

  Lemma loop_language ls :
    (exists w, lwalk pl sg 0 ls w 1) <->
    exists sq hs v, loop_seq group ul sq /\ hmms sq hs /\ catgen hs ls v.
  Proof.
    split.
    - intros (w & H). inversion H as [|a c o l wl ls' w' v' b Ha Hc Hv Hw]. subst.
      destruct (pl_state c o Hc) as [-> Hcm].
      destruct pl_facts as (_ & _ & _ & _ & _ & _ & P7).
      assert (K : In (0%nat, c) (map key (g_arcs raw_loop))) by (apply P7; eauto).
      apply loop_keys in K. clear P7.
      destruct K as [(u & Hu & [[_ ->]|[K1 K2]])|(u & Hu & [[K1 K2]|[K1 K2]])].
      + destruct (loop_forward _ _ _ Hw) as (_ & F2 & F3).
        unfold loop_seq. pose proof (proj1 (in_seu u) Hu) as Hu'. unfold ends_well in F2, F3.
        destruct group as [gr|].
        * assert (Hi : In u (map fst ul)) by (apply in_map_iff; exists (u, gr); auto).
          destruct (F3 u Hi eq_refl) as (sq & hs & v & I1 & (b & E & Hb) & I3 & I4).
          destruct (sg_unit u Hi) as (h & Eh & Es). unfold visit in Hv. rewrite Es in Hv.
          exists (u :: sq), (h :: hs), (wl * v). split; [split|split].
          -- constructor; auto.
          -- exists u, b. split; [reflexivity|]. split; [|auto].
             rewrite (last_error_last u u) in E. inversion E. reflexivity.
          -- constructor; auto.
          -- constructor; auto.
        * subst u. rewrite st_pivot in *. unfold visit in Hv. rewrite sg_plain in Hv by lia.
          destruct Hv as [-> ->]. destruct (F2 eq_refl) as (sq & hs & v & I1 & I2 & I3 & I4).
          exists sq, hs, v. split; [split; [exact I1|exact I]|]. auto.
      + apply seu_st in Hu. lia.
      + lia.
      + apply st_unit in Hu. lia.
    - intros (sq & hs & v & [L1 L2] & Hh & Hc). destruct group as [gr|] eqn:Eg.
      + destruct L2 as (a & b & E1 & E2 & Ha & Hb). destruct sq as [|a' sq]; [discriminate|].
        inversion E1. subst a'. clear E1.
        inversion Hh as [|? h ? hs' Eh Hh']. subst. inversion Hc as [|? ? l w ls' v' Hg Hc']. subst.
        inversion_clear L1 as [|? ? I1 I2].
        apply (go_unit 0 a h l w); auto.
        { apply loop_keys. left. exists a. split; [apply in_seu; now rewrite Eg|auto]. }
        apply (loop_backward sq hs' ls' v' I2 Hh' Hc'); auto.
        unfold ends_well. rewrite Eg. exists (List.last (a :: sq) a).
        split; [apply last_error_last|exact Hb].
      + apply (go_plain 0 2); [|lia|].
        { apply loop_keys. left. exists PIVOT_SYM. split; [apply in_seu; now rewrite Eg|auto]. }
        apply (loop_backward sq hs ls v L1 Hh Hc). unfold ends_well. now rewrite Eg.
  Qed.
End Loop.

(** ** Entry and exit pdfs *)

Lemma edge_single (fwd : bool) h s e p : wf h ->
  (if fwd then g_start h else g_end h) = Some s -> In (e, Some p) (g_states h) ->
  (exists a, In a (g_arcs h) /\ src fwd a = s) ->
  (forall a, In a (g_arcs h) -> src fwd a = s -> dest fwd a = e) ->
  edge_pdf fwd h = Ok (Some p).
Proof.
  intros W Es He (a0 & Ha0 & Es0) Hall. unfold edge_pdf. rewrite Es.
  assert (Ha : exists a, arcs_of fwd h s = [a] /\ dest fwd a = e).
  { assert (Hin : In a0 (arcs_of fwd h s)) by (apply arcs_of_in; auto).
    assert (Hd : forall a, In a (arcs_of fwd h s) -> src fwd a = s /\ dest fwd a = e).
    { intros a H. apply arcs_of_in in H. destruct H as [H1 H2]. auto. }
    assert (Nd : NoDup (map key (arcs_of fwd h s))).
    { rewrite arcs_of_filter. pose proof (wf_keys h W) as K. clear - K.
      induction (g_arcs h) as [|a l IH]; [constructor|]. simpl in *.
      inversion_clear K as [|? ? K1 K2]. destruct (Nat.eqb (src fwd a) s); [|auto].
      simpl. constructor; [|auto]. intros H. apply K1. apply in_map_iff in H.
      destruct H as (b & E & Hb). apply filter_In in Hb. apply in_map_iff. exists b. tauto. }
    destruct (arcs_of fwd h s) as [|a [|b l]].
    - inversion Hin.
    - exists a. split; [reflexivity|]. apply Hd. now left.
    - exfalso. simpl in Nd. inversion_clear Nd as [|? ? N1 _]. apply N1. left.
      destruct (Hd a (or_introl eq_refl)) as [A1 A2].
      destruct (Hd b (or_intror (or_introl eq_refl))) as [B1 B2].
      unfold key. destruct fwd; simpl in *; congruence. }
  destruct Ha as (a & Ea & Ed). unfold find_pdf_ids. rewrite Ea. cbn [map rev app].
  assert (Ep : pdf_of h (dest fwd a) = Some (Some p)).
  { rewrite Ed. apply lookup_nodup; [apply W|exact He]. }
  cbn [explore]. rewrite Ep.
  destruct (g_arcs h) as [|a1 l1] eqn:El; [inversion Ha0|].
  cbn [length plus explore yields bindr map fst]. now rewrite Ep.
Qed.

(** A unit whose entry (exit) is a single emitting state. *)
Lemma unit_entry t k n e : (2 <= n)%nat -> contiguous t n -> single_entry t n e ->
  edge_pdf true (unit_of t k n) = Ok (Some (k + (e - 1))%nat).
Proof.
  intros Hn Hc (He & (w & Hw) & Hall).
  apply (edge_single true _ 0 e); [now apply unit_of_wf|reflexivity| | |].
  - simpl. unfold unit_sts. apply in_map_iff. exists e. split; [|apply in_seq; lia].
    f_equal. unfold unit_pdf. destruct (Nat.eqb e 0 || Nat.eqb e (n - 1)) eqn:E; [|reflexivity].
    apply orb_true_iff in E. rewrite !Nat.eqb_eq in E. lia.
  - assert (K : In (0%nat, e) (map key (g_arcs (unit_of t k n)))).
    { simpl. rewrite fold_arc_add_keys. rewrite map_map. right.
      apply in_map_iff. exists (0%nat, e, w). auto. }
    apply in_map_iff in K. destruct K as (a & E & Ha). exists a. split; [exact Ha|].
    unfold key in E. inversion E. reflexivity.
  - intros a Ha Es. simpl in Ha. apply fold_arc_add_in in Ha. destruct Ha as [[]|Ha].
    apply in_map_iff in Ha. destruct Ha as (b & <- & Hb). simpl in *. auto.
Qed.

Lemma unit_exit t k n x : (2 <= n)%nat -> contiguous t n -> single_exit t n x ->
  edge_pdf false (unit_of t k n) = Ok (Some (k + (x - 1))%nat).
Proof.
  intros Hn Hc (He & (w & Hw) & Hall).
  apply (edge_single false _ (n - 1) x); [now apply unit_of_wf|reflexivity| | |].
  - simpl. unfold unit_sts. apply in_map_iff. exists x. split; [|apply in_seq; lia].
    f_equal. unfold unit_pdf. destruct (Nat.eqb x 0 || Nat.eqb x (n - 1)) eqn:E; [|reflexivity].
    apply orb_true_iff in E. rewrite !Nat.eqb_eq in E. lia.
  - assert (K : In (x, (n - 1)%nat) (map key (g_arcs (unit_of t k n)))).
    { simpl. rewrite fold_arc_add_keys. rewrite map_map. right.
      apply in_map_iff. exists (x, (n - 1)%nat, w). auto. }
    apply in_map_iff in K. destruct K as (a & E & Ha). exists a. split; [exact Ha|].
    unfold key in E. inversion E. reflexivity.
  - intros a Ha Es. simpl in Ha. apply fold_arc_add_in in Ha. destruct Ha as [[]|Ha].
    apply in_map_iff in Ha. destruct Ha as (b & <- & Hb). simpl in *. auto.
Qed.

(** ** The whole decoding graph *)

Lemma mapM_ok {A B} (f : A -> result B) (P : A -> B -> Prop) l :
  (forall a, In a l -> exists b, f a = Ok b /\ P a b) ->
  exists bs, mapM f l = Ok bs /\ Forall2 P l bs.
Proof.
  induction l as [|a l IH]; intros H; [exists []; split; [reflexivity|constructor]|].
  destruct (H a (or_introl eq_refl)) as (b & Eb & Pb).
  destruct IH as (bs & Ebs & Pbs); [intros; apply H; now right|].
  exists (b :: bs). split; [|constructor; auto]. cbn [mapM]. rewrite Eb. cbn [bindr].
  rewrite Ebs. reflexivity.
Qed.

Lemma decode_ok group lines ul units :
  mapM unit_line lines = Ok ul -> NoDup (map fst ul) ->
  (forall u, In u (map fst ul) -> ~ special u) -> group <> Some ""%string ->
  Permutation (map fst units) (map fst ul) ->
  (forall n h, In (n, h) units -> usable h /\ pos_weights h) ->
  exists pl sym, mkphoneloopgraph group lines = Ok (pl, sym) /\
  exists g, wf g /\ pos_weights g /\
    (forall ls, accepts g ls <->
       exists sq hs, loop_seq group ul sq /\
         Forall2 (fun n h => sget n units = Ok h) sq hs /\ cat_accepts hs ls) /\
    mkdecodegraph pl sym units =
      bindr (mapM (fun ph : string * graph => bindr (edge_pdf true (snd ph)) (fun s =>
                         bindr (edge_pdf false (snd ph)) (fun e =>
                         Ok (fst ph, s, e)))) units) (fun l =>
      Ok (g, map (fun x => (fst (fst x), snd (fst x))) l,
         map (fun x => (fst (fst x), snd x)) l)).
Proof.
  intros Hul Hnd Hsp Hgr Hperm Hu.
  destruct (normalize_pos _ (wf_nodup _ (loop_wf group ul Hsp)) (loop_pos group ul))
    as (pl & Hpl & _).
  exists pl, (swap (u2s ul)). split.
  { rewrite (phoneloop_eq group lines ul Hul Hnd Hsp Hgr), Hpl. reflexivity. }
  destruct (decode_replaced group ul Hnd Hsp units Hperm
              (fun n h H => proj1 (Hu n h H)) (fun n h H => proj2 (Hu n h H)) pl Hpl)
    as (g0 & R1 & R2 & R3 & R4).
  destruct (normalize_pos g0 (wf_nodup _ R2) R3) as (g & Hg & Pg).
  exists g. split; [eapply normalize_wf; eauto|]. split; [exact Pg|]. split.
  - intros ls. rewrite (normalize_accepts g0 g ls (wf_nodup _ R2) Hg). unfold accepts at 1.
    assert (E : (exists w, generates g0 ls w) <->
                (exists w, lwalk pl (sg_of (dec_list ul units) nosg) 0 ls w 1)).
    { split; intros (w & H); exists w; now apply R4. }
    rewrite E, (loop_language group ul Hnd Hsp units Hperm pl Hpl). unfold hmms. split.
    + intros (sq & hs & v & H1 & H2 & H3). exists sq, hs. split; [exact H1|]. split; [exact H2|].
      apply catgen_accepts. eauto.
    + intros (sq & hs & H1 & H2 & H3). apply catgen_accepts in H3. destruct H3 as (v & H3).
      exists sq, hs, v. auto.
  - unfold mkdecodegraph.
    rewrite (fold_sset_swap_append (u2s ul) []) by (simpl; apply u2s_nodup; auto).
    cbn [app]. rewrite (dec_fold ul units Hperm pl), R1. cbn [bindr]. rewrite Hg. reflexivity.
Qed.
