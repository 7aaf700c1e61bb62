(** Lemmas about the scripts of the TIMIT recipe. *)
From Coq Require Import Reals String Ascii NArith List Arith Bool Lra Lia Permutation Sorted.
From Verif Require Import Prelude Graph_Model Graph_Spec Graph_Proofs Graph_Hist Graph_Lang Graph_Eps
  Gb_Model Gb_Spec Gb_Lang Gb_Proofs Gb_Loop Tv_Model Tv_Spec.
Import ListNotations.
Local Open Scope string_scope.

(** ** Sorting names *)

Lemma ascii_trans a b c : Ascii.compare a b = Lt -> Ascii.compare b c = Lt -> Ascii.compare a c = Lt.
Proof. unfold Ascii.compare. rewrite !N.compare_lt_iff. lia. Qed.
Lemma ascii_refl a : Ascii.compare a a = Eq.
Proof. unfold Ascii.compare. apply N.compare_refl. Qed.
Lemma ascii_eq a b : Ascii.compare a b = Eq -> a = b.
Proof. apply Ascii.compare_eq_iff. Qed.
Lemma name_lt_trans a b c : name_lt a b -> name_lt b c -> name_lt a c.
Proof.
  unfold name_lt. revert b c. induction a as [|x a IH]; intros [|y b] [|z c]; cbn; try discriminate; auto.
  destruct (Ascii.compare x y) eqn:E1; try discriminate; destruct (Ascii.compare y z) eqn:E2; try discriminate; intros H1 H2.
  - apply ascii_eq in E1. subst. rewrite E2. eauto.
  - apply ascii_eq in E1. subst. now rewrite E2.
  - apply ascii_eq in E2. subst. now rewrite E1.
  - now rewrite (ascii_trans x y z).
Qed.
Lemma name_lt_irrefl a : ~ name_lt a a.
Proof. unfold name_lt. induction a as [|x a IH]; cbn; [discriminate|]. now rewrite ascii_refl. Qed.

Lemma insert_name_in s l x : In x (insert_name s l) <-> x = s \/ In x l.
Proof.
  induction l as [|y l IH]; cbn; [intuition|]. destruct (String.compare s y) eqn:E; cbn.
  - apply String.compare_eq_iff in E. subst. intuition.
  - intuition.
  - rewrite IH. intuition.
Qed.
Lemma insert_name_sorted s l : StronglySorted name_lt l -> StronglySorted name_lt (insert_name s l).
Proof.
  induction 1 as [|y l Hl IH Hy]; cbn; [repeat constructor|]. destruct (String.compare s y) eqn:E.
  - constructor; auto.
  - constructor; [constructor; auto|]. constructor; [exact E|]. eapply Forall_impl; [|exact Hy].
    intros z Hz. eapply name_lt_trans; eauto.
  - constructor; [exact IH|]. apply Forall_forall. intros z Hz. apply insert_name_in in Hz. destruct Hz as [->|Hz].
    + unfold name_lt. rewrite String.compare_antisym, E. reflexivity.
    + rewrite Forall_forall in Hy. auto.
Qed.
Lemma sort_names_in l x : In x (sort_names l) <-> In x l.
Proof.
  unfold sort_names. assert (G : forall d, In x (fold_left (fun d s => insert_name s d) l d) <-> In x d \/ In x l).
  { induction l as [|s l IH]; intros d; cbn; [tauto|]. rewrite IH, insert_name_in. intuition. }
  rewrite G. cbn. tauto.
Qed.
Lemma sort_names_sorted l : StronglySorted name_lt (sort_names l).
Proof.
  unfold sort_names. assert (G : forall d, StronglySorted name_lt d -> StronglySorted name_lt (fold_left (fun d s => insert_name s d) l d)).
  { induction l as [|s l IH]; intros d H; cbn; auto. apply IH. now apply insert_name_sorted. }
  apply G. constructor.
Qed.
Lemma sorted_nodup l : StronglySorted name_lt l -> NoDup l.
Proof.
  induction 1 as [|x l H IH Hx]; constructor; auto. intros Hin. rewrite Forall_forall in Hx. exact (name_lt_irrefl x (Hx x Hin)).
Qed.

(** ** States named by the symbols *)
Lemma sym_states_eq names : NoDup names ->
  sym_states names = (Graph (List.length names) (plain 0 (List.length names)) [] None None, combine names (seq 0 (List.length names))).
Proof.
  unfold sym_states. induction names as [|n names IH] using rev_ind; intros H; [reflexivity|].
  rewrite fold_left_app. cbn [fold_left].
  assert (Hn : NoDup names) by (apply NoDup_remove_1 in H; now rewrite app_nil_r in H).
  assert (Hx : ~ In n names) by (apply NoDup_remove_2 in H; now rewrite app_nil_r in H).
  rewrite IH by exact Hn. cbn [fst snd add_state g_count g_states g_arcs g_start g_end].
  rewrite app_length. cbn [List.length]. rewrite Nat.add_comm. cbn [Nat.add].
  f_equal.
  - f_equal. unfold plain. rewrite seq_S, map_app. reflexivity.
  - rewrite sset_fresh.
    + rewrite seq_S. cbn [Nat.add].
      assert (X : forall (A B : Type) (a : list A) (b : list B) x y, List.length b = List.length a ->
        (combine (a ++ [x]) (b ++ [y]) = combine a b ++ [(x, y)])%list).
      { clear. induction a as [|x a IH]; intros [|y b] u v H; cbn in *; try discriminate; auto. now rewrite IH by lia. }
      rewrite X by apply seq_length. reflexivity.
    + rewrite combine_map_fst by (now rewrite seq_length). exact Hx.
Qed.

(** The state of a name *)
Definition st_of (names : list string) (s : string) : nat :=
  match sget s (combine names (seq 0 (List.length names))) with Ok i => i | Err _ => O end.
Lemma st_of_get names s : In s names -> sget s (combine names (seq 0 (List.length names))) = Ok (st_of names s).
Proof.
  intros H. unfold st_of. destruct (sget_ok s (combine names (seq 0 (List.length names)))) as (v & ->); [|reflexivity].
  rewrite combine_map_fst; [exact H|now rewrite seq_length].
Qed.
Lemma st_of_lt names s : In s names -> (st_of names s < List.length names)%nat.
Proof.
  intros H. apply st_of_get in H. apply sget_in in H. apply in_combine_r in H. apply in_seq in H. lia.
Qed.
Lemma st_of_inj names a b : In a names -> In b names -> st_of names a = st_of names b -> a = b.
Proof.
  intros Ha Hb E. apply st_of_get in Ha, Hb. apply sget_in in Ha, Hb. rewrite E in Ha.
  assert (G : forall (l : list string) k x y i, In (x, i) (combine l (seq k (List.length l))) ->
    In (y, i) (combine l (seq k (List.length l))) -> x = y).
  { clear. induction l as [|z l IH]; intros k x y i H1 H2; cbn in *; [tauto|].
    destruct H1 as [H1|H1], H2 as [H2|H2]; try congruence.
    - injection H1 as -> <-. apply in_combine_r in H2. apply in_seq in H2. lia.
    - injection H2 as -> <-. apply in_combine_r in H1. apply in_seq in H1. lia.
    - eauto. }
  eauto.
Qed.

(** ** The graph of a text file *)
Definition arc_names (arcs : list (string * string * R)) : list string :=
  flat_map (fun a => [fst (fst a); snd (fst a)]) arcs.
Lemma arc_names_in arcs x : In x (arc_names arcs) <-> exists a, In a arcs /\ (x = fst (fst a) \/ x = snd (fst a)).
Proof.
  unfold arc_names. rewrite in_flat_map. split.
  - intros (a & Ha & Hx). exists a. split; auto. cbn in Hx. intuition.
  - intros (a & Ha & Hx). exists a. split; auto. cbn. intuition.
Qed.

Local Open Scope R_scope.
Section Prepared.
  Variables (float : string -> result R) (order : list (string * string * R) -> list (string * string * R)).
  Variables (lines : list (list string)) (arcs : list (string * string * R)).
  Hypothesis Harcs : mapM (txt_arc float) lines = Ok arcs.
  Hypothesis Horder : enumerates (order arcs) arcs.
  Hypothesis Hfun : functional arcs.
  Hypothesis Hpos : forall a, In a arcs -> 0 < snd a.
  Hypothesis Hs : In "[s]" (arc_names arcs).
  Hypothesis He : In "[/s]" (arc_names arcs).

  Definition pnames : list string := sort_names (arc_names arcs).
  Definition pst (s : string) : nat := st_of pnames s.
  Definition psym : list (string * nat) := combine pnames (seq 0 (List.length pnames)).
  Definition parc (a : string * string * R) : arc := Arc (pst (fst (fst a))) (pst (snd (fst a))) (snd a).
  Definition pgraph0 : graph :=
    Graph (List.length pnames) (plain 0 (List.length pnames)) (map parc (order arcs)) (Some (pst "[s]")) (Some (pst "[/s]")).

  Lemma pnames_in x : In x pnames <-> In x (arc_names arcs).
  Proof. apply sort_names_in. Qed.
  Lemma pnames_nodup : NoDup pnames.
  Proof. apply sorted_nodup, sort_names_sorted. Qed.
  Lemma psym_get x : In x pnames -> sget x psym = Ok (pst x).
  Proof. apply st_of_get. Qed.
  Lemma order_names a : In a (order arcs) -> In (fst (fst a)) pnames /\ In (snd (fst a)) pnames.
  Proof. intros H. apply (proj2 Horder) in H. split; apply pnames_in, arc_names_in; exists a; auto. Qed.

  Lemma parc_keys : NoDup (map key (map parc (order arcs))).
  Proof.
    assert (G : forall l, NoDup l -> (forall x, In x l -> In x (order arcs)) -> NoDup (map key (map parc l))).
    { induction 1 as [|x l Hx Hl IH]; intros Hin; cbn; constructor.
      - rewrite map_map. intros H. apply in_map_iff in H. destruct H as (y & E & Hy).
        unfold key, parc in E. cbn in E. injection E as E1 E2.
        destruct (order_names x (Hin x (or_introl eq_refl))) as [N1 N2].
        destruct (order_names y (Hin y (or_intror Hy))) as [N3 N4].
        apply st_of_inj in E1; auto. apply st_of_inj in E2; auto.
        destruct x as [[a b] w], y as [[a' b'] w']. cbn in *. subst.
        assert (w = w'). { eapply Hfun; apply (proj2 Horder); apply Hin; [now left|right; exact Hy]. }
        subst. contradiction.
      - apply IH. intros y Hy. apply Hin. now right. }
    apply G; [apply Horder|auto].
  Qed.

  Lemma pgraph0_wf : wf pgraph0.
  Proof.
    constructor; unfold pgraph0, states; cbn.
    - rewrite states_plain. apply seq_NoDup.
    - intros s H. rewrite states_plain in H. apply in_seq in H. lia.
    - intros a H. apply in_map_iff in H. destruct H as (x & <- & Hx). rewrite states_plain. cbn.
      destruct (order_names x Hx) as [N1 N2]. apply st_of_lt in N1, N2. rewrite !in_seq. unfold pst. lia.
    - exact parc_keys.
  Qed.

  Lemma padd_fold : forall l g, (forall x, In x l -> In x (order arcs)) ->
    foldM (fun g a => bindr (sget (fst (fst a)) psym) (fun i => bindr (sget (snd (fst a)) psym) (fun j =>
      Ok (add_arc g i j (snd a))))) l g = Ok (with_arcs g (fold_left arc_add (map parc l) (g_arcs g))).
  Proof.
    induction l as [|x l IH]; intros g H; [cbn; destruct g; reflexivity|]. cbn [foldM].
    destruct (order_names x (H x (or_introl eq_refl))) as [N1 N2].
    rewrite (psym_get _ N1). cbn [bindr]. rewrite (psym_get _ N2). cbn [bindr].
    rewrite IH by (intros y Hy; apply H; now right). reflexivity.
  Qed.

  Lemma pout_sum n : In n pnames -> out_sum (map parc (order arcs)) (pst n) = out_total (order arcs) n.
  Proof.
    intros Hn. unfold out_sum, out_total.
    assert (G : forall l, (forall x, In x l -> In x (order arcs)) ->
      sumf a_weight (filter (fun a => Nat.eqb (a_start a) (pst n)) (map parc l)) =
      sumf snd (filter (fun x => String.eqb (fst (fst x)) n) l)).
    { induction l as [|x l IH]; intros H; [reflexivity|]. cbn [map filter].
      destruct (order_names x (H x (or_introl eq_refl))) as [N1 _].
      replace (Nat.eqb (a_start (parc x)) (pst n)) with (String.eqb (fst (fst x)) n).
      - destruct (String.eqb (fst (fst x)) n); rewrite ?sumf_cons, IH; auto; intros y Hy; apply H; now right.
      - cbn. destruct (String.eqb_spec (fst (fst x)) n) as [->|N]; [symmetry; apply Nat.eqb_refl|].
        symmetry. apply Nat.eqb_neq. intros E. apply N. eapply st_of_inj; eauto. }
    apply G. auto.
  Qed.

  Lemma prepare_ok : exists g, prepare_graph float order lines = Ok (g, psym) /\ wf g /\
    g_count g = List.length pnames /\ g_states g = plain 0 (List.length pnames) /\ g_start g = Some (pst "[s]") /\ g_end g = Some (pst "[/s]") /\
    forall x, In x (g_arcs g) <-> exists a b w, In (a, b, w) arcs /\ x = Arc (pst a) (pst b) (w / out_total (order arcs) a).
  Proof.
    unfold prepare_graph. rewrite Harcs. cbn [bindr]. fold (arc_names arcs). fold pnames.
    rewrite (sym_states_eq pnames pnames_nodup). fold psym.
    rewrite (psym_get "[s]") by (now apply pnames_in). cbn [bindr].
    rewrite (psym_get "[/s]") by (now apply pnames_in). cbn [bindr].
    rewrite padd_fold by auto. cbn [bindr g_arcs set_start set_end].
    rewrite fold_arc_add_fresh by (cbn; apply parc_keys). cbn [app].
    change (with_arcs _ (map parc (order arcs))) with pgraph0.
    destruct (normalize_pos pgraph0) as (g & En & Pg).
    { apply pgraph0_wf. }
    { intros a Ha. cbn in Ha. apply in_map_iff in Ha. destruct Ha as (x & <- & Hx). cbn. apply Hpos. now apply (proj2 Horder). }
    rewrite En. cbn [bindr]. exists g. split; [reflexivity|]. split; [eapply normalize_wf; [apply pgraph0_wf|exact En]|].
    destruct (normalize_arcs pgraph0 g) as (E1 & E2 & E3 & E4 & _); [apply pgraph0_wf|exact En|].
    rewrite E1, E2, E3, E4. repeat (split; [reflexivity|]).
    destruct (normalize_spec pgraph0) as [[_ E]|[_ E]]; [apply pgraph0_wf| |congruence].
    rewrite E in En. injection En as <-. cbn [g_arcs with_arcs pgraph0]. intros x.
    assert (N1 : forall y, In y (order arcs) -> norm1 (states pgraph0) (map parc (order arcs)) (parc y) =
      Arc (pst (fst (fst y))) (pst (snd (fst y))) (snd y / out_total (order arcs) (fst (fst y)))).
    { intros y Hy. destruct (order_names y Hy) as [N _]. unfold norm1. cbn [parc a_start a_end a_weight].
      rewrite (proj2 (mem_in _ _)).
      - now rewrite pout_sum.
      - unfold states. cbn. rewrite states_plain. apply in_seq. apply st_of_lt in N. unfold pst. lia. }
    rewrite in_map_iff. split.
    - intros (y & <- & Hy). apply in_map_iff in Hy. destruct Hy as (z & <- & Hz). cbn [g_arcs pgraph0] in *. rewrite (N1 z Hz).
      destruct z as [[a b] w]. exists a, b, w. split; [now apply (proj2 Horder)|reflexivity].
    - intros (a & b & w & H & ->). exists (parc (a, b, w)). apply (proj2 Horder) in H. split.
      + cbn [g_arcs pgraph0]. now rewrite (N1 _ H).
      + now apply in_map.
  Qed.
End Prepared.

Lemma out_total_perm l l' a : Permutation l l' -> out_total l a = out_total l' a.
Proof.
  intros H. unfold out_total. apply sumf_perm.
  induction H; cbn; repeat (destruct (String.eqb _ _)); auto; try constructor; eauto using perm_trans.
Qed.
Lemma enumerates_perm {A} (l l' arcs : list A) : enumerates l arcs -> enumerates l' arcs -> Permutation l l'.
Proof. intros [H1 H2] [H3 H4]. apply NoDup_Permutation; auto. intros x. rewrite H2, H4. tauto. Qed.

(** ** Replacing the states of the phones *)
Section Units.
  Variables (arcs : list (string * string * R)) (D : graph) (units : list (string * graph)).
  Hypothesis WD : wf D.
  Hypothesis SD : g_states D = plain 0 (List.length (pnames arcs)).
  Hypothesis BD : g_start D = Some (pst arcs "[s]").
  Hypothesis ED : g_end D = Some (pst arcs "[/s]").
  Hypothesis AD : exists l, enumerates l arcs /\
    forall x, In x (g_arcs D) <-> exists a b w, In (a, b, w) arcs /\ x = Arc (pst arcs a) (pst arcs b) (w / out_total l a).
  Hypothesis Nu : NoDup (map fst units).
  Hypothesis Hu : forall p, In p (map fst units) -> In p (arc_names arcs) /\ p <> "[s]" /\ p <> "[/s]" /\ p <> "_1" /\
    forall w, ~ In (p, p, w) arcs.
  Hypothesis Hus : forall p h, In (p, h) units -> usable h.
  Hypothesis Hs : In "[s]" (arc_names arcs).
  Hypothesis He : In "[/s]" (arc_names arcs).

  Definition ulist : list (nat * graph) := map (fun u => (pst arcs (fst u), snd u)) units.
  Definition usg : nat -> option graph := sg_of ulist nosg.

  Lemma hmm_graph_all : hmm_graph D (psym arcs) units = replace_all ulist D.
  Proof.
    unfold hmm_graph, replace_all, ulist. assert (H : forall u, In u units -> In (fst u) (pnames arcs)).
    { intros u H. apply pnames_in. apply Hu. now apply in_map. }
    clear - H. revert D. induction units as [|u l IH]; intros g; [reflexivity|]. cbn [foldM map fst snd].
    rewrite psym_get by (apply H; now left). cbn [bindr]. destruct (replace_state g (pst arcs (fst u)) (snd u)); [|reflexivity].
    cbn [bindr]. apply IH. intros x Hx. apply H. now right.
  Qed.

  Lemma ulist_keys x : In x (map fst ulist) <-> exists p, In p (map fst units) /\ x = pst arcs p.
  Proof.
    unfold ulist. rewrite map_map. cbn. rewrite in_map_iff. split.
    - intros (u & <- & H). exists (fst u). split; [now apply in_map|reflexivity].
    - intros (p & H & ->). apply in_map_iff in H. destruct H as (u & <- & H). eauto.
  Qed.
  Lemma pst_neq a b : In a (pnames arcs) -> In b (pnames arcs) -> a <> b -> pst arcs a <> pst arcs b.
  Proof. intros Ha Hb N E. apply N. eapply st_of_inj; eauto. Qed.
  Lemma ulist_not n : In n (pnames arcs) -> ~ In n (map fst units) -> ~ In (pst arcs n) (map fst ulist).
  Proof.
    intros Hn Hnu H. apply ulist_keys in H. destruct H as (p & Hp & E). apply st_of_inj in E; auto.
    - now subst.
    - apply pnames_in. now apply Hu.
  Qed.
  Lemma pst_state n : In n (pnames arcs) -> In (pst arcs n) (states D) /\ forall o, In (pst arcs n, o) (g_states D) <-> o = None.
  Proof.
    intros H. apply st_of_lt in H. unfold states. rewrite SD, states_plain. split; [apply in_seq; unfold pst; lia|].
    intros o. rewrite in_plain. unfold pst. intuition.
  Qed.

  Lemma lookup_nodup {A} (k : nat) (v : A) l : NoDup (map fst l) -> In (k, v) l -> lookup k l = Some v.
  Proof.
    induction l as [|[k' v'] l IH]; intros N H; cbn in *; [tauto|]. inversion N as [|? ? N1 N2]; subst.
    destruct H as [H|H].
    - injection H as -> ->. now rewrite Nat.eqb_refl.
    - destruct (Nat.eqb_spec k k') as [->|]; [|auto]. exfalso. apply N1. apply in_map_iff. now exists (k', v).
  Qed.
  Lemma ulist_nodup : NoDup (map fst ulist).
  Proof.
    unfold ulist. rewrite map_map. cbn.
    assert (Hn : forall u, In u units -> In (fst u) (pnames arcs)).
    { intros u H. apply pnames_in. apply Hu. now apply in_map. }
    clear - Nu Hn. induction units as [|u l IH]; cbn in *; [constructor|]. inversion Nu as [|? ? N1 N2]; subst. constructor.
    - intros H. apply in_map_iff in H. destruct H as (v & E & Hv). apply st_of_inj in E; auto. apply N1. rewrite <- E. now apply in_map.
    - apply IH; auto.
  Qed.
  Lemma usg_unit p h : In (p, h) units -> usg (pst arcs p) = Some h.
  Proof.
    intros H. unfold usg, sg_of. rewrite (lookup_nodup (pst arcs p) h); [reflexivity|apply ulist_nodup|].
    unfold ulist. apply in_map_iff. exists (p, h). auto.
  Qed.
  Lemma usg_other n : In n (pnames arcs) -> ~ In n (map fst units) -> usg (pst arcs n) = None.
  Proof.
    intros Hn Hnu. unfold usg, sg_of. destruct (lookup (pst arcs n) ulist) eqn:E; [|reflexivity].
    exfalso. apply (ulist_not n Hn Hnu). apply lookup_in in E. apply in_map_iff. now exists (pst arcs n, g).
  Qed.

  Lemma hmm_graph_ok : exists G, hmm_graph D (psym arcs) units = Ok G /\ wf G /\
    pdf_id_mapping G = concat (map (fun u => pdf_id_mapping (snd u)) units) /\
    forall ls w, generates G ls w <-> lwalk D usg (pst arcs "[s]") ls w (pst arcs "[/s]").
  Proof.
    assert (Rs : ~ In "[s]" (map fst units)) by (intros H; destruct (Hu _ H) as (_ & N & _); congruence).
    assert (Re : ~ In "[/s]" (map fst units)) by (intros H; destruct (Hu _ H) as (_ & _ & N & _); congruence).
    apply pnames_in in Hs, He.
    destruct (replace_all_spec ulist D nosg WD ulist_nodup) as (G & EG & WG & SG & FG & OG & MG & _ & _ & LG).
    - intros x h H. unfold ulist in H. apply in_map_iff in H. destruct H as (u & E & H). injection E as <- <-.
      assert (Hp : In (fst u) (map fst units)) by (now apply in_map). destruct (Hu _ Hp) as (N & _ & _ & _ & L).
      apply pnames_in in N. split; [now apply pst_state|]. split; [apply (Hus (fst u)); destruct u; exact H|].
      destruct AD as (l & [_ El] & Ad). intros a Ha [E1 E2]. apply Ad in Ha. destruct Ha as (x & y & w & Hin & ->). cbn in E1, E2.
      assert (Nx : In x (pnames arcs)) by (apply pnames_in, arc_names_in; exists (x, y, w); auto).
      assert (Ny : In y (pnames arcs)) by (apply pnames_in, arc_names_in; exists (x, y, w); auto).
      apply st_of_inj in E1, E2; auto. subst. now apply (L w).
    - reflexivity.
    - reflexivity.
    - rewrite <- hmm_graph_all in EG. exists G. split; [exact EG|]. split; [exact WG|]. split.
      + rewrite (mapping_pdfs G). unfold pdfs. rewrite MG, flat_map_app.
        replace (flat_map label (map snd (filter (kept ulist) (g_states D)))) with (@nil nat).
        * cbn [app]. unfold ulist. rewrite map_map. cbn [snd].
          clear. induction units as [|u l IH]; [reflexivity|]. cbn [map concat]. rewrite flat_map_app, IH.
          f_equal. now rewrite mapping_pdfs.
        * symmetry. apply (pdfs_old (g_states D)). intros [s o] H. rewrite SD in H. apply in_plain in H. cbn. tauto.
      + intros ls w. assert (Ls := ulist_not _ Hs Rs). assert (Le := ulist_not _ He Re).
        destruct (pst_state _ Hs) as [Ss So]. destruct (pst_state _ He) as [Se _].
        rewrite <- (LG _ _ ls w Ss Ls Se Le). rewrite lwalk_walk by reflexivity. unfold generates. split.
        * intros (s & e & o & ls' & E1 & E2 & Ho & Hw & ->). rewrite SG, BD in E1. rewrite FG, ED in E2. injection E1 as <-. injection E2 as <-.
          apply (OG _ Ss Ls) in Ho. apply So in Ho. subst o. exact Hw.
        * intros Hw. exists (pst arcs "[s]"), (pst arcs "[/s]"), None, ls. rewrite SG, FG, BD, ED. repeat split; auto.
          apply (OG _ Ss Ls). now apply So.
  Qed.

  (** One step *)
  Lemma arc_from : forall l, enumerates l arcs -> forall n c v, In n (pnames arcs) ->
    In (Arc (pst arcs n) c v) (g_arcs D) <-> exists b w, In (n, b, w) arcs /\ c = pst arcs b /\ v = w / out_total l n.
  Proof.
    intros l Hl n c v Hn. destruct AD as (l' & Hl' & Ad). rewrite Ad. split.
    - intros (a & b & w & Hin & E). injection E as E1 -> ->.
      assert (Na : In a (pnames arcs)) by (apply pnames_in, arc_names_in; exists (a, b, w); auto).
      apply st_of_inj in E1; auto. subst a. exists b, w. repeat split; auto. f_equal.
      apply out_total_perm. now apply enumerates_perm with arcs.
    - intros (b & w & Hin & -> & ->). exists n, b, w. split; auto. f_equal. f_equal.
      apply out_total_perm. now apply enumerates_perm with arcs.
  Qed.
  Lemma visit_other n o l w : In n (pnames arcs) -> ~ In n (map fst units) -> In (pst arcs n, o) (g_states D) ->
    visit usg (pst arcs n) o l w <-> l = [] /\ w = 1.
  Proof.
    intros H1 H2 H3. unfold visit. rewrite usg_other by auto. apply (pst_state n H1) in H3. subst o. reflexivity.
  Qed.
  Lemma visit_unit p h o l w : In (p, h) units -> visit usg (pst arcs p) o l w <-> generates h l w.
  Proof. intros H. unfold visit. now rewrite (usg_unit p h). Qed.
End Units.

(** ** The graphs of create-decode-graph.py *)
Definition reserved (s : string) : Prop := s = "[s]" \/ s = "[/s]" \/ s = "_1".
Definition loop_lines (pw : string -> R) (phones : list string) : list (string * string * R) :=
  flat_map (fun p => [("_1", p, pw p); (p, "_1", 1)]) phones.
Definition free_lines (pw : string -> R) (phones : list string) : list (string * string * R) :=
  ("[s]", "_1", 1) :: ("_1", "[/s]", 1) :: loop_lines pw phones.
Definition sil_lines (pw : string -> R) (sil : string) (rest : list string) : list (string * string * R) :=
  ("[s]", sil, 1) :: (sil, "[/s]", 1) :: (sil, "_1", 1) :: ("_1", sil, pw sil) :: loop_lines pw rest.

Lemma loop_lines_in pw phones a b w : In (a, b, w) (loop_lines pw phones) <->
  (a = "_1" /\ In b phones /\ w = pw b) \/ (In a phones /\ b = "_1" /\ w = 1).
Proof.
  unfold loop_lines. rewrite in_flat_map. split.
  - intros (p & Hp & [H|[H|[]]]); injection H as <- <- <-; auto.
  - intros [(-> & H & ->)|(H & -> & ->)]; [exists b|exists a]; split; auto; cbn; auto.
Qed.
Lemma loop_lines_nodup pw phones : NoDup phones -> ~ In "_1" phones -> NoDup (loop_lines pw phones).
Proof.
  induction 1 as [|p l Hp Hl IH]; intros H1; cbn; [constructor|].
  assert (N : ~ In "_1" l) by (intros H; apply H1; now right). assert (p <> "_1") by (intros ->; apply H1; now left).
  constructor; [|constructor; [|now apply IH]].
  - intros [E|E]; [injection E; congruence|]. apply loop_lines_in in E. intuition.
  - intros E. apply loop_lines_in in E. intuition.
Qed.
Lemma loop_total_joint pw phones : ~ In "_1" phones -> out_total (loop_lines pw phones) "_1" = sumf pw phones.
Proof.
  unfold out_total. induction phones as [|p l IH]; intros H; [reflexivity|]. cbn [loop_lines flat_map app filter fst].
  rewrite String.eqb_refl. destruct (String.eqb_spec p "_1") as [->|_]; [exfalso; apply H; now left|].
  rewrite !sumf_cons. cbn [snd]. f_equal. apply IH. intros H1; apply H; now right.
Qed.
Lemma loop_total_phone pw phones p : NoDup phones -> ~ In "_1" phones -> p <> "_1" ->
  out_total (loop_lines pw phones) p = if in_dec string_dec p phones then 1 else 0.
Proof.
  unfold out_total. intros N H Hp1. induction N as [|q l Hq Hl IH]; [reflexivity|]. cbn [loop_lines flat_map app filter fst].
  destruct (String.eqb_spec "_1" p) as [E|_]; [congruence|].
  assert (IH' : sumf snd (filter (fun x => String.eqb (fst (fst x)) p) (loop_lines pw l)) = if in_dec string_dec p l then 1 else 0).
  { apply IH. intros H1; apply H; now right. }
  destruct (String.eqb_spec q p) as [->|Nq].
  - rewrite sumf_cons. cbn [snd]. change (flat_map _ l) with (loop_lines pw l). rewrite IH'.
    destruct (in_dec string_dec p l); [contradiction|]. destruct (in_dec string_dec p (p :: l)) as [_|C]; [lra|exfalso; apply C; now left].
  - change (flat_map _ l) with (loop_lines pw l). rewrite IH'.
    destruct (in_dec string_dec p l) as [I|I], (in_dec string_dec p (q :: l)) as [J|J]; auto; exfalso.
    + apply J. now right.
    + destruct J; auto.
Qed.
Lemma out_total_cons a b w l n : out_total ((a, b, w) :: l) n = (if String.eqb a n then w else 0) + out_total l n.
Proof. unfold out_total. cbn [filter fst]. destruct (String.eqb a n); [rewrite sumf_cons; reflexivity|lra]. Qed.

Section Language.
  Variables (show : R -> string) (float : string -> result R) (phones : list string) (pw : string -> R).
  Hypothesis Hfloat : forall p, In p phones -> float (show (pw p)) = Ok (pw p).
  Hypothesis Nphones : NoDup phones.
  Hypothesis Hres : forall p, In p phones -> ~ reserved p.
  Hypothesis Hpw : forall p, In p phones -> 0 < pw p.

  Lemma phone_arcs_ok : forall l pre, phones = (pre ++ l)%list ->
    exists ls, phone_arcs show l (map pw phones) (List.length pre) = Ok ls /\ mapM (txt_arc float) ls = Ok (loop_lines pw l).
  Proof.
    induction l as [|p l IH]; intros pre E; [exists []; split; reflexivity|]. cbn [phone_arcs].
    assert (En : nth_error (map pw phones) (List.length pre) = Some (pw p)).
    { rewrite E, map_app, nth_error_app2 by (rewrite map_length; lia). rewrite map_length, Nat.sub_diag. reflexivity. }
    rewrite En. destruct (IH (pre ++ [p])%list) as (ls & E1 & E2); [now rewrite <- app_assoc|].
    rewrite app_length in E1. cbn in E1. rewrite Nat.add_1_r in E1. rewrite E1. cbn [bindr]. eexists. split; [reflexivity|].
    cbn [mapM txt_arc]. rewrite Hfloat by (rewrite E; apply in_app_iff; right; now left). cbn [bindr].
    rewrite E2. reflexivity.
  Qed.
  Lemma res_1 : ~ In "_1" phones.
  Proof. intros H. apply (Hres _ H). unfold reserved. auto. Qed.
  Lemma res_s : ~ In "[s]" phones.
  Proof. intros H. apply (Hres _ H). unfold reserved. auto. Qed.
  Lemma res_e : ~ In "[/s]" phones.
  Proof. intros H. apply (Hres _ H). unfold reserved. auto. Qed.

  Variable (units : list (string * graph)).
  Hypothesis Punits : Permutation (map fst units) phones.
  Hypothesis Hus : forall p h, In (p, h) units -> usable h.
  Variable order : list (string * string * R) -> list (string * string * R).
  Hypothesis Horder : forall l, enumerates (order l) l.

  Lemma units_nodup : NoDup (map fst units).
  Proof. eapply Permutation_NoDup; [apply Permutation_sym, Punits|exact Nphones]. Qed.
  Lemma units_in p : In p (map fst units) <-> In p phones.
  Proof. split; apply Permutation_in; [exact Punits|apply Permutation_sym, Punits]. Qed.
  Lemma unit_graph p : In p phones -> exists h, In (p, h) units.
  Proof. intros H. apply units_in in H. apply in_map_iff in H. destruct H as ([q h] & E & H). cbn in E. subst. eauto. Qed.

  (** *** Without silence *)
  Lemma free_txt : exists ls, decode_txt show phones (map pw phones) false = Ok ls /\ mapM (txt_arc float) ls = Ok (free_lines pw phones).
  Proof.
    unfold decode_txt. destruct (phone_arcs_ok phones []) as (ls & E1 & E2); [reflexivity|]. cbn [List.length] in E1. rewrite E1. cbn [bindr].
    eexists. split; [reflexivity|]. cbn [mapM txt_arc bindr]. rewrite E2. reflexivity.
  Qed.
  Let FA := free_lines pw phones.
  Lemma free_in a b w : In (a, b, w) FA <->
    (a = "[s]" /\ b = "_1" /\ w = 1) \/ (a = "_1" /\ b = "[/s]" /\ w = 1) \/
    (a = "_1" /\ In b phones /\ w = pw b) \/ (In a phones /\ b = "_1" /\ w = 1).
  Proof.
    unfold FA, free_lines. cbn [In]. rewrite loop_lines_in. split.
    - intros [E|[E|H]]; [injection E as <- <- <-|injection E as <- <- <-|]; tauto.
    - intros [(-> & -> & ->)|[(-> & -> & ->)|H]]; auto.
  Qed.
  Lemma free_enum : enumerates FA FA.
  Proof.
    split; [|tauto]. pose proof res_s. pose proof res_e. pose proof res_1. unfold FA, free_lines. constructor; [|constructor].
    - intros [E|E]; [discriminate|]. apply loop_lines_in in E. destruct E as [(E & _)|(E & _)]; [discriminate|tauto].
    - intros E. apply loop_lines_in in E. destruct E as [(_ & E & _)|(_ & E & _)]; [tauto|discriminate].
    - now apply loop_lines_nodup.
  Qed.
  Lemma free_names x : In x (arc_names FA) <-> reserved x \/ In x phones.
  Proof.
    rewrite arc_names_in. unfold reserved. split.
    - intros ([[a b] w] & H & Hx). cbn in Hx. apply free_in in H. destruct Hx as [->| ->]; intuition.
    - intros [[->|[->| ->]]|H].
      + exists ("[s]", "_1", 1). split; [apply free_in|]; auto 10.
      + exists ("_1", "[/s]", 1). split; [apply free_in|]; auto 10.
      + exists ("_1", "[/s]", 1). split; [apply free_in|]; auto 10.
      + exists (x, "_1", 1). split; [apply free_in|]; auto 10.
  Qed.
  Lemma free_totals : out_total FA "[s]" = 1 /\ out_total FA "_1" = 1 + sumf pw phones /\
    (forall p, In p phones -> out_total FA p = 1).
  Proof.
    pose proof res_s. pose proof res_e. pose proof res_1. unfold FA, free_lines. rewrite !out_total_cons. cbn [String.eqb Ascii.eqb Bool.eqb].
    rewrite loop_total_joint by auto. rewrite loop_total_phone by (auto; discriminate).
    destruct (in_dec string_dec "[s]" phones); [contradiction|]. split; [lra|]. split; [lra|].
    intros p Hp. rewrite !out_total_cons. destruct (String.eqb_spec "[s]" p) as [<-|_]; [contradiction|].
    destruct (String.eqb_spec "_1" p) as [<-|_]; [contradiction|]. rewrite loop_total_phone; auto; [|intros ->; contradiction].
    destruct (in_dec string_dec p phones); [lra|contradiction].
  Qed.


  Lemma free_language : exists ls D G, decode_txt show phones (map pw phones) false = Ok ls /\
    prepare_graph float order ls = Ok (D, psym FA) /\ hmm_graph D (psym FA) units = Ok G /\ wf G /\
    pdf_id_mapping G = concat (map (fun u => pdf_id_mapping (snd u)) units) /\
    forall l w, generates G l w <-> produced units (free phones pw) l w.
  Proof.
    destruct free_txt as (ls & Et & Em). fold FA in Em.
    destruct (prepare_ok float order ls FA Em (Horder FA)) as (D & ED & WD & CD & SD & Sb & Se & AD).
    { intros a b w w' H1 H2. apply free_in in H1, H2. pose proof res_s. pose proof res_e. pose proof res_1.
      destruct H1 as [(-> & -> & ->)|[(-> & -> & ->)|[(-> & ? & ->)|(? & -> & ->)]]],
               H2 as [(? & ? & ->)|[(? & ? & ->)|[(? & ? & ->)|(? & ? & ->)]]]; try reflexivity; try congruence; try discriminate; try contradiction. 
      all: exfalso; subst; contradiction. }
    { intros [[a b] w] H. apply free_in in H. destruct H as [(_ & _ & ->)|[(_ & _ & ->)|[(_ & ? & ->)|(_ & _ & ->)]]]; cbn; auto; lra. }
    { apply free_names. unfold reserved. auto. } { apply free_names. unfold reserved. auto. }
    pose proof res_s as R1. pose proof res_e as R2. pose proof res_1 as R3.
    assert (AD' : exists l, enumerates l FA /\ forall x, In x (g_arcs D) <-> exists a b w, In (a, b, w) FA /\ x = Arc (pst FA a) (pst FA b) (w / out_total l a))
      by (exists (order FA); auto).
    destruct (hmm_graph_ok FA D units WD SD Sb Se AD' units_nodup) as (G & EG & WG & MG & LG).
    { intros p Hp. apply units_in in Hp. split; [apply free_names; auto|]. split; [intros ->; auto|]. split; [intros ->; auto|]. split; [intros ->; auto|].
      intros w H. apply free_in in H. destruct H as [(-> & E & _)|[(-> & E & _)|[(-> & E & _)|(_ & -> & _)]]]; try discriminate; auto. }
    { exact Hus. } { apply free_names. unfold reserved. auto. } { apply free_names. unfold reserved. auto. }
    exists ls, D, G. split; [exact Et|]. split; [exact ED|]. split; [exact EG|]. split; [exact WG|]. split; [exact MG|].
    destruct free_totals as (Ts & Tj & Tp).
    assert (Nn : forall x, reserved x \/ In x phones -> In x (pnames FA)) by (intros x H; apply pnames_in, free_names; exact H).
    assert (Ns : In "[s]" (pnames FA)) by (apply Nn; unfold reserved; auto).
    assert (Ne : In "[/s]" (pnames FA)) by (apply Nn; unfold reserved; auto).
    assert (Nj : In "_1" (pnames FA)) by (apply Nn; unfold reserved; auto).
    assert (Hu1 : forall x, ~ In x phones -> ~ In x (map fst units)) by (intros x H; now rewrite units_in).
    assert (F := arc_from FA D AD' FA free_enum).
    assert (Uu : forall p, In p (map fst units) -> In p (arc_names FA) /\ p <> "[s]" /\ p <> "[/s]" /\ p <> "_1" /\ forall w, ~ In (p, p, w) FA).
    { intros p Hp. apply units_in in Hp. split; [apply free_names; auto|]. split; [intros ->; auto|]. split; [intros ->; auto|]. split; [intros ->; auto|].
      intros w H. apply free_in in H. destruct H as [(-> & E & _)|[(-> & E & _)|[(-> & E & _)|(_ & -> & _)]]]; try discriminate; auto. }
    assert (Vo : forall n o l w, In n (pnames FA) -> ~ In n phones -> In (pst FA n, o) (g_states D) ->
      visit (usg FA units) (pst FA n) o l w <-> l = [] /\ w = 1).
    { intros n o l w H1 H2 H3. apply (visit_other FA D units); auto. }
    assert (Vu : forall p h o l w, In (p, h) units -> visit (usg FA units) (pst FA p) o l w <-> generates h l w).
    { intros p h o l w H. apply visit_unit; auto using units_nodup. }
    assert (Fj : forall c v, In (Arc (pst FA "_1") c v) (g_arcs D) <->
      (c = pst FA "[/s]" /\ v = 1 / (1 + sumf pw phones)) \/ exists p, In p phones /\ c = pst FA p /\ v = pw p / (1 + sumf pw phones)).
    { intros c v. rewrite F by auto. rewrite Tj. split.
      - intros (b & w & H & -> & ->). apply free_in in H. destruct H as [(E & _)|[(_ & -> & ->)|[(_ & H & ->)|(H & _)]]]; try discriminate; try contradiction; eauto.
      - intros [(-> & ->)|(p & H & -> & ->)]; [exists "[/s]", 1|exists p, (pw p)]; repeat split; auto; apply free_in; auto 10. }
    assert (Fp : forall p c v, In p phones -> In (Arc (pst FA p) c v) (g_arcs D) <-> c = pst FA "_1" /\ v = 1).
    { intros p c v Hp. rewrite F by auto. rewrite Tp by auto. split.
      - intros (b & w & H & -> & ->). apply free_in in H. destruct H as [(-> & _)|[(-> & _)|[(-> & _)|(_ & -> & ->)]]]; try contradiction. split; [auto|lra].
      - intros (-> & ->). exists "_1", 1. repeat split; [apply free_in; auto 10|lra]. }
    assert (Fs : forall c v, In (Arc (pst FA "[s]") c v) (g_arcs D) <-> c = pst FA "_1" /\ v = 1).
    { intros c v. rewrite F by auto. rewrite Ts. split.
      - intros (b & w & H & -> & ->). apply free_in in H. destruct H as [(_ & -> & ->)|[(E & _)|[(E & _)|(H & _)]]]; try discriminate; try contradiction. split; [auto|lra].
      - intros (-> & ->). exists "_1", 1. repeat split; [apply free_in; auto 10|lra]. }
    assert (Fe : forall c v, ~ In (Arc (pst FA "[/s]") c v) (g_arcs D)).
    { intros c v H. apply F in H; auto. destruct H as (b & w & H & _). apply free_in in H. destruct H as [(E & _)|[(E & _)|[(E & _)|(H & _)]]]; try discriminate; contradiction. }
    assert (Inj : forall a b, In a (pnames FA) -> In b (pnames FA) -> pst FA a = pst FA b -> a = b) by (intros a b; apply st_of_inj).
    assert (Sound : forall a l w b, lwalk D (usg FA units) a l w b -> b = pst FA "[/s]" ->
      (a = pst FA "[/s]" -> l = [] /\ w = 1) /\
      ((a = pst FA "_1" \/ exists p, In p phones /\ a = pst FA p) -> produced units (free phones pw) l w)).
    { induction 1 as [a|a c o l wl ls' w v b Ha Hc Hv Hw IH]; intros Eb.
      - subst a. split; [auto|]. intros [E|(p & Hp & E)]; exfalso.
        + apply Inj in E; auto. discriminate.
        + apply Inj in E; auto. subst p. contradiction.
      - specialize (IH Eb). destruct IH as [IHe IHj]. split.
        + intros ->. now apply Fe in Ha.
        + intros [->|(p & Hp & ->)].
          * apply Fj in Ha. destruct Ha as [(-> & ->)|(p & Hp & -> & ->)].
            -- apply Vo in Hv; auto. destruct Hv as [-> ->]. destruct (IHe eq_refl) as [-> ->].
               exists [], [], (1 / (1 + sumf pw phones)), 1. repeat split; try constructor. lra.
            -- destruct (unit_graph p Hp) as (h & Hh). apply (Vu p h) in Hv; auto.
               destruct IHj as (sq & hs & q & u & Hf & Hin & Hcg & ->); [right; eauto|].
               exists (p :: sq), (h :: hs), (pw p / (1 + sumf pw phones) * q), (wl * u). repeat split; try (constructor; auto). lra.
          * apply Fp in Ha; auto. destruct Ha as [-> ->]. apply Vo in Hv; auto. destruct Hv as [-> ->]. cbn [app].
            destruct IHj as (sq & hs & q & u & Hf & Hin & Hcg & ->); [auto|]. exists sq, hs, q, u. repeat split; auto. lra. }
    assert (Str : forall n, In n (pnames FA) -> In (pst FA n, None) (g_states D)).
    { intros n Hn. apply (pst_state FA D SD n Hn). reflexivity. }
    assert (Complete : forall sq q, free phones pw sq q -> forall hs l v, Forall2 (fun n h => In (n, h) units) sq hs -> catgen hs l v ->
      lwalk D (usg FA units) (pst FA "_1") l (q * v) (pst FA "[/s]")).
    { induction 1 as [|p sq q Hp Hf IH]; intros hs l v Hin Hcg.
      - inversion Hin; subst. inversion Hcg; subst. replace (1 / (1 + sumf pw phones) * 1) with (1 / (1 + sumf pw phones) * (1 * 1)) by lra.
        change (@nil nat) with (@nil nat ++ [])%list. apply lw_cons with (c := pst FA "[/s]") (o := None); auto.
        + apply Fj. auto.
        + apply Vo; auto.
        + constructor.
      - inversion Hin as [|? h ? hs' Hh Hin']; subst. inversion Hcg as [|? ? l1 w1 l2 w2 Hg Hc2]; subst.
        replace (pw p / (1 + sumf pw phones) * q * (w1 * w2)) with (pw p / (1 + sumf pw phones) * (w1 * (1 * (1 * (q * w2))))) by lra.
        apply lw_cons with (c := pst FA p) (o := None); auto.
        + apply Fj. right. eauto.
        + apply (Vu p h); auto.
        + change l2 with ([] ++ l2)%list. apply lw_cons with (c := pst FA "_1") (o := None); auto.
          * apply Fp; auto.
          * apply Vo; auto.
          * eapply IH; eauto. }
    intros l w. rewrite LG. split.
    - intros H. inversion H as [a E1 E2|a c o l' wl ls' w' v b Ha Hc Hv Hw]; subst.
      + match goal with E : pst FA "[s]" = pst FA "[/s]" |- _ => apply Inj in E; auto; discriminate end.
      + apply Fs in Ha. destruct Ha as [-> ->]. apply Vo in Hv; auto. destruct Hv as [-> ->]. cbn [app].
        destruct (Sound _ _ _ _ Hw eq_refl) as [_ S]. destruct S as (sq & hs & q & u & Hf & Hin & Hcg & ->); [auto|].
        exists sq, hs, q, u. repeat split; auto. lra.
    - intros (sq & hs & q & u & Hf & Hin & Hcg & ->). replace (q * u) with (1 * (1 * (q * u))) by lra.
      change l with ([] ++ l)%list. apply lw_cons with (c := pst FA "_1") (o := None); auto.
      + apply Fs; auto.
      + apply Vo; auto.
      + eapply Complete; eauto.
  Qed.
  (** *** With silence *)
  Variables (sil : string) (rest : list string).
  Hypothesis Hsil : phones = sil :: rest.
  Let SA := sil_lines pw sil rest.

  Lemma sil_txt : exists ls, decode_txt show phones (map pw phones) true = Ok ls /\ mapM (txt_arc float) ls = Ok SA.
  Proof.
    destruct (phone_arcs_ok rest [sil]) as (ls & E1 & E2); [exact Hsil|]. cbn [List.length] in E1.
    assert (Hf : float (show (pw sil)) = Ok (pw sil)) by (apply Hfloat; rewrite Hsil; now left).
    assert (Ed : decode_txt show phones (map pw phones) true =
      bindr (phone_arcs show rest (map pw phones) 1) (fun l =>
        Ok (["[s]"; sil] :: [sil; "[/s]"] :: [sil; "_1"] :: ["_1"; sil; show (pw sil)] :: l))).
    { unfold decode_txt. rewrite Hsil. reflexivity. }
    rewrite Ed, E1. cbn [bindr]. eexists. split; [reflexivity|]. cbn [mapM txt_arc bindr]. rewrite Hf. cbn [bindr]. rewrite E2. reflexivity.
  Qed.
  Lemma sil_phone : In sil phones.
  Proof. rewrite Hsil. now left. Qed.
  Lemma rest_phone p : In p phones <-> p = sil \/ In p rest.
  Proof. rewrite Hsil. cbn. intuition. Qed.
  Lemma sil_rest : ~ In sil rest /\ NoDup rest.
  Proof. pose proof Nphones as N. rewrite Hsil in N. now inversion N. Qed.
  Lemma sil_in a b w : In (a, b, w) SA <->
    (a = "[s]" /\ b = sil /\ w = 1) \/ (a = sil /\ b = "[/s]" /\ w = 1) \/
    (a = "_1" /\ In b phones /\ w = pw b) \/ (In a phones /\ b = "_1" /\ w = 1).
  Proof.
    unfold SA, sil_lines. cbn [In]. rewrite loop_lines_in, !rest_phone. split.
    - intros [E|[E|[E|[E|H]]]]; [injection E as <- <- <-|injection E as <- <- <-|injection E as <- <- <-|injection E as <- <- <-|]; tauto.
    - intros [(-> & -> & ->)|[(-> & -> & ->)|[(-> & [->|H] & ->)|([->|H] & -> & ->)]]]; auto 10.
  Qed.
  Lemma sil_enum : enumerates SA SA.
  Proof.
    split; [|tauto]. pose proof res_s as R1. pose proof res_e as R2. pose proof res_1 as R3. pose proof sil_phone as Sp.
    destruct sil_rest as [Nr1 Nr2]. rewrite rest_phone in R1, R2, R3.
    unfold SA, sil_lines. constructor; [|constructor; [|constructor; [|constructor]]].
    - intros [E|[E|[E|E]]]; [injection E; intros; subst; tauto|injection E; intros; subst; tauto|discriminate|].
      apply loop_lines_in in E. destruct E as [(E & _)|(E & _)]; [discriminate|tauto].
    - intros [E|[E|E]]; [discriminate|injection E; intros; subst; tauto|]. apply loop_lines_in in E.
      destruct E as [(_ & E & _)|(E & _)]; [tauto|tauto].
    - intros [E|E]; [injection E; intros; subst; tauto|]. apply loop_lines_in in E. destruct E as [(_ & E & _)|(E & _)]; tauto.
    - intros E. apply loop_lines_in in E. destruct E as [(_ & E & _)|(E & _)]; tauto.
    - apply loop_lines_nodup; auto.
  Qed.
  Lemma sil_names x : In x (arc_names SA) <-> reserved x \/ In x phones.
  Proof.
    pose proof sil_phone as Sp. rewrite arc_names_in. unfold reserved. split.
    - intros ([[a b] w] & H & Hx). cbn in Hx. apply sil_in in H.
      destruct H as [(-> & -> & _)|[(-> & -> & _)|[(-> & H & _)|(H & -> & _)]]], Hx as [->| ->]; auto.
    - intros [[->|[->| ->]]|H].
      + exists ("[s]", sil, 1). split; [apply sil_in|]; auto 10.
      + exists (sil, "[/s]", 1). split; [apply sil_in|]; auto 10.
      + exists (sil, "_1", 1). split; [apply sil_in|]; auto 10.
      + exists (x, "_1", 1). split; [apply sil_in|]; auto 10.
  Qed.
  Lemma sil_totals : out_total SA "[s]" = 1 /\ out_total SA "_1" = sumf pw phones /\ out_total SA sil = 2 /\
    (forall p, In p phones -> p <> sil -> out_total SA p = 1).
  Proof.
    pose proof res_s as R1. pose proof res_e as R2. pose proof res_1 as R3. pose proof sil_phone as Sp. destruct sil_rest as [Nr1 Nr2].
    assert (N1 : sil <> "_1") by (intros E; rewrite E in Sp; tauto). assert (N2 : sil <> "[s]") by (intros E; rewrite E in Sp; tauto).
    assert (Q3 : ~ In "_1" rest) by (intros H; apply R3, rest_phone; auto).
    assert (Q1 : ~ In "[s]" rest) by (intros H; apply R1, rest_phone; auto).
    unfold SA, sil_lines. rewrite !out_total_cons, !String.eqb_refl.
    rewrite (proj2 (String.eqb_neq sil "[s]") N2), (proj2 (String.eqb_neq sil "_1") N1).
    rewrite (proj2 (String.eqb_neq "[s]" sil)), (proj2 (String.eqb_neq "_1" sil)) by auto.
    rewrite loop_total_joint by auto. rewrite !loop_total_phone by (auto; discriminate).
    destruct (in_dec string_dec "[s]" rest); [contradiction|]. destruct (in_dec string_dec sil rest); [contradiction|].
    replace (String.eqb "_1" "[s]") with false by reflexivity. replace (String.eqb "[s]" "_1") with false by reflexivity.
    split; [lra|]. split; [rewrite Hsil, sumf_cons; lra|]. split; [lra|].
    intros p Hp Np. rewrite !out_total_cons. destruct (String.eqb_spec "[s]" p) as [<-|_]; [contradiction|].
    destruct (String.eqb_spec "_1" p) as [<-|_]; [contradiction|]. destruct (String.eqb_spec sil p) as [<-|_]; [contradiction|].
    rewrite loop_total_phone; auto; [|intros ->; contradiction]. apply rest_phone in Hp. destruct Hp as [->|Hp]; [contradiction|].
    destruct (in_dec string_dec p rest); [lra|contradiction].
  Qed.

  Lemma sil_language : exists ls D G, decode_txt show phones (map pw phones) true = Ok ls /\
    prepare_graph float order ls = Ok (D, psym SA) /\ hmm_graph D (psym SA) units = Ok G /\ wf G /\
    pdf_id_mapping G = concat (map (fun u => pdf_id_mapping (snd u)) units) /\
    forall l w, generates G l w <-> produced units (fun sq p => exists sq', sq = sil :: sq' /\ after phones pw sil sil sq' p) l w.
  Proof.
    destruct sil_txt as (ls & Et & Em). pose proof sil_phone as Sp.
    pose proof res_s as R1. pose proof res_e as R2. pose proof res_1 as R3.
    destruct (prepare_ok float order ls SA Em (Horder SA)) as (D & ED & WD & CD & SD & Sb & Se & AD).
    { intros a b w w' H1 H2. apply sil_in in H1, H2.
      destruct H1 as [(-> & -> & ->)|[(-> & -> & ->)|[(-> & ? & ->)|(? & -> & ->)]]],
               H2 as [(? & ? & ->)|[(? & ? & ->)|[(? & ? & ->)|(? & ? & ->)]]]; try reflexivity; try discriminate; exfalso; subst; try contradiction; congruence. }
    { intros [[a b] w] H. apply sil_in in H. destruct H as [(_ & _ & ->)|[(_ & _ & ->)|[(_ & ? & ->)|(_ & _ & ->)]]]; cbn; auto; lra. }
    { apply sil_names. unfold reserved. auto. } { apply sil_names. unfold reserved. auto. }
    assert (AD' : exists l, enumerates l SA /\ forall x, In x (g_arcs D) <-> exists a b w, In (a, b, w) SA /\ x = Arc (pst SA a) (pst SA b) (w / out_total l a))
      by (exists (order SA); auto).
    assert (Uu : forall p, In p (map fst units) -> In p (arc_names SA) /\ p <> "[s]" /\ p <> "[/s]" /\ p <> "_1" /\ forall w, ~ In (p, p, w) SA).
    { intros p Hp. apply units_in in Hp. split; [apply sil_names; auto|]. split; [intros ->; auto|]. split; [intros ->; auto|]. split; [intros ->; auto|].
      intros w H. apply sil_in in H. destruct H as [(-> & E & _)|[(-> & E & _)|[(-> & E & _)|(_ & -> & _)]]]; auto. congruence. }
    assert (Rs : In "[s]" (arc_names SA)) by (apply sil_names; unfold reserved; auto).
    assert (Re : In "[/s]" (arc_names SA)) by (apply sil_names; unfold reserved; auto).
    destruct (hmm_graph_ok SA D units WD SD Sb Se AD' units_nodup Uu Hus Rs Re) as (G & EG & WG & MG & LG).
    exists ls, D, G. split; [exact Et|]. split; [exact ED|]. split; [exact EG|]. split; [exact WG|]. split; [exact MG|].
    destruct sil_totals as (Ts & Tj & Tsil & Tp).
    assert (Nn : forall x, reserved x \/ In x phones -> In x (pnames SA)) by (intros x H; apply pnames_in, sil_names; exact H).
    assert (Ns : In "[s]" (pnames SA)) by (apply Nn; unfold reserved; auto).
    assert (Ne : In "[/s]" (pnames SA)) by (apply Nn; unfold reserved; auto).
    assert (Nj : In "_1" (pnames SA)) by (apply Nn; unfold reserved; auto).
    assert (Hu1 : forall x, ~ In x phones -> ~ In x (map fst units)) by (intros x H; now rewrite units_in).
    assert (F := arc_from SA D AD' SA sil_enum).
    assert (Vo : forall n o l w, In n (pnames SA) -> ~ In n phones -> In (pst SA n, o) (g_states D) ->
      visit (usg SA units) (pst SA n) o l w <-> l = [] /\ w = 1).
    { intros n o l w H1 H2 H3. apply (visit_other SA D units); auto. }
    assert (Vu : forall p h o l w, In (p, h) units -> visit (usg SA units) (pst SA p) o l w <-> generates h l w).
    { intros p h o l w H. apply visit_unit; auto using units_nodup. }
    assert (Fj : forall c v, In (Arc (pst SA "_1") c v) (g_arcs D) <->
      exists p, In p phones /\ c = pst SA p /\ v = pw p / sumf pw phones).
    { intros c v. rewrite F by auto. rewrite Tj. split.
      - intros (b & w & H & -> & ->). apply sil_in in H. destruct H as [(E & _)|[(E & _)|[(_ & H & ->)|(H & _)]]]; try discriminate; try contradiction; eauto.
        exfalso. rewrite <- E in Sp. contradiction.
      - intros (p & H & -> & ->). exists p, (pw p); repeat split; auto; apply sil_in; auto 10. }
    assert (Fp : forall p c v, In p phones -> p <> sil -> In (Arc (pst SA p) c v) (g_arcs D) <-> c = pst SA "_1" /\ v = 1).
    { intros p c v Hp Np. rewrite F by auto. rewrite Tp by auto. split.
      - intros (b & w & H & -> & ->). apply sil_in in H. destruct H as [(-> & _)|[(-> & _)|[(-> & _)|(_ & -> & ->)]]]; try contradiction. split; [auto|lra].
      - intros (-> & ->). exists "_1", 1. repeat split; [apply sil_in; auto 10|lra]. }
    assert (Fsil : forall c v, In (Arc (pst SA sil) c v) (g_arcs D) <-> (c = pst SA "_1" \/ c = pst SA "[/s]") /\ v = 1 / 2).
    { intros c v. rewrite F by auto. rewrite Tsil. split.
      - intros (b & w & H & -> & ->). apply sil_in in H. destruct H as [(E & _)|[(_ & -> & ->)|[(E & _)|(_ & -> & ->)]]].
        + exfalso. rewrite E in Sp. contradiction.
        + auto.
        + exfalso. rewrite E in Sp. contradiction.
        + auto.
      - intros ([->| ->] & ->); [exists "_1", 1|exists "[/s]", 1]; repeat split; apply sil_in; auto 10. }
    assert (Fs : forall c v, In (Arc (pst SA "[s]") c v) (g_arcs D) <-> c = pst SA sil /\ v = 1).
    { intros c v. rewrite F by auto. rewrite Ts. split.
      - intros (b & w & H & -> & ->). apply sil_in in H. destruct H as [(_ & -> & ->)|[(E & _)|[(E & _)|(H & _)]]]; try discriminate; try contradiction.
        + split; [auto|lra].
        + exfalso. rewrite <- E in Sp. contradiction.
      - intros (-> & ->). exists sil, 1. repeat split; [apply sil_in; auto 10|lra]. }
    assert (Fe : forall c v, ~ In (Arc (pst SA "[/s]") c v) (g_arcs D)).
    { intros c v H. apply F in H; auto. destruct H as (b & w & H & _). apply sil_in in H. destruct H as [(E & _)|[(E & _)|[(E & _)|(H & _)]]]; try discriminate; try contradiction.
      rewrite <- E in Sp. contradiction. }
    assert (Inj : forall a b, In a (pnames SA) -> In b (pnames SA) -> pst SA a = pst SA b -> a = b) by (intros a b; apply st_of_inj).
    assert (Sound : forall a l w b, lwalk D (usg SA units) a l w b -> b = pst SA "[/s]" ->
      (a = pst SA "[/s]" -> l = [] /\ w = 1) /\
      (forall q, In q phones -> a = pst SA q -> produced units (after phones pw sil q) l w) /\
      (a = pst SA "_1" -> produced units (fun sq v => exists p sq' v', In p phones /\ sq = p :: sq' /\ after phones pw sil p sq' v' /\ v = pw p / sumf pw phones * v') l w)).
    { induction 1 as [a|a c o l wl ls' w v b Ha Hc Hv Hw IH]; intros Eb.
      - subst a. split; [auto|]. split.
        + intros q Hq E. apply Inj in E; auto. subst q. contradiction.
        + intros E. apply Inj in E; auto. discriminate.
      - specialize (IH Eb). destruct IH as (IHe & IHq & IHj). split; [|split].
        + intros ->. now apply Fe in Ha.
        + intros q Hq ->. destruct (string_dec q sil) as [->|Nq].
          * apply Fsil in Ha. destruct Ha as [[->| ->] ->].
            -- apply Vo in Hv; auto. destruct Hv as [-> ->]. cbn [app].
               destruct (IHj eq_refl) as (sq & hs & x & u & (p & sq' & v' & Hp & -> & Ha' & ->) & Hin & Hcg & ->).
               exists (p :: sq'), hs, (1 / 2 * (pw p / sumf pw phones * v')), u. split; [now constructor|]. split; [exact Hin|]. split; [exact Hcg|]. lra.
            -- apply Vo in Hv; auto. destruct Hv as [-> ->]. destruct (IHe eq_refl) as [-> ->].
               exists [], [], (1 / 2), 1. repeat split; try constructor. lra.
          * apply Fp in Ha; auto. destruct Ha as [-> ->]. apply Vo in Hv; auto. destruct Hv as [-> ->]. cbn [app].
            destruct (IHj eq_refl) as (sq & hs & x & u & (p & sq' & v' & Hp & -> & Ha' & ->) & Hin & Hcg & ->).
            exists (p :: sq'), hs, (pw p / sumf pw phones * v'), u. split; [now constructor|]. split; [exact Hin|]. split; [exact Hcg|]. lra.
        + intros ->. apply Fj in Ha. destruct Ha as (p & Hp & -> & ->). destruct (unit_graph p Hp) as (h & Hh). apply (Vu p h) in Hv; auto.
          destruct (IHq p Hp eq_refl) as (sq & hs & x & u & Hf & Hin & Hcg & ->).
          exists (p :: sq), (h :: hs), (pw p / sumf pw phones * x), (wl * u). split; [exists p, sq, x; auto|].
          split; [constructor; auto|]. split; [constructor; auto|]. lra. }
    assert (Str : forall n, In n (pnames SA) -> In (pst SA n, None) (g_states D)).
    { intros n Hn. apply (pst_state SA D SD n Hn). reflexivity. }
    clear Hsil.
    assert (Complete : forall q sq x, after phones pw sil q sq x -> In q phones -> forall hs l v, Forall2 (fun n h => In (n, h) units) sq hs -> catgen hs l v ->
      lwalk D (usg SA units) (pst SA q) l (x * v) (pst SA "[/s]")).
    { assert (Step : forall p sq x, In p phones ->
        (forall hs l v, Forall2 (fun n h => In (n, h) units) sq hs -> catgen hs l v -> lwalk D (usg SA units) (pst SA p) l (x * v) (pst SA "[/s]")) ->
        forall hs l v, Forall2 (fun n h => In (n, h) units) (p :: sq) hs -> catgen hs l v ->
        lwalk D (usg SA units) (pst SA "_1") l (pw p / sumf pw phones * x * v) (pst SA "[/s]")).
      { intros p sq x Hp IH hs l v Hin Hcg.
        inversion Hin as [|? h ? hs' Hh Hin']; subst. inversion Hcg as [|? ? l1 w1 l2 w2 Hg Hc2]; subst.
        replace (pw p / sumf pw phones * x * (w1 * w2)) with (pw p / sumf pw phones * (w1 * (x * w2))) by lra.
        apply lw_cons with (c := pst SA p) (o := None); auto.
        - apply Fj. eauto.
        - apply (Vu p h); auto.
        - eapply IH; eauto. }
      induction 1 as [|p sq x Hp Hf IH|q p sq x Nq Hp Hf IH]; intros Hq hs l v Hin Hcg.
      - inversion Hin; subst. inversion Hcg; subst. replace (1 / 2 * 1) with (1 / 2 * (1 * 1)) by lra.
        change (@nil nat) with (@nil nat ++ [])%list. apply lw_cons with (c := pst SA "[/s]") (o := None); auto.
        + apply Fsil. auto.
        + apply Vo; auto.
        + constructor.
      - replace (1 / 2 * (pw p / sumf pw phones * x) * v) with (1 / 2 * (1 * (pw p / sumf pw phones * x * v))) by lra.
        change l with ([] ++ l)%list. apply lw_cons with (c := pst SA "_1") (o := None); auto.
        + apply Fsil. auto.
        + apply Vo; auto.
        + eapply Step; eauto.
      - replace (pw p / sumf pw phones * x * v) with (1 * (1 * (pw p / sumf pw phones * x * v))) by lra.
        change l with ([] ++ l)%list. apply lw_cons with (c := pst SA "_1") (o := None); auto.
        + apply Fp; auto.
        + apply Vo; auto.
        + eapply Step; eauto. }
    intros l w. rewrite LG. split.
    - intros H. inversion H as [a E1 E2|a c o l' wl ls' w' v b Ha Hc Hv Hw]; subst.
      + match goal with E : pst SA "[s]" = pst SA "[/s]" |- _ => apply Inj in E; auto; discriminate end.
      + apply Fs in Ha. destruct Ha as [-> ->]. destruct (unit_graph sil Sp) as (h & Hh). apply (Vu sil h) in Hv; auto.
        destruct (Sound _ _ _ _ Hw eq_refl) as (_ & S & _). destruct (S sil Sp eq_refl) as (sq & hs & q & u & Hf & Hin & Hcg & ->).
        exists (sil :: sq), (h :: hs), q, (wl * u). split; [eauto|]. split; [constructor; auto|]. split; [constructor; auto|]. lra.
    - intros (sq & hs & q & u & (sq' & -> & Hf) & Hin & Hcg & ->).
      inversion Hin as [|? h ? hs' Hh Hin']; subst. inversion Hcg as [|? ? l1 w1 l2 w2 Hg Hc2]; subst.
      replace (q * (w1 * w2)) with (1 * (w1 * (q * w2))) by lra. apply lw_cons with (c := pst SA sil) (o := None); auto.
      + apply Fs; auto.
      + apply (Vu sil h); auto.
      + eapply Complete; eauto.
  Qed.
End Language.

(** ** The HMMs of the units *)
Lemma unit_wf t k n : fits n t -> wf (unit_of t k n).
Proof.
  intros (_ & _ & Hc). constructor.
  - rewrite unit_of_states. apply seq_NoDup.
  - intros s Hs. rewrite unit_of_states in Hs. apply in_seq in Hs. simpl. lia.
  - intros a Ha. rewrite unit_of_states. simpl in Ha. apply fold_arc_add_in in Ha.
    destruct Ha as [[]|Ha]. apply in_map_iff in Ha. destruct Ha as (b & <- & Hb). simpl.
    rewrite !in_seq. specialize (Hc b Hb). lia.
  - simpl. apply fold_arc_add_nodup. constructor.
Qed.

Lemma tv_unit_ok n t k : fits n t -> exists h, tv_unit_graph n t k = Ok (h, (k + (n - 2))%nat) /\
  unit_hmm n t k h /\ usable h /\ pdf_id_mapping h = seq k (n - 2).
Proof.
  intros F. pose proof F as (Hn & Hp & Hc). pose proof (unit_wf t k n F) as W.
  destruct (normalize_pos (unit_of t k n)) as (h & En & _); [apply W|now apply unit_of_pos|].
  exists h. split.
  { unfold tv_unit_graph. destruct n as [|last]; [lia|]. destruct (Nat.eqb_spec (S last) 1) as [E|_]; [lia|].
    assert (Ef := unit_states_fold k (S last) Hn (S last) (le_n _)). replace (S last - 1)%nat with last in Ef at 1 by lia.
    rewrite Ef. rewrite add_arcs_fold. cbn [set_start set_end with_arcs g_arcs g_count g_states g_start g_end].
    match goal with |- context [normalize ?g] => replace g with (unit_of t k (S last)) by (unfold unit_of; cbn; now rewrite Nat.sub_0_r) end.
    rewrite En. cbn [bindr]. f_equal. f_equal. lia. }
  destruct (normalize_arcs (unit_of t k n) h) as (E1 & E2 & E3 & E4 & E5 & E6); [apply W|exact En|].
  cbn [g_states g_start g_end unit_of] in E1, E2, E3.
  assert (Hst : forall i, (i < n)%nat -> In (i, unit_pdf k n i) (g_states h)) by (intros i Hi; rewrite E1; now apply unit_sts_in).
  split; [constructor|split].
  - unfold states. rewrite E1. apply (unit_of_states t k n).
  - exact E2.
  - exact E3.
  - specialize (Hst 0%nat). cbn in Hst. apply Hst. lia.
  - specialize (Hst (n - 1)%nat). unfold unit_pdf in Hst. rewrite Nat.eqb_refl, orb_true_r in Hst. apply Hst. lia.
  - intros i Hi. specialize (Hst i). unfold unit_pdf in Hst. destruct (Nat.eqb i 0 || Nat.eqb i (n - 1)) eqn:E.
    + apply orb_true_iff in E. rewrite !Nat.eqb_eq in E. lia.
    + apply Hst. lia.
  - intros s e. split.
    + intros (w & H). apply E6 in H. cbn in H. destruct H as (v & H). apply fold_arc_add_in in H. destruct H as [[]|H].
      apply in_map_iff in H. destruct H as ([[s' e'] w'] & E & H). inversion E. subst. eauto.
    + intros (w & H). assert (K : In (s, e) (map key (g_arcs (unit_of t k n)))).
      { cbn. apply fold_arc_add_keys. right. rewrite map_map. apply in_map_iff. exists (s, e, w). auto. }
      apply in_map_iff in K. destruct K as ([s' e' w'] & E & K). apply E5 in K. unfold key in E. cbn in E, K. inversion E. subst. exact K.
  - intros Nt s e w.
    assert (EA : g_arcs (unit_of t k n) = map triple_arc t).
    { cbn. rewrite fold_arc_add_fresh; [reflexivity|]. cbn. rewrite map_map. 
      replace (map (fun x => key (triple_arc x)) t) with (map fst t); [exact Nt|]. apply map_ext. intros [[a b] v]. reflexivity. }
    destruct (normalize_spec (unit_of t k n)) as [[_ E]|[_ E]]; [apply W| |congruence].
    rewrite E, EA in En. injection En as <-. cbn [g_arcs with_arcs].
    assert (N1 : forall x, In x t -> norm1 (states (unit_of t k n)) (map triple_arc t) (triple_arc x) =
      Arc (fst (fst x)) (snd (fst x)) (snd x / sumf snd (filter (fun a => Nat.eqb (fst (fst a)) (fst (fst x))) t))).
    { intros x Hx. unfold norm1. cbn [triple_arc a_start a_end a_weight]. rewrite (proj2 (mem_in _ _)).
      - f_equal. f_equal. unfold out_sum. clear. induction t as [|y t IH]; [reflexivity|]. cbn [map filter triple_arc a_start]. destruct (Nat.eqb _ _); [|exact IH].
        now rewrite !sumf_cons, IH.
      - rewrite unit_of_states. apply in_seq. specialize (Hc x Hx). lia. }
    rewrite in_map_iff. split.
    + intros (y & Ey & Hy). apply in_map_iff in Hy. destruct Hy as (x & <- & Hx). rewrite (N1 x Hx) in Ey. inversion Ey. subst.
      exists (snd x). split; [|reflexivity]. destruct x as [[a b] v]. exact Hx.
    + intros (v & Hv & ->). exists (triple_arc (s, e, v)). split; [rewrite (N1 _ Hv); reflexivity|now apply in_map].
  - split; [eapply normalize_wf; [exact W|exact En]|]. 
    assert (Es : states h = seq 0 n) by (unfold states; rewrite E1; apply (unit_of_states t k n)). rewrite Es, E2, E3. split.
    + exists 0%nat. split; [reflexivity|]. apply in_seq. lia.
    + exists (n - 1)%nat. split; [reflexivity|]. apply in_seq. lia.
  - rewrite mapping_pdfs, E1. now apply unit_sts_pdfs.
Qed.

Definition unit_step (phones : list string) (c : tv_group) (st : nat * nat * list (string * graph)) (_ : nat)
  : result (nat * nat * list (string * graph)) :=
  let '(unit_count, pdf_id, units) := st in
  bindr (tv_unit_graph (n_state_per_unit c) (topo c) pdf_id) (fun r =>
  match nth_error phones unit_count with
  | None => Err IndexError
  | Some p => Ok (S unit_count, snd r, sset p (fst r) units)
  end).

Lemma tv_group_ok phones c : group_fits c -> NoDup phones -> forall l i k units,
  map fst units = firstn i phones -> (i + List.length l <= List.length phones)%nat ->
  exists b, foldM (unit_step phones c) l (i, k, units) =
      Ok ((i + List.length l)%nat, (k + List.length l * (n_state_per_unit c - 2))%nat, (units ++ b)%list) /\
    map fst (units ++ b) = firstn (i + List.length l) phones /\ List.length b = List.length l /\
    Forall (fun u => group_unit c (snd u)) b /\ block_pdfs b = seq k (List.length l * (n_state_per_unit c - 2)).
Proof.
  intros Fc Np. induction l as [|x l IH]; intros i k units Hu Hl; cbn [List.length] in *.
  - exists []. cbn. rewrite !Nat.add_0_r, app_nil_r. repeat split; auto.
  - cbn [foldM]. destruct (tv_unit_ok (n_state_per_unit c) (topo c) k Fc) as (h & Eh & Uh & Us & Ph).
    unfold unit_step at 1. rewrite Eh. cbn [bindr fst snd].
    destruct (nth_error phones i) as [p|] eqn:En; [|apply nth_error_None in En; lia]. cbn [bindr].
    assert (Ef : firstn (S i) phones = (firstn i phones ++ [p])%list).
    { clear - En. revert i En. induction phones as [|q ph IH]; intros [|i] En; cbn in *; try discriminate.
      - injection En as ->. reflexivity.
      - now rewrite (IH i En). }
    assert (Nx : ~ In p (map fst units)).
    { rewrite Hu. intros H. apply (In_nth_error) in H. destruct H as (j & Hj).
      assert (Lj : (j < i)%nat). { assert (X : nth_error (firstn i phones) j <> None) by congruence. apply nth_error_Some in X. rewrite firstn_length in X. lia. }
      assert (nth_error phones j = Some p).
      { rewrite <- (firstn_skipn i phones), nth_error_app1; [exact Hj|]. rewrite firstn_length. lia. }
      assert (j = i). { eapply (proj1 (NoDup_nth_error phones) Np); [lia|congruence]. }
      lia. }
    rewrite sset_fresh by exact Nx.
    destruct (IH (S i) (k + (n_state_per_unit c - 2))%nat (units ++ [(p, h)])%list) as (b & Eb & Nb & Lb & Fb & Pb).
    { rewrite map_app, Hu, Ef. reflexivity. }
    { lia. }
    exists ((p, h) :: b). replace (units ++ (p, h) :: b)%list with ((units ++ [(p, h)]) ++ b)%list by (now rewrite <- app_assoc).
    replace (i + S (List.length l))%nat with (S i + List.length l)%nat by lia. split; [|split; [|split; [|split]]].
    + rewrite Eb. f_equal. f_equal. f_equal. lia.
    + exact Nb.
    + cbn. lia.
    + constructor; auto. split; [exists k; exact Uh|exact Us].
    + unfold block_pdfs in *. cbn [map concat snd]. rewrite Ph, Pb. cbn [Nat.mul]. now rewrite seq_app.
Qed.

Lemma tv_units_ok conf phones : Forall group_fits conf -> NoDup phones ->
  (list_sum (map n_units conf) <= List.length phones)%nat ->
  exists blocks, tv_units conf phones = Ok (concat blocks, map group_tot conf) /\
    map fst (concat blocks) = firstn (list_sum (map n_units conf)) phones /\
    Forall2 (fun c b => List.length b = n_units c /\ Forall (fun u => group_unit c (snd u)) b) conf blocks /\
    (forall pre c post bpre b bpost, conf = (pre ++ c :: post)%list -> blocks = (bpre ++ b :: bpost)%list -> List.length pre = List.length bpre ->
       block_pdfs b = seq (list_sum (map group_tot pre)) (group_tot c)) /\
    block_pdfs (concat blocks) = seq 0 (list_sum (map group_tot conf)).
Proof.
  intros Fc Np. unfold tv_units.
  assert (G : forall conf i k units tots, Forall group_fits conf -> map fst units = firstn i phones ->
    (i + list_sum (map n_units conf) <= List.length phones)%nat ->
    exists blocks, foldM (fun st c => bindr (tv_group_units phones c (fst st)) (fun st' =>
           Ok (st', (snd st ++ [n_units c * (n_state_per_unit c - 2)]%nat)%list))) conf (i, k, units, tots) =
      Ok ((i + list_sum (map n_units conf))%nat, (k + list_sum (map group_tot conf))%nat, (units ++ concat blocks)%list, (tots ++ map group_tot conf)%list) /\
    map fst (units ++ concat blocks) = firstn (i + list_sum (map n_units conf)) phones /\
    Forall2 (fun c b => List.length b = n_units c /\ Forall (fun u => group_unit c (snd u)) b) conf blocks /\
    (forall pre c post bpre b bpost, conf = (pre ++ c :: post)%list -> blocks = (bpre ++ b :: bpost)%list -> List.length pre = List.length bpre ->
       block_pdfs b = seq (k + list_sum (map group_tot pre)) (group_tot c)) /\
    block_pdfs (concat blocks) = seq k (list_sum (map group_tot conf))).
  { clear conf Fc. induction conf as [|c conf IH]; intros i k units tots Fc Hu Hl.
    - exists []. cbn. rewrite !Nat.add_0_r, !app_nil_r. repeat split; auto. intros [|? ?] ? ? ? ? ? H; discriminate.
    - inversion Fc as [|? ? Fc1 Fc2]; subst. cbn [foldM fst snd map list_sum fold_right] in *. 
      destruct (tv_group_ok phones c Fc1 Np (seq 0 (n_units c)) i k units Hu) as (b & Eb & Nb & Lb & Gb & Pb).
      { rewrite seq_length. unfold list_sum in Hl. cbn in Hl. lia. }
      change (tv_group_units phones c (i, k, units)) with (foldM (unit_step phones c) (seq 0 (n_units c)) (i, k, units)).
      rewrite Eb. cbn [bindr]. rewrite seq_length in *. fold (group_tot c) in Pb |- *.
      destruct (IH (i + n_units c)%nat (k + group_tot c)%nat (units ++ b)%list (tots ++ [group_tot c])%list Fc2 Nb) as (bs & E & N & F & P & Q).
      { unfold list_sum in *. cbn in Hl. lia. }
      exists (b :: bs). cbn [concat]. rewrite app_assoc. split; [|split; [|split; [|split]]].
      + rewrite E. unfold list_sum. cbn [fold_right].
        replace (i + n_units c + fold_right Nat.add 0 (map n_units conf))%nat with (i + (n_units c + fold_right Nat.add 0 (map n_units conf)))%nat by lia.
        replace (k + group_tot c + fold_right Nat.add 0 (map group_tot conf))%nat with (k + (group_tot c + fold_right Nat.add 0 (map group_tot conf)))%nat by lia.
        now rewrite <- (app_assoc tots).
      + rewrite N. f_equal. unfold list_sum. cbn. lia.
      + constructor; auto.
      + intros [|c' pre] c0 post [|b' bpre] b0 bpost E1 E2 L; cbn in E1, E2, L; try discriminate.
        * injection E1 as <- <-. injection E2 as <- <-. cbn. rewrite Nat.add_0_r. exact Pb.
        * injection E1 as <- ->. injection E2 as <- ->. rewrite (P pre c0 post bpre b0 bpost) by (auto; lia).
          f_equal. unfold list_sum. cbn. lia.
      + unfold block_pdfs in *. rewrite map_app, concat_app, Pb, Q. unfold list_sum. cbn [fold_right]. now rewrite seq_app. }
  intros Hl. destruct (G conf 0%nat 0%nat [] [] Fc) as (bs & E & N & F & P & Q); [reflexivity|exact Hl|].
  exists bs. rewrite E. cbn [bindr app Nat.add] in *. repeat split; auto.
Qed.

Lemma tv_units_many conf phones : Forall group_fits conf -> NoDup phones ->
  (List.length phones < list_sum (map n_units conf))%nat -> tv_units conf phones = Err IndexError.
Proof.
  intros Fc Np. unfold tv_units.
  assert (G : forall conf i k units tots, Forall group_fits conf -> map fst units = firstn i phones -> (i <= List.length phones)%nat ->
    (List.length phones < i + list_sum (map n_units conf))%nat ->
    foldM (fun st c => bindr (tv_group_units phones c (fst st)) (fun st' =>
           Ok (st', (snd st ++ [n_units c * (n_state_per_unit c - 2)]%nat)%list))) conf (i, k, units, tots) = Err IndexError).
  { clear conf Fc. induction conf as [|c conf IH]; intros i k units tots Fc Hu Hi Hl.
    - cbn in Hl. lia.
    - inversion Fc as [|? ? Fc1 Fc2]; subst. cbn [foldM fst snd map] in *.
      change (tv_group_units phones c (i, k, units)) with (foldM (unit_step phones c) (seq 0 (n_units c)) (i, k, units)).
      destruct (le_lt_dec (i + n_units c) (List.length phones)) as [L|L].
      + destruct (tv_group_ok phones c Fc1 Np (seq 0 (n_units c)) i k units Hu) as (b & Eb & Nb & Lb & Gb & Pb); [rewrite seq_length; lia|].
        rewrite Eb. cbn [bindr]. rewrite seq_length in *. apply IH; auto. unfold list_sum in *. cbn in Hl. lia.
      + set (m := (List.length phones - i)%nat).
        assert (Es : exists x r, seq 0 (n_units c) = (seq 0 m ++ x :: r)%list).
        { exists m, (seq (S m) (n_units c - S m)). change (m :: seq (S m) (n_units c - S m)) with (seq (0 + m) (S (n_units c - S m))).
          rewrite <- seq_app. f_equal. lia. }
        destruct Es as (x & r & ->).
        assert (FA : forall {A B} (f : A -> B -> result A) l1 l2 a, foldM f (l1 ++ l2)%list a = bindr (foldM f l1 a) (foldM f l2)).
        { clear. induction l1 as [|b l1 IH]; intros l2 a; cbn; [reflexivity|]. destruct (f a b); cbn; auto. }
        rewrite FA. destruct (tv_group_ok phones c Fc1 Np (seq 0 m) i k units Hu) as (b & Eb & Nb & Lb & Gb & Pb); [rewrite seq_length; lia|].
        rewrite Eb. cbn [bindr foldM]. unfold unit_step at 1. 
        destruct (tv_unit_ok (n_state_per_unit c) (topo c) (k + List.length (seq 0 m) * (n_state_per_unit c - 2)) Fc1) as (h & Eh & _).
        rewrite Eh. cbn [bindr fst snd]. rewrite seq_length. rewrite (proj2 (nth_error_None phones (i + m)%nat)) by lia. reflexivity. }
  intros Hl. rewrite (G conf 0%nat 0%nat [] [] Fc); auto. lia.
Qed.

Lemma pdf_unit_map_pdfs units : map fst (pdf_unit_map units) = block_pdfs units.
Proof.
  unfold pdf_unit_map, block_pdfs. induction units as [|u units IH]; [reflexivity|]. cbn. rewrite map_app, IH. f_equal.
  rewrite mapping_pdfs. unfold pdfs. induction (g_states (snd u)) as [|[s [p|]] l IH2]; cbn; rewrite ?IH2; reflexivity.
Qed.
