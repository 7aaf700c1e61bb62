(** Proofs about the graph building scripts. *)
From Coq Require Import Reals String List Arith Bool Lra Lia Permutation Sorted.
From Verif Require Import Prelude Graph_Model Graph_Spec Graph_Proofs Graph_Eps Graph_Hist
  Graph_Lang Gb_Model Gb_Spec Gb_Lang.
Import ListNotations.
Local Open Scope R_scope.

(** ** Alignment graphs *)

Definition chain_arcs (k n : nat) : list arc := map (fun i => Arc i (S i) 1) (seq k n).
Definition plain (k n : nat) : list (nat * option nat) := map (fun i => (i, None)) (seq k n).

Lemma chain_key_fresh k n : forall s e, ~ (k <= s < k + n)%nat ->
  ~ In (s, e) (map key (chain_arcs k n)).
Proof.
  intros s e H Hc. unfold chain_arcs in Hc. rewrite map_map in Hc. apply in_map_iff in Hc.
  destruct Hc as (i & E & Hi). apply in_seq in Hi. unfold key in E. simpl in E. inversion E. lia.
Qed.

Lemma phone_chain_eq : forall sq k g,
  g_count g = S k -> g_arcs g = chain_arcs 0 k ->
  phone_chain sq g k =
  (Graph (S k + length sq) (g_states g ++ plain (S k) (length sq))
         (chain_arcs 0 (k + length sq)) (g_start g) (g_end g),
   (k + length sq)%nat, seq (S k) (length sq)).
Proof.
  induction sq as [|p sq IH]; intros k g Hc Ha; cbn [phone_chain length].
  - destruct g as [c st ar s e]. simpl in *. subst. unfold plain. simpl.
    rewrite app_nil_r, Nat.add_0_r. reflexivity.
  - unfold add_state. rewrite Hc.
    set (g1 := add_arc _ k (S k) 1).
    assert (E1 : g_arcs g1 = chain_arcs 0 (S k)).
    { unfold g1, add_arc. simpl. rewrite arc_add_fresh.
      - rewrite Ha. unfold chain_arcs. rewrite (seq_S k 0), map_app. reflexivity.
      - rewrite Ha. unfold key; simpl. apply chain_key_fresh. lia. }
    rewrite (IH (S k) g1); [|reflexivity|exact E1].
    cbn [g_states g1 add_arc with_arcs g_start g_end].
    rewrite <- app_assoc.
    replace (S (S k) + length sq)%nat with (S k + S (length sq))%nat by lia.
    replace (S k + length sq)%nat with (k + S (length sq))%nat by lia.
    reflexivity.
Qed.

Definition linear (n : nat) : graph :=
  Graph (n + 2) (plain 0 (n + 2)) (chain_arcs 0 (n + 1)) (Some 0%nat) (Some (n + 1)%nat).

Lemma linear_graph_eq sq : linear_graph sq = (linear (length sq), seq 1 (length sq)).
Proof.
  unfold linear_graph. unfold add_state at 1. cbn [g_count empty_graph set_start].
  rewrite (phone_chain_eq sq 0) by reflexivity. cbn [plus]. set (n := length sq).
  unfold add_state. cbn [g_count g_states g_arcs g_start g_end set_start].
  f_equal. unfold set_end, add_arc. cbn [with_arcs g_count g_states g_arcs g_start g_end].
  unfold linear. f_equal.
  - lia.
  - unfold plain. simpl. replace (n + 2)%nat with (S (n + 1)) by lia. simpl. f_equal.
    replace (n + 1)%nat with (S n) by lia. rewrite seq_S, map_app. reflexivity.
  - rewrite arc_add_fresh.
    + unfold chain_arcs. replace (n + 1)%nat with (S n) by lia. rewrite seq_S, map_app. reflexivity.
    + unfold key; simpl. apply chain_key_fresh. lia.
  - f_equal. lia.
Qed.

Lemma in_plain k n s o : In (s, o) (plain k n) <-> (k <= s < k + n)%nat /\ o = None.
Proof.
  unfold plain. rewrite in_map_iff. split.
  - intros (i & E & Hi). apply in_seq in Hi. inversion E. subst. auto.
  - intros [H ->]. exists s. split; auto. apply in_seq. exact H.
Qed.

Lemma states_plain k n : map fst (plain k n) = seq k n.
Proof. unfold plain. rewrite map_map. simpl. now rewrite map_id. Qed.

Lemma in_chain k n a : In a (chain_arcs k n) <-> exists i, (k <= i < k + n)%nat /\ a = Arc i (S i) 1.
Proof.
  unfold chain_arcs. rewrite in_map_iff. split.
  - intros (i & <- & Hi). apply in_seq in Hi. eauto.
  - intros (i & Hi & ->). exists i. split; auto. now apply in_seq.
Qed.

Lemma linear_wf n : wf (linear n).
Proof.
  assert (Es : states (linear n) = seq 0 (n + 2)) by (unfold states; simpl; apply states_plain).
  constructor.
  - rewrite Es. apply seq_NoDup.
  - intros s Hs. rewrite Es in Hs. apply in_seq in Hs. simpl. lia.
  - intros a Ha. rewrite Es. simpl in Ha. apply in_chain in Ha. destruct Ha as (i & Hi & ->).
    simpl. split; apply in_seq; lia.
  - simpl. unfold chain_arcs. rewrite map_map. unfold key. simpl.
    apply (FinFun.Injective_map_NoDup (f := fun i => (i, S i))); [|apply seq_NoDup].
    intros a b E. now inversion E.
Qed.

Lemma linear_lwalk hs sg : (forall i h, nth_error hs i = Some h -> sg (S i) = Some h) ->
  sg (S (length hs)) = None ->
  forall m k, (k + m = length hs)%nat -> forall ls w,
  lwalk (linear (length hs)) sg k ls w (S (length hs)) <-> catgen (skipn k hs) ls w.
Proof.
  intros Hsg Hend. set (n := length hs) in *.
  assert (Last : forall ls w, lwalk (linear n) sg (S n) ls w (S n) -> ls = [] /\ w = 1).
  { intros ls w H. inversion H as [|a c o l wl ls' w' v b Ha]; subst; [auto|].
    simpl in Ha. apply in_chain in Ha. destruct Ha as (i & Hi & E). inversion E. lia. }
  assert (Step : forall k ls w, (k <= n)%nat ->
    (lwalk (linear n) sg k ls w (S n) <->
     exists l wl ls' w', visit sg (S k) None l wl /\ lwalk (linear n) sg (S k) ls' w' (S n) /\
       ls = l ++ ls' /\ w = wl * w')).
  { intros k ls w Hk. split.
    - intros H. inversion H as [E1|a c o l wl ls' w' v b Ha Hc Hv Hw]; subst; [lia|].
      simpl in Ha. apply in_chain in Ha. destruct Ha as (i & Hi & E). inversion E. subst.
      simpl in Hc. apply in_plain in Hc. destruct Hc as [_ ->].
      exists l, wl, ls', w'. repeat split; auto. lra.
    - intros (l & wl & ls' & w' & Hv & Hw & -> & ->).
      replace (wl * w') with (1 * (wl * w')) by lra. econstructor; eauto.
      + simpl. apply in_chain. exists k. split; [lia|reflexivity].
      + simpl. apply in_plain. split; [lia|reflexivity]. }
  induction m as [|m IH]; intros k Hk ls w; rewrite Step by lia.
  - replace k with n by lia. unfold n at 5. rewrite skipn_all. fold n.
    unfold visit. rewrite Hend. simpl. split.
    + intros (l & wl & ls' & w' & [-> ->] & Hw & -> & ->). apply Last in Hw.
      destruct Hw as [-> ->]. simpl. replace (1 * 1) with 1 by lra. constructor.
    + intros H. inversion H. subst. exists [], 1, [], 1. repeat split; [constructor|lra].
  - destruct (nth_error hs k) as [h|] eqn:Eh.
    2:{ apply nth_error_None in Eh. fold n in Eh. lia. }
    assert (Esk : skipn k hs = h :: skipn (S k) hs).
    { clear - Eh. revert k Eh. induction hs as [|a hs IH]; intros [|k] E; simpl in *; try discriminate.
      - now inversion E.
      - rewrite (IH k E). destruct hs; [now destruct k|reflexivity]. }
    rewrite Esk. unfold visit. rewrite (Hsg k h Eh). split.
    + intros (l & wl & ls' & w' & Hv & Hw & -> & ->). constructor; auto.
      apply (IH (S k)); [lia|exact Hw].
    + intros H. inversion H as [|? ? l w0 ls0 v Hg Hc]; subst.
      exists l, w0, ls0, v. repeat split; auto. apply (IH (S k)); [lia|exact Hc].
Qed.

Lemma sget_in {A} k (d : list (string * A)) v : sget k d = Ok v -> In (k, v) d.
Proof.
  induction d as [|[k' v'] d IH]; simpl; [discriminate|].
  destruct (String.eqb k k') eqn:E; [|auto].
  apply String.eqb_eq in E. subst. intros H; inversion H. now left.
Qed.

Lemma sget_ok {A} k (d : list (string * A)) : In k (map fst d) -> exists v, sget k d = Ok v.
Proof.
  induction d as [|[k' v'] d IH]; simpl; [tauto|]. intros H.
  destruct (String.eqb k k') eqn:E; [eauto|]. apply IH. destruct H as [H|H]; auto.
  subst. now rewrite String.eqb_refl in E.
Qed.

Lemma sget_err {A} k (d : list (string * A)) e :
  sget k d = Err e -> e = KeyError /\ ~ In k (map fst d).
Proof.
  induction d as [|[k' v'] d IH]; simpl; [intros H; inversion H; tauto|].
  destruct (String.eqb k k') eqn:E; [discriminate|]. intros H. apply IH in H.
  apply String.eqb_neq in E. intuition.
Qed.

Lemma sget_nodup {A} k (d : list (string * A)) v :
  NoDup (map fst d) -> In (k, v) d -> sget k d = Ok v.
Proof.
  induction d as [|[k' v'] d IH]; simpl; intros Hnd H; [tauto|].
  inversion_clear Hnd as [|? ? Hx Hnd']. destruct (String.eqb k k') eqn:E.
  - apply String.eqb_eq in E. subst k'. destruct H as [H|H]; [now inversion H|].
    exfalso. apply Hx. apply in_map_iff. now exists (k, v).
  - apply String.eqb_neq in E. destruct H as [H|H]; [inversion H; congruence|]. auto.
Qed.

(** The replacements of a transcription whose units all exist. *)
Lemma replace_phones_eq pg : forall sq hs xs g, length xs = length sq ->
  Forall2 (fun p h => sget p pg = Ok h) sq hs ->
  replace_phones pg (combine xs sq) g = replace_all (combine xs hs) g.
Proof.
  induction sq as [|p sq IH]; intros hs xs g Hl F; inversion F as [|? h ? hs' Hp F']; subst;
    destruct xs as [|x xs]; simpl in Hl; try lia; [reflexivity|].
  unfold replace_phones, replace_all. simpl. rewrite Hp. simpl.
  destruct (replace_state g x h) as [g1|e]; simpl; [|reflexivity].
  apply (IH hs' xs g1); [lia|exact F'].
Qed.

Lemma lookup_combine_seq {A} (l : list A) k i : (i < length l)%nat ->
  lookup (k + i)%nat (combine (seq k (length l)) l) = nth_error l i.
Proof.
  revert k i. induction l as [|a l IH]; intros k i H; simpl in *; [lia|].
  destruct i as [|i].
  - now rewrite Nat.add_0_r, Nat.eqb_refl.
  - destruct (Nat.eqb (k + S i) k) eqn:E; [apply Nat.eqb_eq in E; lia|].
    replace (k + S i)%nat with (S k + i)%nat by lia. apply IH. lia.
Qed.

Lemma lookup_combine_none {A} (l : list A) k c : ~ (k <= c < k + length l)%nat ->
  lookup c (combine (seq k (length l)) l) = None.
Proof.
  intros H. apply lookup_none. rewrite combine_map_fst by now rewrite seq_length.
  rewrite in_seq. exact H.
Qed.

Section Ali.
  Variables (pg : list (string * graph)) (sq : list string) (hs : list graph).
  Hypothesis Hhs : Forall2 (fun p h => sget p pg = Ok h) sq hs.
  Hypothesis Hus : Forall usable hs.

  Lemma ali_length : length hs = length sq.
  Proof. clear Hus. induction Hhs as [|? ? ? ? ? ? IH]; simpl; [reflexivity|]. now rewrite IH. Qed.

  Lemma ali_replaced : exists g,
    replace_phones pg (combine (seq 1 (length sq)) sq) (linear (length sq)) = Ok g /\
    wf g /\ (forall ls w, generates g ls w <-> catgen hs ls w) /\
    map snd (g_states g) =
      [None; None] ++ concat (map (fun h => map snd (g_states h)) hs) /\
    ((forall h, In h hs -> pos_weights h) -> pos_weights g).
  Proof.
    rewrite (replace_phones_eq pg sq hs) by (auto; apply seq_length).
    rewrite <- ali_length. set (n := length hs).
    set (l := combine (seq 1 n) hs).
    assert (Ef : map fst l = seq 1 n) by (unfold l; apply combine_map_fst; now rewrite seq_length).
    assert (Es : map snd l = hs) by (unfold l; apply combine_map_snd; now rewrite seq_length).
    assert (Est : states (linear n) = seq 0 (n + 2)) by (unfold states; simpl; apply states_plain).
    destruct (replace_all_spec l (linear n) nosg (linear_wf n)) as
      (g & E & W & S1 & S2 & O & M & P & _ & L).
    { rewrite Ef. apply seq_NoDup. }
    { intros x h Hx. rewrite Forall_forall in Hus. split; [|split].
      - rewrite Est. apply in_seq. apply in_combine_l in Hx. apply in_seq in Hx. lia.
      - apply Hus. now apply in_combine_r in Hx.
      - intros a Ha [E1 E2]. simpl in Ha. apply in_chain in Ha. destruct Ha as (i & _ & ->).
        simpl in *. lia. }
    { reflexivity. }
    { reflexivity. }
    exists g. split; [exact E|]. split; [exact W|]. split; [|split].
    - intros ls w.
      assert (H0 : In 0%nat (states (linear n))) by (rewrite Est; apply in_seq; lia).
      assert (H1 : In (S n) (states (linear n))) by (rewrite Est; apply in_seq; lia).
      assert (N0 : ~ In 0%nat (map fst l)) by (rewrite Ef, in_seq; lia).
      assert (N1 : ~ In (S n) (map fst l)) by (rewrite Ef, in_seq; lia).
      assert (Hg : generates g ls w <-> walk g 0 ls w (S n)).
      { unfold generates. rewrite S1, S2. simpl. split.
        - intros (s & e & o & ls' & E1 & E2 & Ho & Hw & ->). inversion E1. inversion E2. subst s e.
          apply (O 0%nat) in Ho; auto. simpl in Ho. apply in_plain in Ho. destruct Ho as [_ ->].
          replace (S n) with (n + 1)%nat by lia. exact Hw.
        - intros Hw. exists 0%nat, (n + 1)%nat, None, ls. repeat split; auto.
          + apply (O 0%nat); auto. simpl. apply in_plain. split; [lia|reflexivity].
          + replace (n + 1)%nat with (S n) by lia. exact Hw. }
      rewrite Hg, <- (lwalk_walk g nosg) by reflexivity.
      rewrite L by auto.
      apply (linear_lwalk hs (sg_of l nosg)) with (m := n) (k := 0%nat); [| |reflexivity].
      + intros i h Hi. unfold sg_of.
        assert (Hlt : (i < length hs)%nat) by (apply nth_error_Some; congruence).
        assert (El : lookup (1 + i) l = nth_error hs i) by (apply lookup_combine_seq; auto).
        simpl in El. rewrite El, Hi. reflexivity.
      + unfold sg_of, l. fold n. unfold n. rewrite lookup_combine_none by lia. reflexivity.
    - rewrite M.
      rewrite <- (map_map snd (fun h => map snd (g_states h))), Es. f_equal.
      simpl. unfold plain.
      assert (Eq : filter (kept l) (map (fun i => (i, None)) (seq 0 (n + 2))) =
                   [(0%nat, None); (S n, None)]).
      { replace (n + 2)%nat with (1 + (n + 1))%nat by lia.
        rewrite seq_app, seq_app. rewrite !map_app, !filter_app. simpl.
        unfold kept at 1 3. rewrite Ef. simpl fst.
        assert (M0 : mem 0 (seq 1 n) = false) by (apply mem_false; rewrite in_seq; lia).
        assert (M1 : mem (S n) (seq 1 n) = false) by (apply mem_false; rewrite in_seq; lia).
        rewrite M0, M1. simpl.
        assert (Z : filter (kept l) (map (fun i : nat => (i, @None nat)) (seq 1 n)) = []).
        { assert (G : forall q, incl q (seq 1 n) ->
             filter (kept l) (map (fun i : nat => (i, @None nat)) q) = []).
          { induction q as [|i q IH]; intros Hq; simpl; [reflexivity|].
            unfold kept at 1. rewrite Ef. simpl fst.
            assert (Mi : mem i (seq 1 n) = true) by (apply mem_in; apply Hq; now left).
            rewrite Mi. simpl. apply IH. intros y Hy. apply Hq. now right. }
          apply G. apply incl_refl. }
        rewrite Z. reflexivity. }
      rewrite Eq. reflexivity.
    - intros Ph. apply P.
      + intros a Ha. simpl in Ha. apply in_chain in Ha. destruct Ha as (i & _ & ->). simpl. lra.
      + intros x h Hx. apply Ph. now apply in_combine_r in Hx.
  Qed.
End Ali.

(** ** Replacing by proper units keeps the weights normalised *)

Definition osum (l : list arc) (s : nat) : R :=
  sumf (fun a => if Nat.eqb (a_start a) s then a_weight a else 0) l.

Lemma osum_app l1 l2 s : osum (l1 ++ l2) s = osum l1 s + osum l2 s.
Proof. apply sumf_app. Qed.

Lemma osum_zero l s : (forall a, In a l -> a_start a <> s) -> osum l s = 0.
Proof.
  intros H. unfold osum. transitivity (sumf (fun _ : arc => 0) l).
  - apply sumf_ext. intros a Ha. apply H in Ha. apply Nat.eqb_neq in Ha. now rewrite Ha.
  - apply sumf_zero. reflexivity.
Qed.

Lemma osum_map (f : arc -> arc) l s t :
  (forall a, In a l -> a_weight (f a) = a_weight a /\
     (a_start (f a) = s <-> a_start a = t)) -> osum (map f l) s = osum l t.
Proof.
  intros H. unfold osum. rewrite sumf_map. apply sumf_ext. intros a Ha.
  destruct (H a Ha) as [E1 E2]. rewrite E1.
  destruct (Nat.eqb (a_start (f a)) s) eqn:A; destruct (Nat.eqb (a_start a) t) eqn:B; auto;
    rewrite ?Nat.eqb_eq, ?Nat.eqb_neq in *; tauto.
Qed.

Lemma osum_split p l s : osum l s = osum (filter p l) s + osum (filter (fun a => negb (p a)) l) s.
Proof.
  unfold osum. induction l as [|a l IH]; simpl; rewrite ?sumf_nil, ?sumf_cons; [lra|].
  rewrite IH. destruct (p a); simpl; rewrite ?sumf_cons; lra.
Qed.

Lemma osum_filter_ext p q l s :
  (forall a, In a l -> a_start a = s -> p a = q a) -> osum (filter p l) s = osum (filter q l) s.
Proof.
  intros H. unfold osum. rewrite !sumf_filter. apply sumf_ext. intros a Ha.
  destruct (Nat.eqb (a_start a) s) eqn:E; [|destruct (p a), (q a); reflexivity].
  apply Nat.eqb_eq in E. now rewrite (H a Ha E).
Qed.

Section Proper.
  Variables (g h : graph) (x hs he : nat).
  Hypothesis Wg : wf g.
  Hypothesis Wh : wf h.
  Hypothesis Hx : In x (states g).
  Hypothesis Hs : g_start h = Some hs.
  Hypothesis He : g_end h = Some he.
  Hypothesis Hsin : In hs (states h).
  Hypothesis Hein : In he (states h).
  Hypothesis Hloop : no_self_loop g x.
  Hypothesis Ng : normalised g.
  Hypothesis Nh : proper_unit h.

  Let ren := mkren g h.

  Lemma replaced_osum_old s : In s (states g) -> s <> x ->
    osum (replaced_arcs g h x hs he) s = osum (g_arcs g) s.
  Proof.
    intros Hsg Hsx. unfold replaced_arcs. rewrite !osum_app. fold ren.
    assert (Old : forall t, In t (states h) -> rho ren t <> s).
    { intros t Ht E. apply (wf_fresh g Wg) in Hsg. apply (rho_range g h) in Ht. fold ren in Ht. lia. }
    rewrite (osum_zero (map (rarc ren) (g_arcs h))).
    2:{ intros a Ha. apply in_map_iff in Ha. destruct Ha as (b & <- & Hb). simpl.
        apply Old. apply (wf_arcs h Wh b Hb). }
    rewrite (osum_zero (map (fun a => Arc (rho ren he) (a_end a) (a_weight a)) _)).
    2:{ intros a Ha. apply in_map_iff in Ha. destruct Ha as (b & <- & Hb). simpl. now apply Old. }
    rewrite (osum_map (fun a => Arc (a_start a) (rho ren hs) (a_weight a)) _ s s)
      by (intros a _; simpl; tauto).
    rewrite (osum_split (into x) (g_arcs g) s).
    rewrite (osum_filter_ext (fun a => negb (out_of x a || into x a)) (fun a => negb (into x a))).
    - lra.
    - intros a _ Ea. unfold out_of. rewrite Ea. apply Nat.eqb_neq in Hsx. now rewrite Hsx.
  Qed.

  Lemma replaced_osum_new t : In t (states h) ->
    osum (replaced_arcs g h x hs he) (rho ren t) =
    osum (g_arcs h) t + (if Nat.eqb t he then osum (g_arcs g) x else 0).
  Proof.
    intros Ht. unfold replaced_arcs. rewrite !osum_app. fold ren.
    assert (Old : forall s, In s (states g) -> s <> rho ren t).
    { intros s Hsg E. apply (wf_fresh g Wg) in Hsg. apply (rho_range g h) in Ht. fold ren in Ht. lia. }
    rewrite (osum_zero (filter _ (g_arcs g))).
    2:{ intros a Ha. apply filter_In in Ha. apply Old. apply (wf_arcs g Wg a). tauto. }
    rewrite (osum_zero (map (fun a => Arc (a_start a) (rho ren hs) (a_weight a)) _)).
    2:{ intros a Ha. apply in_map_iff in Ha. destruct Ha as (b & <- & Hb). simpl.
        apply filter_In in Hb. apply Old. apply (wf_arcs g Wg b). tauto. }
    rewrite (osum_map (rarc ren) _ (rho ren t) t).
    2:{ intros a Ha. simpl. split; [reflexivity|]. split; [|now intros ->].
        intros E. apply (rho_inj g h) in E; auto. apply (wf_arcs h Wh a Ha). }
    destruct (Nat.eqb t he) eqn:E.
    - apply Nat.eqb_eq in E. subst t.
      assert (Eo : osum (map (fun a => Arc (rho ren he) (a_end a) (a_weight a))
                          (filter (out_of x) (g_arcs g))) (rho ren he) =
                   osum (filter (out_of x) (g_arcs g)) x).
      { apply osum_map. intros a Ha. simpl. split; [reflexivity|]. split; [|auto].
        intros _. apply filter_In in Ha. unfold out_of in Ha. apply Nat.eqb_eq. tauto. }
      rewrite Eo. rewrite (osum_split (out_of x) (g_arcs g) x).
      rewrite (osum_zero (filter (fun a => negb (out_of x a)) (g_arcs g))).
      2:{ intros a Ha. apply filter_In in Ha. destruct Ha as [_ Ha]. unfold out_of in Ha.
          apply negb_true_iff, Nat.eqb_neq in Ha. exact Ha. }
      lra.
    - apply Nat.eqb_neq in E. rewrite (osum_zero (map _ (filter (out_of x) _))); [lra|].
      intros a Ha. apply in_map_iff in Ha. destruct Ha as (b & <- & Hb). simpl.
      intros Hc. apply E. symmetry. apply (rho_inj g h); auto.
  Qed.

  Lemma replaced_normalised : normalised (replaced g h x hs he).
  Proof.
    intros s Hs'. apply in_states_iff in Hs'. destruct Hs' as (o & Ho).
    apply in_replaced_states in Ho; auto. fold ren in Ho.
    change (sumf (fun a => if Nat.eqb (a_start a) s then a_weight a else 0)
                 (g_arcs (replaced g h x hs he))) with (osum (replaced_arcs g h x hs he) s).
    destruct Ho as [[Ho Hsx]|(t & Ht & ->)].
    - assert (Hsg : In s (states g)) by (apply in_states_iff; eauto).
      rewrite replaced_osum_old by auto. destruct (Ng s Hsg) as [H|H]; [left|right; exact H].
      intros a Ha E. apply in_replaced_arcs in Ha; auto. fold ren in Ha.
      destruct Ha as [(H1 & _ & _)|[(b & H1 & ->)|[(b & H1 & H2 & ->)|(b & H1 & H2 & ->)]]].
      + exact (H a H1 E).
      + simpl in E. destruct (wf_arcs h Wh b H1) as [H2 _]. apply (rho_range g h) in H2.
        fold ren in H2. apply (wf_fresh g Wg) in Hsg. lia.
      + simpl in E. apply (rho_range g h) in Hein. fold ren in Hein.
        apply (wf_fresh g Wg) in Hsg. lia.
      + simpl in E. exact (H b H1 E).
    - assert (Hts : In t (states h)) by (apply in_states_iff; eauto).
      rewrite replaced_osum_new by auto. destruct Nh as [N1 N2].
      destruct (Nat.eqb t he) eqn:Et.
      + apply Nat.eqb_eq in Et. subst t.
        rewrite (osum_zero (g_arcs h)).
        2:{ intros a Ha E. apply (N2 a Ha). now rewrite He, E. }
        rewrite Rplus_0_l. destruct (Ng x Hx) as [H|H]; [left|right; exact H].
        intros a Ha E. apply in_replaced_arcs in Ha; auto. fold ren in Ha.
        destruct Ha as [(H1 & _ & _)|[(b & H1 & ->)|[(b & H1 & H2 & ->)|(b & H1 & H2 & ->)]]].
        * destruct (wf_arcs g Wg a H1) as [H2 _]. apply (wf_fresh g Wg) in H2.
          apply (rho_range g h) in Hein. fold ren in Hein. lia.
        * simpl in E. destruct (wf_arcs h Wh b H1) as [H2 _]. apply (rho_inj g h) in E; auto.
          apply (N2 b H1). now rewrite He, E.
        * exact (H b H1 H2).
        * simpl in E. destruct (wf_arcs g Wg b H1) as [H3 _]. apply (wf_fresh g Wg) in H3.
          apply (rho_range g h) in Hein. fold ren in Hein. lia.
      + rewrite Rplus_0_r. apply Nat.eqb_neq in Et.
        destruct (N1 t Hts) as [H|H]; [left|right; exact H].
        intros a Ha E. apply in_replaced_arcs in Ha; auto. fold ren in Ha.
        destruct Ha as [(H1 & _ & _)|[(b & H1 & ->)|[(b & H1 & H2 & ->)|(b & H1 & H2 & ->)]]].
        * destruct (wf_arcs g Wg a H1) as [H2 _]. apply (wf_fresh g Wg) in H2.
          apply (rho_range g h) in Hts. fold ren in Hts. lia.
        * simpl in E. destruct (wf_arcs h Wh b H1) as [H2 _]. apply (rho_inj g h) in E; auto.
          exact (H b H1 E).
        * simpl in E. apply (rho_inj g h) in E; auto.
        * simpl in E. destruct (wf_arcs g Wg b H1) as [H3 _]. apply (wf_fresh g Wg) in H3.
          apply (rho_range g h) in Hts. fold ren in Hts. lia.
  Qed.
End Proper.

Lemma replace_all_normalised : forall l g g', wf g -> NoDup (map fst l) ->
  (forall x h, In (x, h) l -> In x (states g) /\ usable h /\ no_self_loop g x /\ proper_unit h) ->
  normalised g -> replace_all l g = Ok g' -> normalised g'.
Proof.
  induction l as [|[x h] l IH]; intros g g' Wg Hnd Hl Ng H; unfold replace_all in H; simpl in H.
  - now inv H.
  - inversion_clear Hnd as [|? ? Hxl Hnd'].
    destruct (Hl x h (or_introl eq_refl)) as
      (Hxg & (Wh & (hs & Es & Hhs) & (he & Ee & Hhe)) & Hloop & Pr).
    rewrite (replace_state_eq g h x hs he) in H by auto. simpl in H.
    eapply IH; [| |  | |exact H]; auto.
    + now apply replaced_wf.
    + intros y hy Hy. destruct (Hl y hy (or_intror Hy)) as (H1 & H2 & H3 & H4).
      assert (y <> x). { intros ->. apply Hxl. apply in_map_iff. exists (x, hy); auto. }
      split; [|split; [exact H2|split; [now apply replaced_loops|exact H4]]].
      apply in_states_iff. apply in_states_iff in H1. destruct H1 as (o & Ho). exists o.
      apply in_replaced_states; auto.
    + now apply replaced_normalised.
Qed.

Lemma normalised_fixpoint g : NoDup (states g) -> normalised g -> normalize g = Ok g.
Proof.
  intros Hnd N.
  assert (Eo : forall s, out_sum (g_arcs g) s = osum (g_arcs g) s).
  { intros s. unfold out_sum, osum. apply sumf_filter. }
  assert (D : forall s, In s (states g) ->
     filter (fun a => Nat.eqb (a_start a) s) (g_arcs g) = [] \/ out_sum (g_arcs g) s = 1).
  { intros s Hs. destruct (N s Hs) as [H|H].
    - left. destruct (filter _ (g_arcs g)) as [|a l] eqn:E; [reflexivity|]. exfalso.
      assert (Ha : In a (a :: l)) by now left. rewrite <- E in Ha. apply filter_In in Ha.
      destruct Ha as [Ha1 Ha2]. apply Nat.eqb_eq in Ha2. exact (H a Ha1 Ha2).
    - right. rewrite Eo. exact H. }
  destruct (normalize_spec g Hnd) as [[_ E]|[(s & Hs & Hn) _]].
  - rewrite E. f_equal. destruct g as [c st ar s e]. unfold with_arcs. simpl in *. f_equal.
    transitivity (map (fun a : arc => a) ar); [|apply map_id]. apply map_ext_in. intros a Ha. unfold norm1.
    destruct (mem (a_start a) (states (Graph c st ar s e))) eqn:Em; [|reflexivity].
    apply mem_in in Em. destruct (D _ Em) as [H|H].
    + exfalso. assert (Hc : In a (filter (fun b => Nat.eqb (a_start b) (a_start a)) ar))
        by (apply filter_In; split; [exact Ha|apply Nat.eqb_refl]).
      rewrite H in Hc. exact Hc.
    + rewrite H. destruct a as [a b v]. simpl. f_equal. lra.
  - exfalso. apply Hn. unfold out_nonzero. destruct (D s Hs) as [H|H]; [now left|right; lra].
Qed.

Lemma linear_normalised n : normalised (linear n).
Proof.
  intros s Hs. unfold states in Hs. simpl in Hs. rewrite states_plain in Hs. apply in_seq in Hs.
  destruct (Nat.eq_dec s (n + 1)) as [->|Hn].
  - left. intros a Ha. simpl in Ha. apply in_chain in Ha. destruct Ha as (i & Hi & ->). simpl. lia.
  - right. simpl. unfold chain_arcs. rewrite sumf_map. simpl.
    rewrite (sumf_seq_single _ (n + 1) s).
    + now rewrite Nat.eqb_refl.
    + lia.
    + intros i _ Hi. apply Nat.eqb_neq in Hi. now rewrite Hi.
Qed.

(** ** Unit graphs *)

Lemma insert_id_in k l x : In x (insert_id k l) <-> x = k \/ In x l.
Proof.
  induction l as [|y l IH]; simpl; [intuition|].
  destruct (Nat.ltb k y); simpl; [intuition|].
  destruct (Nat.eqb k y) eqn:E; simpl.
  - apply Nat.eqb_eq in E. subst. intuition.
  - rewrite IH. intuition.
Qed.

Lemma insert_id_sorted k l : StronglySorted lt l -> StronglySorted lt (insert_id k l).
Proof.
  induction 1 as [|y l S IH F]; simpl; [constructor; constructor|].
  destruct (Nat.ltb k y) eqn:E1.
  - apply Nat.ltb_lt in E1. constructor; [constructor; auto|]. constructor; auto.
    eapply Forall_impl; [|exact F]. simpl. intros; lia.
  - apply Nat.ltb_ge in E1. destruct (Nat.eqb k y) eqn:E2; [constructor; auto|].
    apply Nat.eqb_neq in E2. constructor; auto. rewrite Forall_forall in *.
    intros z Hz. apply insert_id_in in Hz. destruct Hz as [->|Hz]; [lia|auto].
Qed.

Lemma state_ids_spec t :
  StronglySorted lt (state_ids t) /\
  forall s, In s (state_ids t) <-> exists a, In a t /\ (fst (fst a) = s \/ snd (fst a) = s).
Proof.
  unfold state_ids.
  assert (G : forall (l : list (nat * nat * R)) acc, StronglySorted lt acc ->
    let r := fold_left (fun l a => insert_id (snd (fst a)) (insert_id (fst (fst a)) l)) l acc in
    StronglySorted lt r /\
    forall s, In s r <-> In s acc \/ exists a, In a l /\ (fst (fst a) = s \/ snd (fst a) = s)).
  { induction l as [|a l IH]; intros acc Ha; simpl.
    - split; [exact Ha|]. intros s. split; [now left|]. intros [H|(a & [] & _)]; exact H.
    - destruct (IH (insert_id (snd (fst a)) (insert_id (fst (fst a)) acc))) as [I1 I2].
      { now do 2 apply insert_id_sorted. }
      split; [exact I1|]. intros s. rewrite I2, !insert_id_in. split.
      + intros [[H|[H|H]]|(b & Hb & H)]; [right; exists a; auto| |now left|right; exists b; auto].
        right. exists a. auto.
      + intros [H|(b & [<-|Hb] & H)]; [tauto| |right; eauto]. left. intuition. }
  destruct (G t [] (SSorted_nil lt)) as [G1 G2]. split; [exact G1|].
  intros s. rewrite G2. simpl. tauto.
Qed.

Lemma sorted_unique : forall l1 l2 : list nat, StronglySorted lt l1 -> StronglySorted lt l2 ->
  (forall x, In x l1 <-> In x l2) -> l1 = l2.
Proof.
  induction l1 as [|a l1 IH]; intros [|b l2] S1 S2 H; auto.
  - exfalso. apply (H b). now left.
  - exfalso. apply (H a). now left.
  - inversion_clear S1 as [|? ? S1' F1]. inversion_clear S2 as [|? ? S2' F2].
    rewrite Forall_forall in F1, F2.
    assert (E : a = b).
    { destruct (H a) as [Ha _]. destruct (H b) as [_ Hb].
      destruct (Ha (or_introl eq_refl)) as [->|Ha']; [reflexivity|].
      destruct (Hb (or_introl eq_refl)) as [E|Hb']; [congruence|].
      apply F2 in Ha'. apply F1 in Hb'. lia. }
    subst b. f_equal. apply IH; auto. intros x. split; intros Hx.
    + destruct (H x) as [H1 _]. destruct (H1 (or_intror Hx)) as [<-|H2]; [|exact H2].
      apply F1 in Hx. lia.
    + destruct (H x) as [_ H1]. destruct (H1 (or_intror Hx)) as [<-|H2]; [|exact H2].
      apply F2 in Hx. lia.
Qed.

Lemma contiguous_ids t n : contiguous t n -> state_ids t = seq 0 n.
Proof.
  intros H. destruct (state_ids_spec t) as [S1 S2]. apply sorted_unique; auto.
  - apply SSorted_seq.
  - intros x. rewrite S2, in_seq. specialize (H x). split; [intros Hx; apply H in Hx; lia|intros Hx; apply H; lia].
Qed.

(** States of a unit of n states whose first pdf id is k. *)
Definition unit_pdf (k n i : nat) : option nat :=
  if Nat.eqb i 0 || Nat.eqb i (n - 1) then None else Some (k + (i - 1))%nat.
Definition unit_sts (k n m : nat) : list (nat * option nat) :=
  map (fun i => (i, unit_pdf k n i)) (seq 0 m).

Lemma unit_states_fold k n : (2 <= n)%nat -> forall m, (m <= n)%nat ->
  fold_left (add_unit_state 0 (n - 1) k) (seq 0 m) (empty_graph, O) =
  (Graph m (unit_sts k n m) [] None None, Nat.min (m - 1) (n - 2)).
Proof.
  intros Hn. induction m as [|m IH]; intros Hm; [reflexivity|].
  rewrite seq_S, fold_left_app, IH by lia. cbn [fold_left plus].
  unfold add_unit_state, unit_sts. rewrite seq_S, map_app. simpl map.
  destruct (Nat.eqb m 0 || Nat.eqb m (n - 1)) eqn:E.
  - assert (Eu : unit_pdf k n m = None) by (unfold unit_pdf; now rewrite E). rewrite Eu.
    unfold add_state. cbn [snd g_count g_states g_arcs g_start g_end].
    apply orb_true_iff in E. rewrite !Nat.eqb_eq in E.
    replace (Nat.min (S m - 1) (n - 2)) with (Nat.min (m - 1) (n - 2)) by lia. reflexivity.
  - assert (Eu : unit_pdf k n m = Some (k + (m - 1))%nat) by (unfold unit_pdf; now rewrite E).
    rewrite Eu. unfold add_state. cbn [snd g_count g_states g_arcs g_start g_end].
    apply orb_false_iff in E. rewrite !Nat.eqb_neq in E.
    replace (Nat.min (m - 1) (n - 2)) with (m - 1)%nat by lia.
    replace (Nat.min (S m - 1) (n - 2)) with (S (m - 1)) by lia. reflexivity.
Qed.

Definition triple_arc (a : nat * nat * R) : arc := Arc (fst (fst a)) (snd (fst a)) (snd a).

Lemma add_arcs_fold t : forall g,
  fold_left (fun g (a : nat * nat * R) => add_arc g (fst (fst a)) (snd (fst a)) (snd a)) t g =
  with_arcs g (fold_left arc_add (map triple_arc t) (g_arcs g)).
Proof.
  induction t as [|a t IH]; intros g; simpl; [destruct g; reflexivity|].
  rewrite IH. reflexivity.
Qed.

Lemma fold_arc_add_keys news : forall l k,
  In k (map key (fold_left arc_add news l)) <-> In k (map key l) \/ In k (map key news).
Proof.
  induction news as [|a news IH]; intros l k; simpl; [tauto|].
  rewrite IH. unfold arc_add. destruct (existsb (same_key a) l) eqn:E.
  - apply existsb_key in E. split; [tauto|]. intros [H|[<-|H]]; auto.
  - rewrite map_app, in_app_iff. simpl. tauto.
Qed.

Definition unit_of (t : list (nat * nat * R)) (k n : nat) : graph :=
  Graph n (unit_sts k n n) (fold_left arc_add (map triple_arc t) [])
        (Some 0%nat) (Some (n - 1)%nat).

Lemma create_unit_graph_eq t k n : (2 <= n)%nat -> contiguous t n ->
  create_unit_graph t k = Ok (unit_of t k n, (k + (n - 2))%nat).
Proof.
  intros Hn Hc. unfold create_unit_graph. rewrite (contiguous_ids t n Hc).
  destruct n as [|[|n]]; try lia. cbn [seq]. 
  change (0%nat :: 1%nat :: seq 2 n) with (seq 0 (S (S n))).
  rewrite seq_length.
  assert (El : List.last (seq 0 (S (S n))) 0%nat = (S (S n) - 1)%nat).
  { rewrite seq_S, last_last. simpl. lia. }
  rewrite El. rewrite unit_states_fold by lia. rewrite add_arcs_fold.
  destruct (Nat.ltb (k + S (S n)) 2) eqn:E; [apply Nat.ltb_lt in E; lia|].
  f_equal. f_equal. lia.
Qed.

Lemma unit_sts_in k n m i o : In (i, o) (unit_sts k n m) <-> (i < m)%nat /\ o = unit_pdf k n i.
Proof.
  unfold unit_sts. rewrite in_map_iff. split.
  - intros (j & E & Hj). apply in_seq in Hj. inversion E. subst. split; [lia|reflexivity].
  - intros [H ->]. exists i. split; auto. apply in_seq. lia.
Qed.

Lemma unit_of_states t k n : states (unit_of t k n) = seq 0 n.
Proof. unfold states. simpl. unfold unit_sts. rewrite map_map. simpl. apply map_id. Qed.

Lemma unit_of_wf t k n : contiguous t n -> wf (unit_of t k n).
Proof.
  intros Hc. constructor.
  - rewrite unit_of_states. apply seq_NoDup.
  - intros s Hs. rewrite unit_of_states in Hs. apply in_seq in Hs. simpl. lia.
  - intros a Ha. rewrite unit_of_states. simpl in Ha. apply fold_arc_add_in in Ha.
    destruct Ha as [[]|Ha]. apply in_map_iff in Ha. destruct Ha as (b & <- & Hb). simpl.
    rewrite !in_seq. split; (split; [lia|]); apply Hc; exists b; auto.
  - simpl. apply fold_arc_add_nodup. constructor.
Qed.

Lemma unit_of_usable t k n : (2 <= n)%nat -> contiguous t n -> usable (unit_of t k n).
Proof.
  intros Hn Hc. split; [now apply unit_of_wf|]. split.
  - exists 0%nat. split; [reflexivity|]. rewrite unit_of_states. apply in_seq. lia.
  - exists (n - 1)%nat. split; [reflexivity|]. rewrite unit_of_states. apply in_seq. lia.
Qed.

Lemma unit_of_pos t k n : positive t -> pos_weights (unit_of t k n).
Proof.
  intros H a Ha. simpl in Ha. apply fold_arc_add_in in Ha. destruct Ha as [[]|Ha].
  apply in_map_iff in Ha. destruct Ha as (b & <- & Hb). simpl. now apply H.
Qed.

(** pdf ids in state order *)
Definition pdfs (sts : list (nat * option nat)) : list nat :=
  flat_map label (map snd sts).

Lemma mapping_pdfs g : pdf_id_mapping g = pdfs (g_states g).
Proof.
  unfold pdf_id_mapping, emitting, pdfs. induction (g_states g) as [|[s [p|]] l IH]; simpl;
    rewrite ?IH; reflexivity.
Qed.

Lemma pdfs_app l1 l2 : pdfs (l1 ++ l2) = pdfs l1 ++ pdfs l2.
Proof. unfold pdfs. now rewrite map_app, flat_map_app. Qed.

Lemma unit_sts_pdfs k n : (2 <= n)%nat -> pdfs (unit_sts k n n) = seq k (n - 2).
Proof.
  intros Hn. unfold pdfs, unit_sts. rewrite map_map. simpl.
  assert (En : seq 0 n = 0%nat :: seq 1 (n - 2) ++ [(n - 1)%nat]).
  { replace (0%nat :: seq 1 (n - 2)) with (seq 0 (S (n - 2))) by reflexivity.
    rewrite app_comm_cons. change (0%nat :: seq 1 (n - 2)) with (seq 0 (S (n - 2))).
    replace [(n - 1)%nat] with [(0 + S (n - 2))%nat] by (f_equal; lia). rewrite <- seq_S.
    f_equal. lia. }
  rewrite En. simpl. rewrite map_app, flat_map_app. simpl.
  assert (E1 : unit_pdf k n (n - 1) = None).
  { unfold unit_pdf. now rewrite Nat.eqb_refl, orb_true_r. }
  rewrite E1. simpl. rewrite app_nil_r.
  assert (G : forall m j, (1 <= j)%nat -> (j + m <= n - 1)%nat ->
     flat_map label (map (unit_pdf k n) (seq j m)) = seq (k + (j - 1)) m).
  { induction m as [|m IH]; intros j Hj Hm; [reflexivity|]. simpl.
    unfold unit_pdf at 1.
    assert (Ej : Nat.eqb j 0 || Nat.eqb j (n - 1) = false).
    { apply orb_false_iff. rewrite !Nat.eqb_neq. lia. }
    rewrite Ej. simpl. f_equal. rewrite IH by lia. f_equal. lia. }
  rewrite G by lia. f_equal. lia.
Qed.

Lemma count_emitting_eq g : NoDup (states g) ->
  count_emitting_state g = length (pdf_id_mapping g).
Proof.
  intros Hnd. unfold count_emitting_state. rewrite mapping_pdfs.
  assert (G : forall l, incl l (g_states g) ->
    length (filter (fun s => match pdf_of g s with Some (Some _) => true | _ => false end)
                   (map fst l)) = length (pdfs l)).
  { induction l as [|[s o] l IH]; intros Hl; [reflexivity|]. simpl.
    assert (Hp : pdf_of g s = Some o) by (apply pdf_of_in; auto; apply Hl; now left).
    rewrite Hp. unfold pdfs in *. simpl. rewrite app_length.
    specialize (IH (fun x Hx => Hl x (or_intror Hx))).
    destruct o; simpl; rewrite IH; reflexivity. }
  apply (G (g_states g)). apply incl_refl.
Qed.

(** ** Inventories *)

Lemma sset_keys {A} k (v : A) d : In k (map fst d) -> map fst (sset k v d) = map fst d.
Proof.
  induction d as [|[k' v'] d IH]; simpl; [tauto|]. intros H.
  destruct (String.eqb k k') eqn:E; simpl; [reflexivity|]. f_equal. apply IH.
  apply String.eqb_neq in E. destruct H; [congruence|assumption].
Qed.

Lemma sset_fresh {A} k (v : A) d : ~ In k (map fst d) -> sset k v d = d ++ [(k, v)].
Proof.
  induction d as [|[k' v'] d IH]; simpl; [reflexivity|]. intros H.
  destruct (String.eqb k k') eqn:E.
  - apply String.eqb_eq in E. subst. exfalso. apply H. now left.
  - f_equal. apply IH. tauto.
Qed.

Lemma sset_in {A} k (v : A) d k' v' : In (k', v') (sset k v d) ->
  (k' = k /\ v' = v) \/ In (k', v') d.
Proof.
  induction d as [|[a b] d IH]; simpl; [intros [H|[]]; inversion H; auto|].
  destruct (String.eqb k a) eqn:E; simpl.
  - apply String.eqb_eq in E. subst. intros [H|H]; [inversion H; auto|auto].
  - intros [H|H]; [auto|]. destruct (IH H); auto.
Qed.

Lemma sset_nodup {A} k (v : A) d : NoDup (map fst d) -> NoDup (map fst (sset k v d)).
Proof.
  intros H. destruct (in_dec string_dec k (map fst d)) as [Hi|Hi].
  - now rewrite sset_keys.
  - rewrite sset_fresh by auto. rewrite map_app. simpl. apply NoDup_app_intro; auto.
    + constructor; [tauto|constructor].
    + intros x Hx [<-|[]]. contradiction.
Qed.

Lemma sset_in_keys {A} k (v : A) d k' : In k' (map fst (sset k v d)) <-> k' = k \/ In k' (map fst d).
Proof.
  induction d as [|[a b] d IH]; simpl; [intuition|].
  destruct (String.eqb k a) eqn:E; simpl.
  - apply String.eqb_eq in E. subst. intuition.
  - rewrite IH. intuition.
Qed.

Lemma groups_conf_spec (conf : list (string * list (nat * nat * R))) :
  NoDup (map fst (groups_conf conf)) /\
  (forall g t, In (g, t) (groups_conf conf) -> In (g, t) conf) /\
  (forall g, In g (map fst (groups_conf conf)) <-> In g (map fst conf)).
Proof.
  unfold groups_conf.
  assert (G : forall (l d : list (string * list (nat * nat * R))), NoDup (map fst d) ->
    let r := fold_left (fun d gc => sset (fst gc) (snd gc) d) l d in
    NoDup (map fst r) /\ (forall g t, In (g, t) r -> In (g, t) d \/ In (g, t) l) /\
    (forall g, In g (map fst r) <-> In g (map fst d) \/ In g (map fst l))).
  { induction l as [|[g t] l IH]; intros d Hd; simpl.
    - split; [exact Hd|]. split; [auto|tauto].
    - destruct (IH (sset g t d) (sset_nodup g t d Hd)) as (I1 & I2 & I3).
      split; [exact I1|]. split.
      + intros g' t' H. apply I2 in H. destruct H as [H|H]; [|auto].
        apply sset_in in H. destruct H as [[-> ->]|H]; auto.
      + intros g'. rewrite I3, sset_in_keys. intuition. }
  destruct (G conf [] (NoDup_nil _)) as (G1 & G2 & G3).
  split; [exact G1|]. split; [intros g t H; destruct (G2 g t H) as [[]|]; auto|].
  intros g. rewrite G3. simpl. tauto.
Qed.

Lemma sset_perm k n (names : list string) d : sget k d = Ok names ->
  Permutation (concat (map snd (sset k (names ++ [n]) d))) (concat (map snd d) ++ [n]).
Proof.
  induction d as [|[a b] d IH]; simpl; [discriminate|].
  destruct (String.eqb k a) eqn:E; simpl.
  - intros H. inversion H. subst.
    rewrite <- !app_assoc. apply Permutation_app_head. apply Permutation_app_comm.
  - intros H. rewrite <- app_assoc. apply Permutation_app_head. auto.
Qed.

Lemma group_units_spec gconf : forall lines d0 ul,
  mapM unit_line lines = Ok ul ->
  (forall u, In u ul -> In (snd u) (map fst d0)) ->
  map fst d0 = map fst (gconf : list (string * list (nat * nat * R))) ->
  exists d,
    foldM (fun d toks =>
           bindr (unit_line toks) (fun ng =>
           bindr (sget (snd ng) d) (fun names =>
           Ok (sset (snd ng) (names ++ [fst ng]) d)))) lines d0 = Ok d /\
    map fst d = map fst gconf /\
    Permutation (concat (map snd d)) (concat (map snd d0) ++ map fst ul) /\
    (forall g names n, In (g, names) d -> In n names ->
       (exists names0, In (g, names0) d0 /\ In n names0) \/ In (n, g) ul).
Proof.
  induction lines as [|toks lines IH]; intros d0 ul Hm Hg Hk.
  - simpl in Hm. inv Hm. exists d0. split; [reflexivity|]. split; [exact Hk|]. split.
    + simpl. now rewrite app_nil_r.
    + intros g names n H1 H2. left. eauto.
  - cbn [mapM] in Hm. destruct (unit_line toks) as [[n g]|] eqn:Et; [|discriminate]. simpl in Hm.
    destruct (mapM unit_line lines) as [ul'|] eqn:Em; [|discriminate]. simpl in Hm. inv Hm.
    cbn [foldM]. rewrite Et. cbn [bindr snd fst].
    destruct (sget_ok g d0) as (names & Hn). { apply (Hg (n, g)). now left. }
    rewrite Hn. cbn [bindr].
    assert (Hin : In g (map fst d0)) by (apply (Hg (n, g)); now left).
    destruct (IH (sset g (names ++ [n]) d0) ul' eq_refl) as (d & E & K & P & M).
    { intros u Hu. rewrite sset_keys by auto. apply Hg. now right. }
    { now rewrite sset_keys. }
    exists d. split; [exact E|]. split; [exact K|]. split.
    + rewrite P. simpl. rewrite (sset_perm g n names d0 Hn). rewrite <- app_assoc. reflexivity.
    + intros g' names' n' H1 H2. destruct (M g' names' n' H1 H2) as [(nm & H3 & H4)|H3].
      * apply sset_in in H3. destruct H3 as [[-> ->]|H3]; [|left; eauto].
        apply in_app_iff in H4. destruct H4 as [H4|[<-|[]]]; [|right; now left].
        left. exists names. split; auto. now apply sget_in.
      * right. now right.
Qed.

(** The graphs of one group, the first pdf id being k. *)
Fixpoint group_list (t : list (nat * nat * R)) (n k : nat) (names : list string)
  : list (string * graph) :=
  match names with
  | [] => []
  | nm :: r => (nm, unit_of t k n) :: group_list t n (k + (n - 2)) r
  end.

Lemma group_list_names t n : forall names k, map fst (group_list t n k names) = names.
Proof. induction names as [|nm r IH]; intros k; simpl; [reflexivity|]. now rewrite IH. Qed.

Lemma group_list_pdfs t n : (2 <= n)%nat -> forall names k,
  concat (map (fun u => pdf_id_mapping (snd u)) (group_list t n k names)) =
  seq k (length names * (n - 2)).
Proof.
  intros Hn. induction names as [|nm r IH]; intros k; [reflexivity|].
  cbn [group_list map concat length snd]. rewrite IH, mapping_pdfs. simpl g_states.
  rewrite unit_sts_pdfs by auto. simpl. now rewrite seq_app.
Qed.

Lemma create_group_eq t n : (2 <= n)%nat -> contiguous t n ->
  forall names k units tot, NoDup names -> (forall x, In x names -> ~ In x (map fst units)) ->
  foldM (fun st name =>
           let '(start_pdf_id, units, tot) := st in
           bindr (create_unit_graph t start_pdf_id) (fun gs =>
           Ok (snd gs, sset name (fst gs) units, (tot + count_emitting_state (fst gs))%nat)))
        names (k, units, tot) =
  Ok ((k + length names * (n - 2))%nat, units ++ group_list t n k names,
      (tot + length names * (n - 2))%nat).
Proof.
  intros Hn Hc. induction names as [|nm r IH]; intros k units tot Hnd Hf.
  - simpl. rewrite app_nil_r, !Nat.add_0_r. reflexivity.
  - cbn [foldM]. rewrite (create_unit_graph_eq t k n) by auto. cbn [bindr fst snd].
    rewrite sset_fresh by (apply Hf; now left).
    inversion_clear Hnd as [|? ? Hnm Hnd'].
    rewrite IH; auto.
    + rewrite count_emitting_eq by (apply unit_of_wf; auto). rewrite mapping_pdfs. simpl g_states.
      rewrite unit_sts_pdfs, seq_length by auto. cbn [group_list length Nat.mul].
      rewrite <- app_assoc, !Nat.add_assoc. reflexivity.
    + intros x Hx. rewrite map_app, in_app_iff. simpl. intros [H|[->|[]]]; [|contradiction].
      apply (Hf x); [now right|exact H].
Qed.

Definition built (conf : list (string * list (nat * nat * R))) (ul : list (string * string))
  (u : string * graph) : Prop :=
  exists gr t k n, In (fst u, gr) ul /\ In (gr, t) conf /\ (2 <= n)%nat /\ contiguous t n /\
    snd u = unit_of t k n.

Lemma groups_conf_distinct (conf : list (string * list (nat * nat * R))) :
  NoDup (map fst conf) -> groups_conf conf = conf.
Proof.
  intros H. unfold groups_conf.
  assert (G : forall l d, NoDup (map fst (d ++ l)) ->
    fold_left (fun d (gc : string * list (nat * nat * R)) => sset (fst gc) (snd gc) d) l d = d ++ l).
  { induction l as [|[g t] l IH]; intros d Hd; cbn [fold_left fst snd].
    - now rewrite app_nil_r.
    - rewrite sset_fresh.
      + rewrite IH; rewrite <- app_assoc; [reflexivity|exact Hd].
      + intros Hin. rewrite map_app in Hd. cbn [map fst] in Hd. apply NoDup_remove_2 in Hd.
        apply Hd. apply in_app_iff. now left. }
  now rewrite (G conf []).
Qed.

Lemma sget_sset_eq {A} k (v : A) d : sget k (sset k v d) = Ok v.
Proof.
  induction d as [|[a b] d IH]; cbn [sset sget].
  - now rewrite String.eqb_refl.
  - destruct (String.eqb k a) eqn:E; cbn [sget]; rewrite E; auto.
Qed.

Lemma sget_sset_neq {A} k k' (v : A) d : k' <> k -> sget k' (sset k v d) = sget k' d.
Proof.
  intros H. induction d as [|[a b] d IH]; cbn [sset sget].
  - apply String.eqb_neq in H. now rewrite H.
  - destruct (String.eqb k a) eqn:E; cbn [sget].
    + apply String.eqb_eq in E. subst a. apply String.eqb_neq in H. now rewrite H.
    + destruct (String.eqb k' a); auto.
Qed.

Lemma group_units_names : forall lines d0 d ul g names0,
  mapM unit_line lines = Ok ul ->
  foldM (fun d toks =>
           bindr (unit_line toks) (fun ng =>
           bindr (sget (snd ng) d) (fun names =>
           Ok (sset (snd ng) (names ++ [fst ng]) d)))) lines d0 = Ok d ->
  sget g d0 = Ok names0 ->
  sget g d = Ok (names0 ++ map fst (filter (fun u => String.eqb (snd u) g) ul)).
Proof.
  induction lines as [|toks lines IH]; intros d0 d ul g names0 Hm Hf Hg.
  - cbn [mapM] in Hm. cbn [foldM] in Hf. inv Hm. inv Hf. cbn [filter map]. now rewrite app_nil_r.
  - cbn [mapM] in Hm. destruct (unit_line toks) as [[n gr]|] eqn:Et; [|discriminate]. cbn [bindr] in Hm.
    destruct (mapM unit_line lines) as [ul'|] eqn:Em; [|discriminate]. cbn [bindr] in Hm. inv Hm.
    cbn [foldM] in Hf. rewrite Et in Hf. cbn [bindr fst snd] in Hf.
    destruct (sget gr d0) as [names|] eqn:Eg; [|discriminate]. cbn [bindr] in Hf.
    cbn [filter snd]. destruct (String.eqb gr g) eqn:E.
    + apply String.eqb_eq in E. subst gr. rewrite Hg in Eg. inv Eg.
      rewrite (IH _ d ul' g (names ++ [n]) eq_refl Hf (sget_sset_eq _ _ _)).
      cbn [map fst]. now rewrite <- app_assoc.
    + apply String.eqb_neq in E. apply (IH _ d ul' g names0 eq_refl Hf).
      rewrite sget_sset_neq by congruence. exact Hg.
Qed.

Lemma create_group_count t n : (2 <= n)%nat -> contiguous t n ->
  forall names k units tot, exists units',
  foldM (fun st name =>
           let '(start_pdf_id, units, tot) := st in
           bindr (create_unit_graph t start_pdf_id) (fun gs =>
           Ok (snd gs, sset name (fst gs) units, (tot + count_emitting_state (fst gs))%nat)))
        names (k, units, tot) =
  Ok ((k + length names * (n - 2))%nat, units', (tot + length names * (n - 2))%nat).
Proof.
  intros Hn Hc. induction names as [|nm r IH]; intros k units tot.
  - exists units. cbn [foldM length Nat.mul]. now rewrite !Nat.add_0_r.
  - cbn [foldM]. rewrite (create_unit_graph_eq t k n) by auto. cbn [bindr fst snd].
    edestruct IH as (u' & E). rewrite E. exists u'.
    rewrite count_emitting_eq by (apply unit_of_wf; auto). rewrite mapping_pdfs.
    assert (Eg : g_states (unit_of t k n) = unit_sts k n n) by reflexivity.
    rewrite Eg, unit_sts_pdfs, seq_length by auto. cbn [length Nat.mul].
    do 2 f_equal; [f_equal|]; lia.
Qed.

Lemma grouped_ok conf lines ul : mapM unit_line lines = Ok ul ->
  (forall u, In u ul -> In (snd u) (map fst conf)) ->
  exists d, group_units (groups_conf conf) lines = Ok d /\ map fst d = map fst (groups_conf conf) /\
    Permutation (concat (map snd d)) (map fst ul) /\
    forall g names, In (g, names) d -> names = map fst (filter (fun u => String.eqb (snd u) g) ul).
Proof.
  intros Hm Hg. destruct (groups_conf_spec conf) as (G1 & G2 & G3). unfold group_units.
  destruct (group_units_spec (groups_conf conf) lines
              (map (fun gc => (fst gc, [])) (groups_conf conf)) ul Hm) as (d & E & K & P & M).
  { intros u Hu. rewrite map_map. simpl. apply G3. auto. }
  { now rewrite map_map. }
  exists d. split; [exact E|]. split; [exact K|]. split.
  - assert (Z : concat (map snd (map (fun gc : string * list (nat * nat * R) => (fst gc, @nil string))
                                   (groups_conf conf))) = []).
    { clear. induction (groups_conf conf) as [|a l IH]; [reflexivity|]. simpl. exact IH. }
    rewrite Z in P. exact P.
  - intros g names Hin.
    assert (N0 : In g (map fst (groups_conf conf))).
    { rewrite <- K. apply in_map_iff. exists (g, names). auto. }
    assert (E0 : sget g (map (fun gc : string * list (nat * nat * R) => (fst gc, @nil string)) (groups_conf conf)) = Ok []).
    { apply sget_nodup; [now rewrite map_map|]. apply in_map_iff in N0. destruct N0 as ([g' t] & E' & H). cbn in E'. subst g'.
      apply in_map_iff. exists (g, t). auto. }
    pose proof (group_units_names lines _ d ul g [] Hm E E0) as Eg. cbn [app] in Eg.
    assert (En : sget g d = Ok names) by (apply sget_nodup; [now rewrite K|exact Hin]). congruence.
Qed.

Lemma in_names (ul : list (string * string)) g n :
  In n (map fst (filter (fun u => String.eqb (snd u) g) ul)) <-> In (n, g) ul.
Proof.
  rewrite in_map_iff. split.
  - intros ([n' g'] & <- & H). apply filter_In in H. destruct H as [H E]. apply String.eqb_eq in E. cbn [snd] in E. subst g'. exact H.
  - intros H. exists (n, g). split; [reflexivity|]. apply filter_In. split; [exact H|apply String.eqb_refl].
Qed.

Lemma mkgroup_inv gconf k units tots gn st' : mkgroup gconf (k, units, tots) gn = Ok st' ->
  exists t k' units' tot, sget (fst gn) gconf = Ok t /\
    create_group t (snd gn) (k, units) = Ok (k', units', tot) /\ units' <> [] /\ (0 < tot)%nat /\
    st' = (k', units', tots ++ [tot]).
Proof.
  unfold mkgroup. destruct (sget (fst gn) gconf) as [t|]; [|discriminate]. cbn [bindr].
  destruct (create_group t (snd gn) (k, units)) as [[[k' units'] tot]|] eqn:E; [|discriminate]. cbn [bindr].
  unfold group_pdfs. destruct units' as [|u us]; [discriminate|]. destruct (Nat.eqb_spec tot 0); [discriminate|].
  cbn [bindr]. intros H. injection H as <-. exists t, k', (u :: us), tot. repeat split; auto; [discriminate|lia].
Qed.

Lemma mkphones_loop conf ul gconf : (forall g t, In (g, t) gconf -> In (g, t) conf) ->
  (forall g t, In (g, t) conf -> regular t) ->
  forall grouped k units tots k' units' tots',
  (forall g names n, In (g, names) grouped -> In n names -> In (n, g) ul) ->
  NoDup (map fst units ++ concat (map snd grouped)) ->
  concat (map (fun u => pdf_id_mapping (snd u)) units) = seq 0 k ->
  list_sum tots = k ->
  Forall (built conf ul) units ->
  foldM (mkgroup gconf) grouped (k, units, tots) = Ok (k', units', tots') ->
  map fst units' = map fst units ++ concat (map snd grouped) /\
  concat (map (fun u => pdf_id_mapping (snd u)) units') = seq 0 k' /\
  list_sum tots' = k' /\ length tots' = (length tots + length grouped)%nat /\
  Forall (built conf ul) units'.
Proof.
  intros Hgc Hreg. induction grouped as [|[g names] grouped IH];
    intros k units tots k' units' tots' Hu Hnd Hp Ht Hb Hf.
  - cbn [foldM] in Hf. injection Hf as <- <- <-. simpl. rewrite app_nil_r. repeat split; auto.
  - cbn [foldM] in Hf. destruct (mkgroup gconf (k, units, tots) (g, names)) as [st|] eqn:Es; [|discriminate]. cbn [bindr] in Hf.
    apply mkgroup_inv in Es. destruct Es as (t & k1 & us1 & tot & Et & Ec & _ & _ & ->). cbn [fst snd] in *.
    apply sget_in in Et. apply Hgc in Et.
    destruct (Hreg g t Et) as (n & Hn & Hc). unfold create_group in Ec.
    cbn [map snd concat] in Hnd.
    assert (Nn : NoDup names).
    { apply NoDup_app_r in Hnd. clear - Hnd. induction names as [|a l IH]; [constructor|].
      simpl in Hnd. inversion_clear Hnd as [|? ? H1 H2]. constructor; auto.
      intros H. apply H1. apply in_app_iff. now left. }
    assert (Nu : forall x, In x names -> ~ In x (map fst units)).
    { intros x Hx Hx'. clear - Hnd Hx Hx'. induction (map fst units) as [|a l IH]; [inversion Hx'|].
      simpl in Hnd. inversion_clear Hnd as [|? ? H1 H2]. destruct Hx' as [->|Hx']; [|auto].
      apply H1. rewrite !in_app_iff. auto. }
    rewrite (create_group_eq t n) in Ec by auto. cbn [plus] in Ec. injection Ec as <- <- <-.
    apply IH in Hf.
    + destruct Hf as (F & P & T & L & B). split.
      { rewrite F, map_app, group_list_names, <- app_assoc. reflexivity. }
      split; [exact P|]. split; [exact T|]. split; [|exact B].
      rewrite L, app_length. simpl. lia.
    + intros g' n' x H H'. eapply Hu; [right; eauto|exact H'].
    + rewrite map_app, group_list_names, <- app_assoc. exact Hnd.
    + rewrite map_app, concat_app, Hp, group_list_pdfs by auto.
      rewrite seq_app. reflexivity.
    + rewrite list_sum_app, Ht. simpl. lia.
    + apply Forall_app. split; [exact Hb|]. apply Forall_forall. intros u Hu'.
      assert (G : forall nms j, incl nms names -> In u (group_list t n j nms) -> built conf ul u).
      { induction nms as [|a l IHl]; intros j Hi H; simpl in H; [tauto|]. destruct H as [<-|H].
        - exists g, t, j, n. simpl. split; [|auto]. eapply Hu; [now left|]. apply Hi. now left.
        - eapply IHl; [|exact H]. intros y Hy. apply Hi. now right. }
      eapply G; [apply incl_refl|exact Hu'].
Qed.

(** What comes out, when something does *)
Lemma mkphones_inv conf lines ul units tots :
  (forall g t, In (g, t) conf -> regular t) ->
  mapM unit_line lines = Ok ul -> NoDup (map fst ul) ->
  (forall u, In u ul -> In (snd u) (map fst conf)) ->
  mkphones conf lines = Ok (units, tots) ->
    Permutation (map fst units) (map fst ul) /\
    concat (map (fun u => pdf_id_mapping (snd u)) units) = seq 0 (list_sum tots) /\
    length tots = length (groups_conf conf) /\
    Forall (built conf ul) units.
Proof.
  intros Hreg Hm Hnd Hg Hk. destruct (groups_conf_spec conf) as (G1 & G2 & G3).
  destruct (grouped_ok conf lines ul Hm Hg) as (d & E & K & P & M).
  unfold mkphones in Hk. rewrite E in Hk. cbn [bindr] in Hk.
  destruct (foldM (mkgroup (groups_conf conf)) d (0%nat, [], [])) as [[[k us] ts]|] eqn:Ef; [|discriminate].
  cbn [bindr] in Hk. injection Hk as -> ->.
  apply (mkphones_loop conf ul (groups_conf conf) G2 Hreg d) in Ef; [| | |reflexivity|reflexivity|constructor].
  - destruct Ef as (F & Q & T & L & B). split; [rewrite F; simpl; exact P|].
    split; [rewrite Q, T; reflexivity|]. split; [|exact B].
    rewrite L. simpl. rewrite <- (map_length fst d), K, map_length. reflexivity.
  - intros g names n H H'. apply in_names. now rewrite <- (M g names H).
  - simpl. eapply Permutation_NoDup; [symmetry; exact P|exact Hnd].
Qed.

(** One group: what decides whether it succeeds *)
Lemma mkgroup_ok gconf k units tots g names t n : sget g gconf = Ok t -> (2 <= n)%nat -> contiguous t n ->
  exists units', mkgroup gconf (k, units, tots) (g, names) =
    bindr (group_pdfs units' (length names * (n - 2))) (fun p => Ok ((k + length names * (n - 2))%nat, units', tots ++ [p])) /\
    (units' = [] <-> units = [] /\ names = []).
Proof.
  intros Et Hn Hc. unfold mkgroup. cbn [fst snd]. rewrite Et. cbn [bindr]. unfold create_group.
  destruct (create_group_count t n Hn Hc names k units 0) as (us & E). rewrite E. cbn [bindr plus].
  exists us. split; [reflexivity|].
  assert (NE : forall names k units tot r, foldM (fun st name =>
           let '(start_pdf_id, units, tot) := st in
           bindr (create_unit_graph t start_pdf_id) (fun gs =>
           Ok (snd gs, sset name (fst gs) units, (tot + count_emitting_state (fst gs))%nat)))
        names (k, units, tot) = Ok r -> snd (fst r) = [] <-> units = [] /\ names = []).
  { clear. induction names as [|nm r IH]; intros k units tot res H; cbn [foldM] in H.
    - injection H as <-. cbn. tauto.
    - destruct (create_unit_graph t k) as [[h k']|]; [|discriminate]. cbn [bindr fst snd] in H.
      apply IH in H. rewrite H. split; [|intros (_ & X); discriminate].
      intros (X & _). exfalso. destruct units as [|[a b] us]; cbn [sset] in X; [discriminate|].
      destruct (String.eqb nm a); discriminate. }
  exact (NE _ _ _ _ _ E).
Qed.

Lemma mkphones_loop_ok gconf : forall grouped k units tots,
  (forall g names, In (g, names) grouped -> names <> [] /\ exists t, sget g gconf = Ok t /\ has_emitting t) ->
  exists r, foldM (mkgroup gconf) grouped (k, units, tots) = Ok r.
Proof.
  induction grouped as [|[g names] grouped IH]; intros k units tots H; [eexists; reflexivity|].
  cbn [foldM]. destruct (H g names (or_introl eq_refl)) as (Hne & t & Et & n & Hn & Hc).
  destruct (mkgroup_ok gconf k units tots g names t n Et ltac:(lia) Hc) as (us & E & Hus). rewrite E. clear E.
  assert (Hu : us <> []) by tauto. destruct us as [|u us]; [congruence|]. unfold group_pdfs.
  destruct names as [|nm names]; [congruence|]. destruct (Nat.eqb_spec (length (nm :: names) * (n - 2)) 0) as [X|X].
  { cbn [length] in X. nia. }
  cbn [bindr]. apply IH. intros g' names' H'. apply H. now right.
Qed.

Lemma mkphones_spec conf lines ul :
  (forall g t, In (g, t) conf -> has_emitting t) -> populated conf ul ->
  mapM unit_line lines = Ok ul -> NoDup (map fst ul) ->
  (forall u, In u ul -> In (snd u) (map fst conf)) ->
  exists units tots, mkphones conf lines = Ok (units, tots) /\
    Permutation (map fst units) (map fst ul) /\
    concat (map (fun u => pdf_id_mapping (snd u)) units) = seq 0 (list_sum tots) /\
    length tots = length (groups_conf conf) /\
    Forall (built conf ul) units.
Proof.
  intros Hem Hpop Hm Hnd Hg. destruct (groups_conf_spec conf) as (G1 & G2 & G3).
  destruct (grouped_ok conf lines ul Hm Hg) as (d & E & K & P & M).
  destruct (mkphones_loop_ok (groups_conf conf) d 0%nat [] []) as ([[k us] ts] & Ef).
  { intros g names H. assert (Hk : In g (map fst (groups_conf conf))).
    { rewrite <- K. apply in_map_iff. exists (g, names). auto. }
    split.
    - destruct (Hpop g (proj1 (G3 g) Hk)) as (n & Hn). apply in_names in Hn. rewrite <- (M g names H) in Hn.
      intros ->. destruct Hn.
    - destruct (sget_ok g _ Hk) as (t & Et). exists t. split; [exact Et|]. apply (Hem g). apply G2. now apply sget_in. }
  assert (Em : mkphones conf lines = Ok (us, ts)) by (unfold mkphones; rewrite E; cbn [bindr]; rewrite Ef; reflexivity).
  exists us, ts. split; [exact Em|]. apply (mkphones_inv conf lines ul); auto.
  intros g t H. destruct (Hem g t H) as (n & Hn & Hc). exists n. split; [lia|exact Hc].
Qed.

(** Success implies that every group has a unit and an emitting state. *)
Lemma mkphones_loop_nonempty gconf : (forall g t, In (g, t) gconf -> regular t) ->
  forall grouped st r, foldM (mkgroup gconf) grouped st = Ok r ->
  forall g names, In (g, names) grouped -> names <> [] /\ exists t, sget g gconf = Ok t /\ has_emitting t.
Proof.
  intros Hreg. induction grouped as [|gn grouped IH]; intros [[k units] tots] r Hf g names Hin; [destruct Hin|].
  cbn [foldM] in Hf. destruct (mkgroup gconf (k, units, tots) gn) as [st|] eqn:Es; [|discriminate]. cbn [bindr] in Hf.
  destruct Hin as [->|Hin]; [|eapply IH; eauto].
  apply mkgroup_inv in Es. destruct Es as (t & k1 & us1 & tot & Et & Ec & _ & Hpos & _). cbn [fst snd] in *.
  destruct (Hreg g t (sget_in _ _ _ Et)) as (n & Hn & Hc).
  unfold create_group in Ec. destruct (create_group_count t n Hn Hc names k units 0) as (us & E). rewrite E in Ec.
  injection Ec as _ _ <-. split; [intros ->; simpl in Hpos; lia|]. exists t. split; [exact Et|]. exists n. split; [|exact Hc].
  destruct (Nat.le_gt_cases 3 n) as [H|H]; [exact H|]. replace (n - 2)%nat with 0%nat in Hpos by lia. lia.
Qed.

Lemma mkphones_only conf lines ul units tots :
  NoDup (map fst conf) -> (forall g t, In (g, t) conf -> regular t) ->
  mapM unit_line lines = Ok ul -> (forall u, In u ul -> In (snd u) (map fst conf)) ->
  mkphones conf lines = Ok (units, tots) ->
  populated conf ul /\ forall g t, In (g, t) conf -> has_emitting t.
Proof.
  intros Hn Hreg Hm Hg Hk. destruct (grouped_ok conf lines ul Hm Hg) as (d & E & K & P & M).
  unfold mkphones in Hk. rewrite E in Hk. cbn [bindr] in Hk. rewrite groups_conf_distinct in * by exact Hn.
  destruct (foldM (mkgroup conf) d (0%nat, [], [])) as [r|] eqn:Ef; [|discriminate]. clear Hk.
  assert (H := mkphones_loop_nonempty conf Hreg d _ r Ef).
  assert (Hd : forall g, In g (map fst conf) -> exists names, In (g, names) d).
  { intros g Hin. rewrite <- K in Hin. apply in_map_iff in Hin. destruct Hin as ([g' names] & Eg & Hin). cbn in Eg. subst g'. eauto. }
  split.
  - intros g Hin. destruct (Hd g Hin) as (names & Hi). destruct (H g names Hi) as (Hne & _).
    destruct names as [|n names]; [congruence|]. exists n. apply in_names. rewrite <- (M g _ Hi). now left.
  - intros g t Hin. destruct (Hd g) as (names & Hi); [apply in_map_iff; exists (g, t); auto|].
    destruct (H g names Hi) as (_ & t' & Et & He). assert (t' = t) by (apply (sget_nodup g conf t Hn) in Hin; congruence).
    now subst t'.
Qed.

(** The first group without unit or emitting state stops the command. *)
Lemma mkphones_stops conf lines ul a g t n b :
  conf = a ++ (g, t) :: b -> NoDup (map fst conf) ->
  mapM unit_line lines = Ok ul -> (forall u, In u ul -> In (snd u) (map fst conf)) ->
  (forall g t, In (g, t) a -> (exists n, In (n, g) ul) /\ has_emitting t) -> (2 <= n)%nat -> contiguous t n ->
  (forall m, ~ In (m, g) ul) \/ n = 2%nat ->
  mkphones conf lines =
    Err (match a with [] => if existsb (fun u => String.eqb (snd u) g) ul then ZeroDivisionError else NameError
                    | _ => ZeroDivisionError end).
Proof.
  intros Ec Hn Hm Hg Ha Hn2 Hc Hz. destruct (grouped_ok conf lines ul Hm Hg) as (d & E & K & P & M).
  unfold mkphones. rewrite E. cbn [bindr]. rewrite groups_conf_distinct in * by exact Hn.
  assert (Sd : exists da names db, d = da ++ (g, names) :: db /\ map fst da = map fst a).
  { rewrite Ec, map_app in K. cbn [map fst] in K. clear - K. revert a K. induction d as [|[x ns] d IH]; intros a K.
    - destruct a; discriminate.
    - destruct a as [|y a]; cbn [map app fst] in K; injection K as K1 K2.
      + exists [], ns, d. subst x. auto.
      + destruct (IH a K2) as (da & names & db & -> & Ea). exists ((x, ns) :: da), names, db. cbn [map fst]. split; [reflexivity|congruence]. }
  destruct Sd as (da & names & db & -> & Kd).
  assert (FA : forall {A B} (f : A -> B -> result A) l1 l2 x, foldM f (l1 ++ l2) x = bindr (foldM f l1 x) (foldM f l2)).
  { clear. intros A B f. induction l1 as [|y l1 IH]; intros l2 x; [reflexivity|]. cbn [app foldM]. destruct (f x y); [apply IH|reflexivity]. }
  rewrite FA. assert (Na : forall g' t', In (g', t') a -> sget g' conf = Ok t').
  { intros g' t' H. apply sget_nodup; [exact Hn|]. rewrite Ec. apply in_app_iff. now left. }
  assert (Hda : forall g' names', In (g', names') da -> names' <> [] /\ exists t', sget g' conf = Ok t' /\ has_emitting t').
  { intros g' names' H. assert (Hk : In g' (map fst a)) by (rewrite <- Kd; apply in_map_iff; exists (g', names'); auto).
    apply in_map_iff in Hk. destruct Hk as ([x t'] & X & Hin). cbn in X. subst x. destruct (Ha g' t' Hin) as ((m & Hm') & He). split.
    - intros ->. apply in_names in Hm'. rewrite <- (M g' [] ) in Hm'; [destruct Hm'|]. apply in_app_iff. now left.
    - exists t'. split; [now apply Na|exact He]. }
  destruct (mkphones_loop_ok conf da 0%nat [] [] Hda) as ([[k us] ts] & Ef). rewrite Ef. cbn [bindr foldM].
  assert (Et : sget g conf = Ok t).
  { apply sget_nodup; [exact Hn|]. rewrite Ec. apply in_app_iff. right. now left. }
  destruct (mkgroup_ok conf k us ts g names t n Et Hn2 Hc) as (us' & E' & Hus'). rewrite E'. clear E'.
  assert (Enm : names = map fst (filter (fun u => String.eqb (snd u) g) ul)).
  { apply M. apply in_app_iff. right. now left. }
  assert (Z : (length names * (n - 2))%nat = 0%nat).
  { destruct Hz as [Hz| ->]; [|apply Nat.mul_0_r]. destruct names as [|m names]; [reflexivity|].
    exfalso. apply (Hz m). apply in_names. rewrite <- Enm. now left. }
  rewrite Z. unfold group_pdfs. cbn [Nat.eqb].
  assert (Hus : us = [] <-> a = []).
  { destruct a as [|p a]; destruct da as [|[x ns] da]; try discriminate Kd.
    - cbn [foldM] in Ef. injection Ef as _ <- _. tauto.
    - split; [|discriminate]. intros ->. exfalso. cbn [foldM] in Ef.
      destruct (mkgroup conf (0%nat, [], []) (x, ns)) as [st|] eqn:Es; [|discriminate]. cbn [bindr] in Ef.
      apply mkgroup_inv in Es. destruct Es as (t1 & k1 & us1 & tot & _ & _ & Hne & _ & ->).
      assert (G : forall l k us ts k' ts', us <> [] -> foldM (mkgroup conf) l (k, us, ts) <> Ok (k', [], ts')).
      { clear. induction l as [|gn l IH]; intros k us ts k' ts' Hne; cbn [foldM]; [congruence|].
        destruct (mkgroup conf (k, us, ts) gn) as [st|] eqn:Es; [|discriminate]. cbn [bindr].
        apply mkgroup_inv in Es. destruct Es as (t1 & k1 & us1 & tot & _ & _ & H & _ & ->). now apply IH. }
      exact (G _ _ _ _ _ _ Hne Ef). }
  destruct us' as [|u' us'].
  - destruct (proj1 Hus' eq_refl) as (H1 & H2). rewrite (proj1 Hus H1). cbn [bindr].
    replace (existsb (fun u => String.eqb (snd u) g) ul) with false; [reflexivity|]. symmetry. apply not_true_iff_false. intros X.
    apply existsb_exists in X. destruct X as ([m g'] & Hin & X). apply String.eqb_eq in X. cbn [snd] in X. subst g'.
    apply in_names in Hin. rewrite <- Enm, H2 in Hin. destruct Hin.
  - cbn [bindr]. destruct a as [|p a]; [|reflexivity].
    destruct names as [|m names].
    { exfalso. assert (X : u' :: us' = []) by (apply Hus'; split; [now apply Hus|reflexivity]). discriminate. }
    replace (existsb (fun u => String.eqb (snd u) g) ul) with true; [reflexivity|]. symmetry. apply existsb_exists. exists (m, g).
    split; [|apply String.eqb_refl]. apply in_names. rewrite <- Enm. now left.
Qed.
