(** Lemmas on the graph operations. *)
From Coq Require Import Reals List Lra Lia Arith Bool Permutation Sorting.Sorted.
From Verif Require Import Prelude Graph_Model Graph_Spec.
Import ListNotations.
Local Open Scope R_scope.

Ltac inv H := inversion H; subst; clear H.

(** ** Basic facts *)
Lemma same_key_eq a b : same_key a b = true <-> key a = key b.
Proof.
  unfold same_key, key. rewrite andb_true_iff, !Nat.eqb_eq.
  split; [intros [-> ->]; reflexivity|intros H; now inv H].
Qed.

Lemma same_key_refl a : same_key a a = true.
Proof. now apply same_key_eq. Qed.

Lemma existsb_key a l : existsb (same_key a) l = true <-> In (key a) (map key l).
Proof.
  rewrite existsb_exists, in_map_iff. split.
  - intros (b & Hb & H). apply same_key_eq in H. exists b. auto.
  - intros (b & Hb & H). exists b. split; auto. now apply same_key_eq.
Qed.

Lemma lookup_in {A} k (l : list (nat * A)) v : lookup k l = Some v -> In (k, v) l.
Proof.
  induction l as [|[k' v'] l IH]; simpl; [discriminate|].
  destruct (Nat.eqb k k') eqn:E.
  - apply Nat.eqb_eq in E. intros H; inv H. now left.
  - intros H; right; auto.
Qed.

Lemma lookup_none {A} k (l : list (nat * A)) :
  lookup k l = None <-> ~ In k (map fst l).
Proof.
  induction l as [|[k' v'] l IH]; simpl; [tauto|].
  destruct (Nat.eqb k k') eqn:E.
  - apply Nat.eqb_eq in E. subst. split; [discriminate|]. intros H; exfalso; auto.
  - apply Nat.eqb_neq in E. rewrite IH. intuition.
Qed.

Lemma lookup_nodup {A} k v (l : list (nat * A)) :
  NoDup (map fst l) -> In (k, v) l -> lookup k l = Some v.
Proof.
  induction l as [|[k' v'] l IH]; simpl; [tauto|].
  intros Hnd [H|H].
  - inv H. now rewrite Nat.eqb_refl.
  - inversion_clear Hnd as [|? ? Hx Hnd'].
    destruct (Nat.eqb k k') eqn:E; [|auto].
    apply Nat.eqb_eq in E. subst. exfalso. apply Hx.
    apply in_map_iff. exists (k', v). auto.
Qed.

Lemma pdf_of_in g s o : NoDup (states g) -> (pdf_of g s = Some o <-> In (s, o) (g_states g)).
Proof.
  intros Hnd. unfold pdf_of. split; [apply lookup_in|now apply lookup_nodup].
Qed.

Lemma in_states_pdf g s : In s (states g) -> exists o, pdf_of g s = Some o.
Proof.
  intros H. unfold pdf_of. destruct (lookup s (g_states g)) eqn:E; [eauto|].
  apply lookup_none in E. contradiction.
Qed.

Lemma in_states_iff g s : In s (states g) <-> exists o, In (s, o) (g_states g).
Proof.
  unfold states. rewrite in_map_iff. split.
  - intros ([a b] & H1 & H2). simpl in H1. subst. eauto.
  - intros (o & H). exists (s, o). auto.
Qed.

(** ** arc_add *)
Lemma arc_add_fresh l a : ~ In (key a) (map key l) -> arc_add l a = l ++ [a].
Proof.
  intros H. unfold arc_add. destruct (existsb (same_key a) l) eqn:E; [|reflexivity].
  apply existsb_key in E. contradiction.
Qed.

Lemma arc_add_nodup l a : NoDup (map key l) -> NoDup (map key (arc_add l a)).
Proof.
  intros H. unfold arc_add. destruct (existsb (same_key a) l) eqn:E; [exact H|].
  rewrite map_app. simpl.
  apply NoDup_Add with (a := key a) (l := map key l).
  - rewrite <- (app_nil_r (map key l)) at 1. apply Add_app.
  - split; [exact H|]. intros Hc. apply existsb_key in Hc. congruence.
Qed.

Lemma arc_add_in l a b : In b (arc_add l a) -> In b l \/ b = a.
Proof.
  unfold arc_add. destruct (existsb (same_key a) l); [now left|].
  rewrite in_app_iff. simpl. intuition.
Qed.

Lemma fold_arc_add_fresh news : forall l,
  NoDup (map key (l ++ news)) -> fold_left arc_add news l = l ++ news.
Proof.
  induction news as [|a news IH]; intros l H; simpl.
  - now rewrite app_nil_r.
  - rewrite arc_add_fresh.
    + rewrite IH; [now rewrite <- app_assoc|]. now rewrite <- app_assoc.
    + rewrite map_app in H. simpl in H. apply NoDup_remove_2 in H.
      rewrite in_app_iff in H. tauto.
Qed.

Lemma fold_arc_add_nodup news : forall l,
  NoDup (map key l) -> NoDup (map key (fold_left arc_add news l)).
Proof.
  induction news as [|a news IH]; intros l H; simpl; [exact H|].
  apply IH. now apply arc_add_nodup.
Qed.

Lemma fold_arc_add_in news : forall l b,
  In b (fold_left arc_add news l) -> In b l \/ In b news.
Proof.
  induction news as [|a news IH]; intros l b H; simpl in *; [now left|].
  apply IH in H. destruct H as [H|H]; [|tauto].
  apply arc_add_in in H. intuition.
Qed.

(** ** arc_remove *)
Lemma arc_remove_all dels : forall l,
  NoDup (map key dels) -> (forall a, In a dels -> In (key a) (map key l)) ->
  foldM arc_remove dels l =
  Ok (filter (fun b => negb (existsb (same_key b) dels)) l).
Proof.
  induction dels as [|a dels IH]; intros l Hnd Hin; simpl.
  - f_equal. clear. induction l as [|b l IH]; simpl; [reflexivity|]. now rewrite IH at 1.
  - inversion_clear Hnd as [|? ? Ha Hnd'].
    unfold arc_remove at 1.
    assert (E : existsb (same_key a) l = true) by (apply existsb_key; auto; apply Hin; now left).
    rewrite E. simpl. rewrite IH; auto.
    + f_equal. clear. induction l as [|b l IHl]; simpl; [reflexivity|].
      assert (Es : same_key a b = same_key b a).
      { unfold same_key. rewrite (Nat.eqb_sym (a_start a)), (Nat.eqb_sym (a_end a)).
        reflexivity. }
      rewrite Es. destruct (same_key b a) eqn:E; simpl.
      * exact IHl.
      * destruct (existsb (same_key b) dels); simpl; [exact IHl|]. now rewrite IHl.
    + intros b Hb. assert (Hb' : In (key b) (map key l)) by (apply Hin; now right).
      apply in_map_iff in Hb'. destruct Hb' as (c & Hc1 & Hc2).
      apply in_map_iff. exists c. split; auto. apply filter_In. split; auto.
      apply negb_true_iff. apply not_true_iff_false. rewrite same_key_eq. intros Hk.
      apply Ha. rewrite Hk, Hc1. now apply in_map.
Qed.

(** A duplicated element cannot be removed twice. *)
Lemma arc_remove_dup dels1 a dels2 dels3 : forall l,
  exists e, foldM arc_remove (dels1 ++ a :: dels2 ++ a :: dels3) l = Err e.
Proof.
  assert (H2 : forall dels2 l, ~ In (key a) (map key l) ->
            exists e, foldM arc_remove (dels2 ++ a :: dels3) l = Err e).
  { induction dels0 as [|b d IH]; intros l Hl; simpl.
    - unfold arc_remove at 1. destruct (existsb (same_key a) l) eqn:E.
      + apply existsb_key in E. contradiction.
      + simpl. eauto.
    - unfold arc_remove at 1. destruct (existsb (same_key b) l); simpl; [|eauto].
      apply IH. intros Hc. apply Hl. apply in_map_iff in Hc.
      destruct Hc as (c & Hc1 & Hc2). apply filter_In in Hc2.
      apply in_map_iff. exists c. tauto. }
  induction dels1 as [|b d IH]; intros l; simpl.
  - unfold arc_remove at 1. destruct (existsb (same_key a) l); simpl; [|eauto].
    apply H2. intros Hc. apply in_map_iff in Hc.
    destruct Hc as (c & Hc1 & Hc2). apply filter_In in Hc2. destruct Hc2 as [_ Hc2].
    apply negb_true_iff in Hc2. apply not_true_iff_false in Hc2.
    apply Hc2. now apply same_key_eq.
  - unfold arc_remove at 1. destruct (existsb (same_key b) l); simpl; [|eauto].
    apply IH.
Qed.

(** All the errors of arc_remove are KeyErrors. *)
Lemma arc_remove_err dels : forall l e, foldM arc_remove dels l = Err e -> e = KeyError.
Proof.
  induction dels as [|a d IH]; intros l e; simpl; [discriminate|].
  unfold arc_remove at 1. destruct (existsb (same_key a) l); simpl.
  - apply IH.
  - intros H; now inv H.
Qed.

(** ** Copying *)
Lemma copy_states_eq sts : forall g,
  copy_states g sts =
  (Graph (g_count g + length sts)
         (g_states g ++ combine (seq (g_count g) (length sts)) (map snd sts))
         (g_arcs g) (g_start g) (g_end g),
   combine (map fst sts) (seq (g_count g) (length sts))).
Proof.
  induction sts as [|[s p] sts IH]; intros g; simpl.
  - rewrite app_nil_r, Nat.add_0_r. destruct g; reflexivity.
  - rewrite IH. simpl. rewrite <- app_assoc. simpl.
    replace (S (g_count g + length sts)) with (g_count g + S (length sts))%nat by lia.
    reflexivity.
Qed.

Lemma rename_ok ren s : In s (map fst ren) -> exists x, rename ren s = Ok x /\ In (s, x) ren.
Proof.
  intros H. unfold rename. destruct (lookup s ren) eqn:E.
  - exists n. split; auto. now apply lookup_in.
  - apply lookup_none in E. contradiction.
Qed.

(** The renaming as a total function (0 outside of the domain). *)
Definition rho (ren : list (nat * nat)) (s : nat) : nat :=
  match lookup s ren with Some x => x | None => O end.

Lemma rename_rho ren s : In s (map fst ren) -> rename ren s = Ok (rho ren s).
Proof.
  intros H. unfold rename, rho. destruct (lookup s ren) eqn:E; [reflexivity|].
  apply lookup_none in E. contradiction.
Qed.

Definition rarc (ren : list (nat * nat)) (a : arc) : arc :=
  Arc (rho ren (a_start a)) (rho ren (a_end a)) (a_weight a).

Lemma copy_arcs_eq ren arcs : forall g,
  (forall a, In a arcs -> In (a_start a) (map fst ren) /\ In (a_end a) (map fst ren)) ->
  foldM (copy_arc ren) arcs g =
  Ok (with_arcs g (fold_left arc_add (map (rarc ren) arcs) (g_arcs g))).
Proof.
  induction arcs as [|a arcs IH]; intros g H; simpl.
  - destruct g; reflexivity.
  - destruct (H a) as [Hs He]; [now left|].
    unfold copy_arc at 1. rewrite !rename_rho by auto. simpl.
    rewrite IH by (intros; apply H; now right). unfold add_arc. simpl. reflexivity.
Qed.

Lemma reroute_eq ren h outs ins hs he :
  g_start h = Some hs -> g_end h = Some he ->
  In hs (map fst ren) -> In he (map fst ren) ->
  reroute ren h outs ins =
  Ok (map (fun a => Arc (rho ren he) (a_end a) (a_weight a)) outs ++
      map (fun a => Arc (a_start a) (rho ren hs) (a_weight a)) ins).
Proof.
  intros Hs He H1 H2. unfold reroute. rewrite Hs, He. simpl.
  rewrite !rename_rho by auto. simpl.
  assert (E : forall {A B} (f : A -> B) l, mapM (fun a => Ok (f a)) l = Ok (map f l)).
  { intros A B f l. induction l; simpl; [reflexivity|]. now rewrite IHl. }
  rewrite !E. reflexivity.
Qed.

(** The renaming produced by copy_states. *)
Definition mkren (g h : graph) : list (nat * nat) :=
  combine (states h) (seq (g_count g) (length (g_states h))).

Lemma combine_map_fst {A B} (l1 : list A) : forall (l2 : list B),
  length l1 = length l2 -> map fst (combine l1 l2) = l1.
Proof.
  induction l1; intros [|b l2] H; simpl in *; try lia; [reflexivity|].
  f_equal. apply IHl1. lia.
Qed.

Lemma combine_map_snd {A B} (l1 : list A) : forall (l2 : list B),
  length l1 = length l2 -> map snd (combine l1 l2) = l2.
Proof.
  induction l1; intros [|b l2] H; simpl in *; try lia; [reflexivity|].
  f_equal. apply IHl1. lia.
Qed.

Lemma states_length h : length (states h) = length (g_states h).
Proof. unfold states. now rewrite map_length. Qed.

Lemma mkren_dom g h : map fst (mkren g h) = states h.
Proof. unfold mkren. apply combine_map_fst. now rewrite states_length, seq_length. Qed.

Lemma mkren_in g h s x : In (s, x) (mkren g h) ->
  (g_count g <= x < g_count g + length (g_states h))%nat.
Proof. unfold mkren. intros H. apply in_combine_r in H. apply in_seq in H. lia. Qed.

Lemma rho_in g h s : In s (states h) -> In (s, rho (mkren g h) s) (mkren g h).
Proof.
  intros H. rewrite <- (mkren_dom g h) in H. destruct (rename_ok _ _ H) as (x & Hx & Hin).
  rewrite rename_rho in Hx by auto. inv Hx. exact Hin.
Qed.

Lemma rho_range g h s : In s (states h) ->
  (g_count g <= rho (mkren g h) s < g_count g + length (g_states h))%nat.
Proof. intros H. eapply mkren_in. now apply rho_in. Qed.

Lemma rho_inj g h s t : In s (states h) -> In t (states h) ->
  rho (mkren g h) s = rho (mkren g h) t -> s = t.
Proof.
  intros Hs Ht E. pose proof (rho_in g h s Hs) as H1. pose proof (rho_in g h t Ht) as H2.
  rewrite E in H1.
  assert (Hnd : NoDup (map snd (mkren g h))).
  { unfold mkren. rewrite combine_map_snd by now rewrite states_length, seq_length.
    apply seq_NoDup. }
  clear -H1 H2 Hnd. revert H1 H2. generalize (rho (mkren g h) t) as x. intros x.
  induction (mkren g h) as [|[a b] l IH]; simpl; [tauto|].
  simpl in Hnd. inversion_clear Hnd as [|? ? Hb Hnd'].
  intros [H1|H1] [H2|H2]; auto.
  - congruence.
  - inv H1. exfalso. apply Hb. apply in_map_iff. exists (t, x). auto.
  - inv H2. exfalso. apply Hb. apply in_map_iff. exists (s, x). auto.
Qed.

(** Copied states. *)
Lemma copied_states g h s o : NoDup (states h) ->
  In (s, o) (g_states h) ->
  In (rho (mkren g h) s, o) (combine (seq (g_count g) (length (g_states h))) (map snd (g_states h))).
Proof.
  intros Hnd Hin. unfold mkren, rho.
  revert Hnd Hin. unfold states. generalize (g_count g) as c.
  induction (g_states h) as [|[a b] l IH]; intros c Hnd Hin; simpl in *; [tauto|].
  inversion_clear Hnd as [|? ? Ha Hnd'].
  destruct Hin as [H|H].
  - inv H. rewrite Nat.eqb_refl. now left.
  - destruct (Nat.eqb s a) eqn:E.
    + apply Nat.eqb_eq in E. subst. exfalso. apply Ha. apply in_map_iff. exists (a, o). auto.
    + right. apply IH; auto.
Qed.

Lemma copied_states_inv g h x o : NoDup (states h) ->
  In (x, o) (combine (seq (g_count g) (length (g_states h))) (map snd (g_states h))) ->
  exists s, In (s, o) (g_states h) /\ x = rho (mkren g h) s.
Proof.
  intros Hnd Hin. unfold mkren, rho.
  revert Hnd Hin. unfold states. generalize (g_count g) as c.
  induction (g_states h) as [|[a b] l IH]; intros c Hnd Hin; simpl in *; [tauto|].
  inversion_clear Hnd as [|? ? Ha Hnd'].
  destruct Hin as [H|H].
  - inv H. exists a. rewrite Nat.eqb_refl. auto.
  - destruct (IH (S c) Hnd' H) as (s & Hs1 & Hs2). exists s. split; auto.
    destruct (Nat.eqb s a) eqn:E; [|exact Hs2].
    apply Nat.eqb_eq in E. subst. exfalso. apply Ha. apply in_map_iff. exists (a, o). auto.
Qed.

(** ** replace_state: full description of the result *)
Definition out_of (x : nat) (a : arc) := Nat.eqb (a_start a) x.
Definition into (x : nat) (a : arc) := Nat.eqb (a_end a) x.

Definition replaced_arcs (g h : graph) (x hs he : nat) : list arc :=
  filter (fun a => negb (out_of x a || into x a)) (g_arcs g) ++
  map (rarc (mkren g h)) (g_arcs h) ++
  map (fun a => Arc (rho (mkren g h) he) (a_end a) (a_weight a))
      (filter (out_of x) (g_arcs g)) ++
  map (fun a => Arc (a_start a) (rho (mkren g h) hs) (a_weight a))
      (filter (into x) (g_arcs g)).

Definition replaced (g h : graph) (x hs he : nat) : graph :=
  Graph (g_count g + length (g_states h))
        (filter (fun s => negb (Nat.eqb (fst s) x)) (g_states g) ++
         combine (seq (g_count g) (length (g_states h))) (map snd (g_states h)))
        (replaced_arcs g h x hs he) (g_start g) (g_end g).

Definition no_self_loop (g : graph) (x : nat) : Prop :=
  forall a, In a (g_arcs g) -> ~ (a_start a = x /\ a_end a = x).

Lemma NoDup_app_intro {A} (l1 l2 : list A) :
  NoDup l1 -> NoDup l2 -> (forall x, In x l1 -> In x l2 -> False) -> NoDup (l1 ++ l2).
Proof.
  induction l1 as [|a l1 IH]; simpl; intros H1 H2 H; [exact H2|].
  inversion_clear H1 as [|? ? Ha H1']. constructor.
  - rewrite in_app_iff. intros [Hc|Hc]; [auto|]. eapply H; [now left|exact Hc].
  - apply IH; auto. intros x Hx1 Hx2. eapply H; [right; exact Hx1|exact Hx2].
Qed.

Lemma NoDup_app_r {A} (l1 l2 : list A) : NoDup (l1 ++ l2) -> NoDup l2.
Proof.
  induction l1 as [|a l1 IH]; simpl; intros H; [exact H|].
  inversion_clear H; auto.
Qed.

Lemma NoDup_map_filter {A B} (f : A -> B) p l : NoDup (map f l) -> NoDup (map f (filter p l)).
Proof.
  induction l as [|a l IH]; simpl; intros H; [constructor|].
  inversion_clear H as [|? ? Ha H']. destruct (p a); simpl; auto.
  constructor; auto. intros Hc. apply Ha. apply in_map_iff in Hc.
  destruct Hc as (b & Hb1 & Hb2). apply filter_In in Hb2. apply in_map_iff. exists b; tauto.
Qed.

Lemma NoDup_map_inj_in {A B C} (f : A -> B) (f' : A -> C) l :
  NoDup (map f l) ->
  (forall a b, In a l -> In b l -> f' a = f' b -> f a = f b) ->
  NoDup (map f' l).
Proof.
  induction l as [|a l IH]; simpl; intros H Hf; [constructor|].
  inversion_clear H as [|? ? Ha H']. constructor.
  - intros Hc. apply in_map_iff in Hc. destruct Hc as (b & Hb1 & Hb2).
    apply Ha. apply in_map_iff. exists b. split; auto.
  - apply IH; auto.
Qed.

Section Replace.
  Variables (g h : graph) (x hs he : nat).
  Hypothesis Wg : wf g.
  Hypothesis Wh : wf h.
  Hypothesis Hx : In x (states g).
  Hypothesis Hs : g_start h = Some hs.
  Hypothesis He : g_end h = Some he.
  Hypothesis Hsin : In hs (states h).
  Hypothesis Hein : In he (states h).

  Let ren := mkren g h.

  Lemma copied_keys_fresh : NoDup (map key (g_arcs g ++ map (rarc ren) (g_arcs h))).
  Proof.
    rewrite map_app. apply NoDup_app_intro.
    - apply (wf_keys g Wg).
    - rewrite map_map.
      apply (NoDup_map_inj_in key); [apply (wf_keys h Wh)|].
      intros a b Ha Hb E. unfold key, rarc in *. simpl in E. inv E.
      destruct (wf_arcs h Wh a Ha), (wf_arcs h Wh b Hb).
      f_equal; eapply rho_inj; eauto.
    - intros k H1 H2. apply in_map_iff in H1. destruct H1 as (a & <- & Ha).
      rewrite map_map in H2. apply in_map_iff in H2. destruct H2 as (b & Hb1 & Hb2).
      unfold key, rarc in Hb1. simpl in Hb1. inv Hb1.
      destruct (wf_arcs g Wg a Ha) as [Hs1 _]. apply (wf_fresh g Wg) in Hs1.
      destruct (wf_arcs h Wh b Hb2) as [Hs2 _]. apply (rho_range g h) in Hs2.
      fold ren in Hs2. lia.
  Qed.

  Lemma out_arcs_copied : 
    filter (out_of x) (g_arcs g ++ map (rarc ren) (g_arcs h)) = filter (out_of x) (g_arcs g).
  Proof.
    rewrite filter_app.
    assert (E : filter (out_of x) (map (rarc ren) (g_arcs h)) = []).
    { assert (H : forall a, In a (g_arcs h) -> out_of x (rarc ren a) = false).
      { intros a Ha. unfold out_of, rarc. simpl. apply Nat.eqb_neq.
        destruct (wf_arcs h Wh a Ha) as [H1 _]. apply (rho_range g h) in H1.
        apply (wf_fresh g Wg) in Hx. fold ren in H1. lia. }
      clear -H. induction (g_arcs h) as [|a l IH]; simpl; [reflexivity|].
      rewrite H by now left. apply IH. intros; apply H; now right. }
    rewrite E, app_nil_r. reflexivity.
  Qed.

  Lemma in_arcs_copied : 
    filter (into x) (g_arcs g ++ map (rarc ren) (g_arcs h)) = filter (into x) (g_arcs g).
  Proof.
    rewrite filter_app.
    assert (E : filter (into x) (map (rarc ren) (g_arcs h)) = []).
    { assert (H : forall a, In a (g_arcs h) -> into x (rarc ren a) = false).
      { intros a Ha. unfold into, rarc. simpl. apply Nat.eqb_neq.
        destruct (wf_arcs h Wh a Ha) as [_ H1]. apply (rho_range g h) in H1.
        apply (wf_fresh g Wg) in Hx. fold ren in H1. lia. }
      clear -H. induction (g_arcs h) as [|a l IH]; simpl; [reflexivity|].
      rewrite H by now left. apply IH. intros; apply H; now right. }
    rewrite E, app_nil_r. reflexivity.
  Qed.

  (** With a self-loop on the replaced state, KeyError. *)
  Lemma replace_self_loop a :
    In a (g_arcs g) -> a_start a = x -> a_end a = x ->
    replace_state g x h = Err KeyError.
  Proof.
    intros Ha H1 H2. unfold replace_state. rewrite copy_states_eq.
    fold ren.
    change (combine (map fst (g_states h)) (seq (g_count g) (length (g_states h)))) with ren.
    rewrite copy_arcs_eq.
    2:{ intros b Hb. unfold ren. rewrite mkren_dom. apply (wf_arcs h Wh b Hb). }
    simpl bindr at 1. unfold with_arcs at 1 2 3. unfold out_arcs, in_arcs.
    simpl g_arcs.
    rewrite fold_arc_add_fresh by apply copied_keys_fresh.
    change (filter (fun a0 => Nat.eqb (a_start a0) x)) with (filter (out_of x)).
    change (filter (fun a0 => Nat.eqb (a_end a0) x)) with (filter (into x)).
    rewrite out_arcs_copied, in_arcs_copied.
    rewrite (reroute_eq ren h _ _ hs he Hs He)
      by (unfold ren; rewrite mkren_dom; assumption).
    simpl bindr at 1.
    match goal with |- bindr (foldM arc_remove ?d ?l) _ = _ =>
      assert (E : exists e, foldM arc_remove d l = Err e) end.
    { assert (Hi1 : In a (filter (out_of x) (g_arcs g))).
      { apply filter_In. split; auto. unfold out_of. now apply Nat.eqb_eq. }
      assert (Hi2 : In a (filter (into x) (g_arcs g))).
      { apply filter_In. split; auto. unfold into. now apply Nat.eqb_eq. }
      apply in_split in Hi1. destruct Hi1 as (l1 & l2 & ->).
      apply in_split in Hi2. destruct Hi2 as (l3 & l4 & ->).
      rewrite <- app_assoc. simpl. rewrite app_assoc.
      apply arc_remove_dup. }
    destruct E as (e & E). rewrite E. simpl. f_equal. eapply arc_remove_err; eauto.
  Qed.

  Hypothesis Hloop : no_self_loop g x.

  Lemma all_new_keys_fresh :
    NoDup (map key ((g_arcs g ++ map (rarc ren) (g_arcs h)) ++
      map (fun a => Arc (rho ren he) (a_end a) (a_weight a)) (filter (out_of x) (g_arcs g)) ++
      map (fun a => Arc (a_start a) (rho ren hs) (a_weight a)) (filter (into x) (g_arcs g)))).
  Proof.
    pose proof (rho_range g h he Hein) as Re. pose proof (rho_range g h hs Hsin) as Rs.
    fold ren in Re, Rs.
    rewrite map_app. apply NoDup_app_intro; [apply copied_keys_fresh| |].
    - rewrite map_app, !map_map. apply NoDup_app_intro.
      + apply (NoDup_map_inj_in key).
        * apply NoDup_map_filter. apply (wf_keys g Wg).
        * intros a b Ha Hb E. unfold key in *. simpl in E. inv E.
          apply filter_In in Ha. apply filter_In in Hb.
          destruct Ha as [_ Ha], Hb as [_ Hb]. unfold out_of in *.
          apply Nat.eqb_eq in Ha. apply Nat.eqb_eq in Hb. congruence.
      + apply (NoDup_map_inj_in key).
        * apply NoDup_map_filter. apply (wf_keys g Wg).
        * intros a b Ha Hb E. unfold key in *. simpl in E. inv E.
          apply filter_In in Ha. apply filter_In in Hb.
          destruct Ha as [_ Ha], Hb as [_ Hb]. unfold into in *.
          apply Nat.eqb_eq in Ha. apply Nat.eqb_eq in Hb. congruence.
      + intros k H1 H2. apply in_map_iff in H1. destruct H1 as (a & <- & Ha).
        apply in_map_iff in H2. destruct H2 as (b & Hb1 & Hb2).
        unfold key in Hb1. simpl in Hb1. inv Hb1.
        apply filter_In in Hb2. destruct Hb2 as [Hb2 _].
        destruct (wf_arcs g Wg b Hb2) as [Hlt _]. apply (wf_fresh g Wg) in Hlt. lia.
    - intros k H1 H2. apply in_map_iff in H1. destruct H1 as (a & <- & Ha).
      rewrite map_app, in_app_iff, !map_map in H2.
      assert (Hold : forall b, In b (g_arcs g) ->
                (a_start b < g_count g)%nat /\ (a_end b < g_count g)%nat).
      { intros b Hb. destruct (wf_arcs g Wg b Hb). split; apply (wf_fresh g Wg); auto. }
      apply in_app_iff in Ha.
      destruct H2 as [H2|H2]; apply in_map_iff in H2; destruct H2 as (b & Hb1 & Hb2);
        apply filter_In in Hb2; destruct Hb2 as [Hb2 _];
        unfold key in Hb1; simpl in Hb1; inversion Hb1 as [[E1 E2]]; clear Hb1;
        specialize (Hold b Hb2) as Hob; destruct Ha as [Ha|Ha].
      + specialize (Hold a Ha). lia.
      + apply in_map_iff in Ha. destruct Ha as (c & <- & Hc). simpl in *.
        destruct (wf_arcs h Wh c Hc) as [_ Hce]. apply (rho_range g h) in Hce.
        fold ren in Hce. lia.
      + specialize (Hold a Ha). lia.
      + apply in_map_iff in Ha. destruct Ha as (c & <- & Hc). simpl in *.
        destruct (wf_arcs h Wh c Hc) as [Hcs _]. apply (rho_range g h) in Hcs.
        fold ren in Hcs. lia.
  Qed.

  Lemma deleted_keys_nodup :
    NoDup (map key (filter (out_of x) (g_arcs g) ++ filter (into x) (g_arcs g))).
  Proof.
    rewrite map_app. apply NoDup_app_intro.
    - apply NoDup_map_filter. apply (wf_keys g Wg).
    - apply NoDup_map_filter. apply (wf_keys g Wg).
    - intros k H1 H2. apply in_map_iff in H1. destruct H1 as (a & <- & Ha).
      apply in_map_iff in H2. destruct H2 as (b & Hb1 & Hb2).
      apply filter_In in Ha. apply filter_In in Hb2.
      destruct Ha as [Ha1 Ha2], Hb2 as [Hb2 Hb3].
      unfold out_of in Ha2. unfold into in Hb3. apply Nat.eqb_eq in Ha2. apply Nat.eqb_eq in Hb3.
      unfold key in Hb1. inv Hb1. apply (Hloop a Ha1). split; congruence.
  Qed.

  Lemma filter_all_true {A} (p : A -> bool) l : (forall a, In a l -> p a = true) -> filter p l = l.
  Proof.
    induction l as [|a l IH]; simpl; intros H; [reflexivity|].
    rewrite H by now left. f_equal. apply IH. intros; apply H; now right.
  Qed.

  Lemma replace_state_eq : replace_state g x h = Ok (replaced g h x hs he).
  Proof.
    pose proof (rho_range g h he Hein) as Re. pose proof (rho_range g h hs Hsin) as Rs.
    fold ren in Re, Rs.
    unfold replace_state. rewrite copy_states_eq.
    change (combine (map fst (g_states h)) (seq (g_count g) (length (g_states h)))) with ren.
    rewrite copy_arcs_eq.
    2:{ intros b Hb. unfold ren. rewrite mkren_dom. apply (wf_arcs h Wh b Hb). }
    simpl bindr at 1. unfold with_arcs at 1 2 3. unfold out_arcs, in_arcs.
    simpl g_arcs.
    rewrite fold_arc_add_fresh by apply copied_keys_fresh.
    change (filter (fun a0 => Nat.eqb (a_start a0) x)) with (filter (out_of x)).
    change (filter (fun a0 => Nat.eqb (a_end a0) x)) with (filter (into x)).
    rewrite out_arcs_copied, in_arcs_copied.
    rewrite (reroute_eq ren h _ _ hs he Hs He)
      by (unfold ren; rewrite mkren_dom; assumption).
    simpl bindr at 1.
    rewrite fold_arc_add_fresh by apply all_new_keys_fresh.
    rewrite arc_remove_all.
    - simpl bindr. unfold del_state, with_arcs, pdf_of. simpl g_states.
      destruct (in_states_pdf g x Hx) as (o & Ho). unfold pdf_of in Ho.
      assert (El : forall (l2 : list (nat * option nat)), lookup x (g_states g ++ l2) = Some o).
      { intros l2. revert Ho. induction (g_states g) as [|[k v] l IH]; simpl; [discriminate|].
        destruct (Nat.eqb x k); auto. }
      rewrite El. unfold replaced. simpl. f_equal. f_equal.
      + rewrite filter_app. f_equal. apply filter_all_true.
        intros [s p] Hin. simpl. apply in_combine_l in Hin. apply in_seq in Hin.
        apply negb_true_iff. apply Nat.eqb_neq. apply (wf_fresh g Wg) in Hx. lia.
      + unfold replaced_arcs. rewrite !filter_app, <- !app_assoc. fold ren.
        assert (Hdel : forall b, existsb (same_key b)
                   (filter (out_of x) (g_arcs g) ++ filter (into x) (g_arcs g)) = true ->
                   out_of x b || into x b = true).
        { intros b Hb. apply existsb_key in Hb. apply in_map_iff in Hb.
          destruct Hb as (c & Hc1 & Hc2). unfold key in Hc1. inversion Hc1 as [[E1 E2]].
          apply in_app_iff in Hc2. apply orb_true_iff. unfold out_of, into in *.
          destruct Hc2 as [Hc2|Hc2]; apply filter_In in Hc2; destruct Hc2 as [_ Hc2].
          - left. congruence.
          - right. congruence. }
        f_equal; [|f_equal; [|f_equal]].
        * apply filter_ext_in. intros b Hb. f_equal.
          destruct (out_of x b || into x b) eqn:E.
          -- apply existsb_key. apply in_map. apply in_app_iff.
             apply orb_true_iff in E. destruct E as [E|E]; [left|right]; apply filter_In; auto.
          -- apply not_true_iff_false. intros Hc. apply Hdel in Hc. congruence.
        * apply filter_all_true. intros b Hb. apply in_map_iff in Hb.
          destruct Hb as (c & <- & Hc). apply negb_true_iff. apply not_true_iff_false.
          intros Hd. apply Hdel in Hd. destruct (wf_arcs h Wh c Hc) as [Hc1 Hc2].
          apply (rho_range g h) in Hc1. apply (rho_range g h) in Hc2. fold ren in Hc1, Hc2.
          apply (wf_fresh g Wg) in Hx. unfold out_of, into, rarc in Hd. simpl in Hd.
          apply orb_true_iff in Hd. rewrite !Nat.eqb_eq in Hd. lia.
        * apply filter_all_true. intros b Hb. apply in_map_iff in Hb.
          destruct Hb as (c & <- & Hc). apply negb_true_iff. apply not_true_iff_false.
          intros Hd. apply Hdel in Hd. apply filter_In in Hc. destruct Hc as [Hc1 Hc2].
          unfold out_of in Hc2. apply Nat.eqb_eq in Hc2.
          apply (wf_fresh g Wg) in Hx. unfold out_of, into in Hd. simpl in Hd.
          apply orb_true_iff in Hd. rewrite !Nat.eqb_eq in Hd.
          destruct Hd as [Hd|Hd]; [lia|]. apply (Hloop c Hc1). auto.
        * apply filter_all_true. intros b Hb. apply in_map_iff in Hb.
          destruct Hb as (c & <- & Hc). apply negb_true_iff. apply not_true_iff_false.
          intros Hd. apply Hdel in Hd. apply filter_In in Hc. destruct Hc as [Hc1 Hc2].
          unfold into in Hc2. apply Nat.eqb_eq in Hc2.
          apply (wf_fresh g Wg) in Hx. unfold out_of, into in Hd. simpl in Hd.
          apply orb_true_iff in Hd. rewrite !Nat.eqb_eq in Hd.
          destruct Hd as [Hd|Hd]; [|lia]. apply (Hloop c Hc1). auto.
    - apply deleted_keys_nodup.
    - intros a Ha. apply in_map. apply in_app_iff. left. apply in_app_iff. left.
      apply in_app_iff in Ha. destruct Ha as [Ha|Ha]; apply filter_In in Ha; tauto.
  Qed.

  Lemma in_replaced_states s o :
    In (s, o) (g_states (replaced g h x hs he)) <->
    (In (s, o) (g_states g) /\ s <> x) \/
    (exists t, In (t, o) (g_states h) /\ s = rho ren t).
  Proof.
    simpl. rewrite in_app_iff, filter_In. simpl. rewrite negb_true_iff, Nat.eqb_neq.
    split.
    - intros [H|H]; [now left|]. right. apply copied_states_inv in H; [exact H|apply Wh].
    - intros [H|(t & H1 & ->)]; [now left|]. right. apply copied_states; auto. apply Wh.
  Qed.

  Lemma in_replaced_arcs a :
    In a (g_arcs (replaced g h x hs he)) <->
    (In a (g_arcs g) /\ a_start a <> x /\ a_end a <> x) \/
    (exists b, In b (g_arcs h) /\ a = rarc ren b) \/
    (exists b, In b (g_arcs g) /\ a_start b = x /\ a = Arc (rho ren he) (a_end b) (a_weight b)) \/
    (exists b, In b (g_arcs g) /\ a_end b = x /\ a = Arc (a_start b) (rho ren hs) (a_weight b)).
  Proof.
    simpl. unfold replaced_arcs. rewrite !in_app_iff, !in_map_iff, filter_In.
    rewrite negb_true_iff, orb_false_iff. unfold out_of at 1, into at 1. rewrite !Nat.eqb_neq.
    fold ren.
    split.
    - intros [H|[H|[H|H]]].
      + left. tauto.
      + right. left. destruct H as (b & <- & H). eauto.
      + right. right. left. destruct H as (b & <- & H). apply filter_In in H.
        destruct H as [H1 H2]. apply Nat.eqb_eq in H2. eauto.
      + right. right. right. destruct H as (b & <- & H). apply filter_In in H.
        destruct H as [H1 H2]. apply Nat.eqb_eq in H2. eauto.
    - intros [H|[H|[H|H]]].
      + left. tauto.
      + right. left. destruct H as (b & H & ->). eauto.
      + right. right. left. destruct H as (b & H1 & H2 & ->). exists b. split; auto.
        apply filter_In. split; auto. now apply Nat.eqb_eq.
      + right. right. right. destruct H as (b & H1 & H2 & ->). exists b. split; auto.
        apply filter_In. split; auto. now apply Nat.eqb_eq.
  Qed.

  Lemma replaced_wf : wf (replaced g h x hs he).
  Proof.
    assert (Hstates : forall s, In s (states (replaced g h x hs he)) <->
              (In s (states g) /\ s <> x) \/ (exists t, In t (states h) /\ s = rho ren t)).
    { intros s. rewrite in_states_iff. split.
      - intros (o & H). apply in_replaced_states in H. destruct H as [[H1 H2]|(t & H1 & H2)].
        + left. split; auto. apply in_states_iff; eauto.
        + right. exists t. split; auto. apply in_states_iff; eauto.
      - intros [[H1 H2]|(t & H1 & H2)].
        + apply in_states_iff in H1. destruct H1 as (o & H1). exists o.
          apply in_replaced_states. now left.
        + apply in_states_iff in H1. destruct H1 as (o & H1). exists o.
          apply in_replaced_states. right. eauto. }
    constructor.
    - unfold states. simpl. rewrite map_app. apply NoDup_app_intro.
      + apply NoDup_map_filter. apply (wf_nodup g Wg).
      + rewrite combine_map_fst by now rewrite seq_length, map_length. apply seq_NoDup.
      + intros s H1 H2. rewrite combine_map_fst in H2 by now rewrite seq_length, map_length.
        apply in_seq in H2. apply in_map_iff in H1. destruct H1 as ([s' o] & H3 & H4).
        simpl in H3. subst s'. apply filter_In in H4. destruct H4 as [H4 _].
        assert (In s (states g)) by (apply in_states_iff; eauto).
        apply (wf_fresh g Wg) in H. lia.
    - intros s H. apply Hstates in H. simpl. destruct H as [[H _]|(t & H & ->)].
      + apply (wf_fresh g Wg) in H. lia.
      + apply (rho_range g h) in H. fold ren in H. lia.
    - intros a Ha. apply in_replaced_arcs in Ha. rewrite !Hstates.
      destruct Ha as [(H1 & H2 & H3)|[(b & H1 & ->)|[(b & H1 & H2 & ->)|(b & H1 & H2 & ->)]]].
      + destruct (wf_arcs g Wg a H1). tauto.
      + destruct (wf_arcs h Wh b H1). simpl. split; right; eauto.
      + destruct (wf_arcs g Wg b H1) as [H3 H4]. simpl. split.
        * right. eauto.
        * left. split; auto. intros E. apply (Hloop b H1). auto.
      + destruct (wf_arcs g Wg b H1) as [H3 H4]. simpl. split.
        * left. split; auto. intros E. apply (Hloop b H1). auto.
        * right. eauto.
    - pose proof all_new_keys_fresh as H. rewrite <- app_assoc in H.
      simpl. unfold replaced_arcs. fold ren.
      rewrite map_app in H |- *.
      apply NoDup_app_intro.
      + apply NoDup_map_filter. apply (wf_keys g Wg).
      + eapply NoDup_app_r; eauto.
      + intros k H1 H2.
        assert (H3 : In k (map key (g_arcs g))).
        { apply in_map_iff in H1. destruct H1 as (a & Ha1 & Ha2). apply filter_In in Ha2.
          apply in_map_iff. exists a. tauto. }
        clear -H H2 H3. induction (map key (g_arcs g)) as [|y l IH]; [contradiction|].
        simpl in H. inversion_clear H as [|? ? Hy H']. destruct H3 as [->|H3]; [|auto].
        apply Hy. apply in_app_iff. now right.
  Qed.
End Replace.
