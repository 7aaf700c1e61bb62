(** C03, C04, C05: epsilon following and compilation. *)
From Coq Require Import Reals List Lra Lia Arith Bool Permutation.
From Verif Require Import Prelude Graph_Model Graph_Spec Graph_Proofs Graph_Hist.
Import ListNotations.
Local Open Scope R_scope.

(** ** Termination *)
Lemma filter_length_le {A} (p : A -> bool) l : (length (filter p l) <= length l)%nat.
Proof. induction l as [|a l IH]; simpl; [lia|]. destruct (p a); simpl; lia. Qed.

Definition pending (fwd : bool) (arcs : list arc) (visited : list nat) : nat :=
  length (filter (fun a => negb (mem (src fwd a) visited)) arcs).

Lemma arcs_of_filter fwd g d :
  arcs_of fwd g d = filter (fun a => Nat.eqb (src fwd a) d) (g_arcs g).
Proof. destruct fwd; reflexivity. Qed.

Lemma pending_step fwd arcs visited d :
  ~ In d visited ->
  (length (filter (fun a => Nat.eqb (src fwd a) d) arcs) + pending fwd arcs (d :: visited)
   = pending fwd arcs visited)%nat.
Proof.
  intros Hd. unfold pending. induction arcs as [|a arcs IH]; [reflexivity|]. cbn [filter].
  change (mem (src fwd a) (d :: visited)) with (Nat.eqb (src fwd a) d || mem (src fwd a) visited).
  destruct (Nat.eqb (src fwd a) d) eqn:E; cbn [orb negb length].
  - apply Nat.eqb_eq in E. apply mem_false in Hd.
    rewrite E, Hd. cbn [negb length]. lia.
  - destruct (mem (src fwd a) visited); cbn [negb length]; lia.
Qed.

Lemma explore_terminates fwd g : forall fuel stack visited,
  (length stack + pending fwd (g_arcs g) visited < fuel)%nat ->
  exists r, explore fuel fwd g stack visited = Some r.
Proof.
  induction fuel as [|fuel IH]; intros stack visited H; [lia|].
  simpl. destruct stack as [|[a w] rest]; [eauto|]. simpl in H.
  destruct (pdf_of g (dest fwd a)) as [[p|]|]; [|  |eauto].
  - destruct (IH rest visited) as (r & ->); [lia|]. destruct r; eauto.
  - destruct (mem (dest fwd a) visited) eqn:E.
    + apply IH. lia.
    + apply IH. rewrite app_length, rev_length, map_length, arcs_of_filter.
      apply mem_false in E. pose proof (pending_step fwd (g_arcs g) visited _ E). lia.
Qed.

Lemma find_terminates fwd g s w : exists r, find_pdf_ids fwd g s w = Some r.
Proof.
  unfold find_pdf_ids. apply explore_terminates. rewrite rev_length, map_length.
  destruct s as [x|].
  - rewrite arcs_of_filter. pose proof (pending_step fwd (g_arcs g) [] x (fun H => H)) as H.
    assert (pending fwd (g_arcs g) [] <= length (g_arcs g))%nat.
    { unfold pending. apply filter_length_le. } lia.
  - assert (pending fwd (g_arcs g) [] <= length (g_arcs g))%nat.
    { unfold pending. apply filter_length_le. } lia.
Qed.

(** ** Success, soundness, completeness *)
Definition live fwd g (a : arc) := In a (g_arcs g) /\ In (dest fwd a) (states g).

Lemma arcs_of_in fwd g d a : In a (arcs_of fwd g d) <-> In a (g_arcs g) /\ src fwd a = d.
Proof. rewrite arcs_of_filter, filter_In, Nat.eqb_eq. tauto. Qed.

Lemma wf_live fwd g a : wf g -> In a (g_arcs g) -> live fwd g a.
Proof.
  intros W Ha. split; auto. destruct (wf_arcs g W a Ha). destruct fwd; auto.
Qed.

Lemma explore_ok fwd g : wf g -> forall fuel stack visited r,
  (forall a w, In (a, w) stack -> In a (g_arcs g)) ->
  explore fuel fwd g stack visited = Some r -> exists l, r = Ok l.
Proof.
  intros W. induction fuel as [|fuel IH]; intros stack visited r Hst H; [discriminate|].
  simpl in H. destruct stack as [|[a w] rest]; [inv H; eauto|].
  assert (Ha : In a (g_arcs g)) by (eapply Hst; now left).
  destruct (wf_live fwd g a W Ha) as [_ Hd]. apply in_states_pdf in Hd. destruct Hd as (o & Ho).
  rewrite Ho in H.
  assert (Hrest : forall a w, In (a, w) rest -> In a (g_arcs g)).
  { intros b v Hb. eapply Hst. right. exact Hb. }
  destruct o as [p|].
  - destruct (explore fuel fwd g rest visited) as [r'|] eqn:E; [|discriminate].
    destruct (IH _ _ _ Hrest E) as (l & ->). inv H. eauto.
  - destruct (mem (dest fwd a) visited); [eapply IH; eauto|].
    eapply IH; [|exact H]. intros b v Hb. apply in_app_iff in Hb. destruct Hb as [Hb|Hb]; eauto.
    rewrite <- in_rev, in_map_iff in Hb. destruct Hb as (c & E & Hc). inv E.
    apply arcs_of_in in Hc. tauto.
Qed.

Lemma explore_sound fwd g (P : nat -> Prop) : NoDup (states g) ->
  (forall x y, P x -> step fwd g x y -> non_emitting g y -> P y) ->
  forall fuel stack visited l,
  (forall a w, In (a, w) stack -> In a (g_arcs g) /\ P (src fwd a)) ->
  explore fuel fwd g stack visited = Some (Ok l) ->
  forall t w, In (t, w) l -> is_emitting g t /\ exists x, P x /\ step fwd g x t.
Proof.
  intros Hnd HP. induction fuel as [|fuel IH]; intros stack visited l Hst H; [discriminate|].
  simpl in H. destruct stack as [|[a w] rest]; [inv H; simpl; tauto|].
  destruct (Hst a w) as [Ha HPa]; [now left|].
  assert (Hrest : forall a w, In (a, w) rest -> In a (g_arcs g) /\ P (src fwd a)).
  { intros b v Hb. eapply Hst. right. exact Hb. }
  assert (Hstep : step fwd g (src fwd a) (dest fwd a)).
  { exists a. split; auto. destruct fwd; simpl; auto. }
  destruct (pdf_of g (dest fwd a)) as [[p|]|] eqn:Ep; [| |discriminate].
  - destruct (explore fuel fwd g rest visited) as [[l'|]|] eqn:E; inv H.
    intros t v [Ht|Ht]; [inv Ht|eapply IH; eauto].
    split; [|eauto]. exists p. now apply pdf_of_in.
  - apply pdf_of_in in Ep; auto.
    destruct (mem (dest fwd a) visited); [eapply IH; eauto|].
    eapply IH; [|exact H]. intros b v Hb. apply in_app_iff in Hb. destruct Hb as [Hb|Hb]; eauto.
    rewrite <- in_rev, in_map_iff in Hb. destruct Hb as (c & E & Hc). inv E.
    apply arcs_of_in in Hc. destruct Hc as [Hc1 Hc2]. split; auto. rewrite Hc2. eapply HP; eauto.
Qed.

Lemma explore_complete fwd g : NoDup (states g) -> forall fuel stack visited l,
  explore fuel fwd g stack visited = Some (Ok l) ->
  exists V, incl visited V /\
    let processed a :=
      (is_emitting g (dest fwd a) -> In (dest fwd a) (map fst l)) /\
      (non_emitting g (dest fwd a) -> In (dest fwd a) V) in
    (forall a w, In (a, w) stack -> processed a) /\
    (forall x a, In x V -> ~ In x visited -> In a (arcs_of fwd g x) -> processed a).
Proof.
  intros Hnd. induction fuel as [|fuel IH]; intros stack visited l H; [discriminate|].
  simpl in H. destruct stack as [|[a w] rest].
  - inv H. exists visited. split; [apply incl_refl|]. simpl. split; tauto.
  - destruct (pdf_of g (dest fwd a)) as [[p|]|] eqn:Ep; [| |discriminate].
    + apply pdf_of_in in Ep; auto.
      destruct (explore fuel fwd g rest visited) as [[l'|]|] eqn:E; inv H.
      destruct (IH _ _ _ E) as (V & HV & H1 & H2). exists V. split; auto. simpl. split.
      * intros b v [Hb|Hb].
        -- inv Hb. split; [now left|]. intros Hn. exfalso.
           assert (Some p = None); [|discriminate].
           apply (pdf_of_in g _ _ Hnd) in Ep. apply (pdf_of_in g _ _ Hnd) in Hn. congruence.
        -- destruct (H1 b v Hb). split; auto.
      * intros x b Hx Hx' Hb. destruct (H2 x b Hx Hx' Hb). split; auto.
    + apply pdf_of_in in Ep; auto.
      assert (Hne : is_emitting g (dest fwd a) -> False).
      { intros (p & Hp). apply (pdf_of_in g _ _ Hnd) in Ep. apply (pdf_of_in g _ _ Hnd) in Hp.
        congruence. }
      destruct (mem (dest fwd a) visited) eqn:Em.
      * destruct (IH _ _ _ H) as (V & HV & H1 & H2). exists V. split; auto. simpl. split.
        -- intros b v [Hb|Hb]; [|eauto]. inv Hb. split; [tauto|]. intros _. apply HV.
           now apply mem_in.
        -- auto.
      * destruct (IH _ _ _ H) as (V & HV & H1 & H2). exists V. split; [|simpl; split].
        -- intros y Hy. apply HV. now right.
        -- intros b v [Hb|Hb].
           ++ inv Hb. split; [tauto|]. intros _. apply HV. now left.
           ++ eapply H1. apply in_app_iff. right. exact Hb.
        -- intros x b Hx Hx' Hb. destruct (Nat.eq_dec x (dest fwd a)) as [->|Hd].
           ++ eapply H1. apply in_app_iff. left. rewrite <- in_rev. apply in_map_iff.
              exists b. split; [reflexivity|exact Hb].
           ++ eapply H2; eauto. simpl. intuition.
Qed.

Lemma find_ok fwd g s w : wf g ->
  exists l, find_pdf_ids fwd g s w = Some (Ok l) /\ forall t v, In (t, v) l -> is_emitting g t.
Proof.
  intros W. destruct (find_terminates fwd g s w) as (r & Hr).
  assert (Hst : forall a v, In (a, v) (rev (map (fun a => (a, w))
     match s with Some x => arcs_of fwd g x | None => g_arcs g end)) -> In a (g_arcs g)).
  { intros a v H. rewrite <- in_rev, in_map_iff in H. destruct H as (b & E & Hb). inv E.
    destruct s; auto. apply arcs_of_in in Hb. tauto. }
  unfold find_pdf_ids in *.
  destruct (explore_ok fwd g W _ _ _ _ Hst Hr) as (l & ->).
  exists l. split; auto. intros t v Ht.
  destruct (explore_sound fwd g (fun _ => True) (wf_nodup g W) (fun _ _ _ _ _ => I)
              _ _ _ l (fun a v H => conj (Hst a v H) I) Hr t v Ht) as [H _]. exact H.
Qed.

Lemma find_exact fwd g s w l : wf g ->
  find_pdf_ids fwd g (Some s) w = Some (Ok l) ->
  forall t, In t (map fst l) <-> next_emitting fwd g s t.
Proof.
  intros W H t. pose proof (wf_nodup g W) as Hnd. split.
  - intros Ht. apply in_map_iff in Ht. destruct Ht as ([t' v] & E & Ht). simpl in E. subst t'.
    destruct (explore_sound fwd g (eps_reach fwd g s) Hnd) with (3 := H) (t := t) (w := v)
      as [H1 (x & H2 & H3)]; auto.
    + intros x y Hx Hst Hn. eapply er_step; eauto.
    + intros a u Ha. rewrite <- in_rev, in_map_iff in Ha. destruct Ha as (b & E & Hb). inv E.
      apply arcs_of_in in Hb. destruct Hb as [Hb <-]. split; auto. constructor.
    + exists x. auto.
  - intros (x & Hr & (a & Ha & Hd) & Hem).
    destruct (explore_complete fwd g Hnd _ _ _ _ H) as (V & HV & H1 & H2).
    assert (Hproc : forall y, eps_reach fwd g s y -> In y V).
    { induction 1 as [|y z Hy IHy (b & Hb & Hbd) Hn].
      - apply HV. now left.
      - assert (Hz : z = dest fwd b) by (destruct fwd; simpl; intuition).
        assert (Hbin : In b (arcs_of fwd g y)).
        { apply arcs_of_in. split; auto. destruct fwd; simpl; intuition. }
        rewrite Hz in *. destruct (Nat.eq_dec y s) as [->|Hys].
        + refine (proj2 (H1 b w _) Hn). rewrite <- in_rev. apply in_map_iff. eauto.
        + refine (proj2 (H2 y b IHy _ Hbin) Hn). simpl. intuition. }
    assert (Ht : t = dest fwd a) by (destruct fwd; simpl; intuition).
    assert (Hbin : In a (arcs_of fwd g x)).
    { apply arcs_of_in. split; auto. destruct fwd; simpl; intuition. }
    rewrite Ht in *. destruct (Nat.eq_dec x s) as [->|Hys].
    + refine (proj1 (H1 a w _) Hem). rewrite <- in_rev. apply in_map_iff. eauto.
    + refine (proj1 (H2 x a (Hproc x Hr) _ Hbin) Hem). simpl. intuition.
Qed.

(** Unset start/end state: every emitting target of any arc. *)
Lemma find_exact_unset fwd g w l : wf g ->
  find_pdf_ids fwd g None w = Some (Ok l) ->
  forall t, In t (map fst l) <-> is_emitting g t /\ exists x, step fwd g x t.
Proof.
  intros W H t. pose proof (wf_nodup g W) as Hnd. split.
  - intros Ht. apply in_map_iff in Ht. destruct Ht as ([t' v] & E & Ht). simpl in E. subst t'.
    destruct (explore_sound fwd g (fun _ => True) Hnd) with (3 := H) (t := t) (w := v)
      as [H1 (x & H2 & H3)]; eauto.
    intros a u Ha. rewrite <- in_rev, in_map_iff in Ha. destruct Ha as (b & E & Hb). inv E. auto.
  - intros (Hem & x & a & Ha & Hd).
    destruct (explore_complete fwd g Hnd _ _ _ _ H) as (V & HV & H1 & H2).
    assert (Ht : t = dest fwd a) by (destruct fwd; simpl; intuition).
    rewrite Ht in *. refine (proj1 (H1 a w _) Hem). rewrite <- in_rev. apply in_map_iff. eauto.
Qed.

(** ** Indices of the emitting states *)
Lemma index_of_in s l : In s (map fst l) -> exists i, index_of s l = Some i /\ (i < length l)%nat.
Proof.
  induction l as [|[x p] l IH]; simpl; [tauto|]. intros H.
  destruct (Nat.eqb s x) eqn:E; [exists O; split; [auto|lia]|].
  apply Nat.eqb_neq in E. destruct H as [H|H]; [congruence|].
  destruct (IH H) as (i & -> & Hi). exists (S i). simpl. split; [auto|lia].
Qed.

Lemma index_of_nth l : forall s i, index_of s l = Some i -> exists p, nth_error l i = Some (s, p).
Proof.
  induction l as [|[x p] l IH]; simpl; [discriminate|]. intros s i H.
  destruct (Nat.eqb s x) eqn:E.
  - apply Nat.eqb_eq in E. inv H. simpl. eauto.
  - destruct (index_of s l) as [k|] eqn:Ek; [|discriminate]. inv H. simpl. apply IH. exact Ek.
Qed.

Lemma index_of_inj l s t i : index_of s l = Some i -> index_of t l = Some i -> s = t.
Proof.
  intros H1 H2. apply index_of_nth in H1. apply index_of_nth in H2.
  destruct H1 as (p & H1), H2 as (q & H2). congruence.
Qed.

Lemma emitting_in g s : is_emitting g s <-> In s (map fst (emitting g)).
Proof.
  unfold emitting. rewrite in_map_iff. split.
  - intros (p & Hp). exists (s, p). split; auto. apply in_flat_map. exists (s, Some p).
    split; auto. simpl. auto.
  - intros ([s' p] & <- & H). apply in_flat_map in H. destruct H as ([y [q|]] & H1 & H2);
    simpl in H2; [|tauto]. destruct H2 as [H2|[]]. inv H2. exists p. exact H1.
Qed.

Lemma state2pdf_em g s : is_emitting g s ->
  exists i, state2pdf g s = Some i /\ (i < length (emitting g))%nat.
Proof. intros H. apply emitting_in in H. unfold state2pdf. now apply index_of_in. Qed.

Lemma state2pdf_inj g s t i : state2pdf g s = Some i -> state2pdf g t = Some i -> s = t.
Proof. unfold state2pdf. apply index_of_inj. Qed.

(** "index of t is l" as a boolean. *)
Definition at_idx (g : graph) (t l : nat) : bool :=
  match state2pdf g t with Some i => Nat.eqb l i | None => false end.

(** ** Accumulation into vectors and matrices *)
Lemma acc_vec_eq g l : (forall t v, In (t, v) l -> is_emitting g t) ->
  exists u, acc_vec g l = Ok u /\
    forall k, u k = sumf (fun x => if at_idx g (fst x) k then snd x else 0) l.
Proof.
  unfold acc_vec. intros H.
  assert (G : forall v0, exists u, foldM (fun v x => match state2pdf g (fst x) with
                    | Some i => Ok (vec_add v i (snd x))
                    | None => Err KeyError end) l v0 = Ok u /\
    forall k, u k = v0 k + sumf (fun x => if at_idx g (fst x) k then snd x else 0) l).
  { induction l as [|[t w] l IH]; intros v0; simpl.
    - exists v0. split; auto. intros; unfold sumf; simpl; lra.
    - destruct (state2pdf_em g t) as (i & Hi & _); [eapply H; now left|]. rewrite Hi. simpl.
      destruct IH with (v0 := vec_add v0 i w) as (u & Hu & Hu').
      { intros s v Hs. eapply H. right. exact Hs. }
      exists u. split; auto. intros k. rewrite Hu', sumf_cons. simpl. unfold at_idx, vec_add.
      rewrite Hi. destruct (Nat.eqb k i); lra. }
  destruct (G (fun _ => 0)) as (u & Hu & Hu'). exists u. split; auto.
  intros k. rewrite Hu'. lra.
Qed.

Lemma acc_mat_eq g i l : (forall t v, In (t, v) l -> is_emitting g t) ->
  forall m0, exists m,
    foldM (fun m x => match state2pdf g (fst x) with
                      | Some j => Ok (mat_add m i j (snd x))
                      | None => Err KeyError end) l m0 = Ok m /\
    forall k q, m k q = m0 k q +
       sumf (fun x => if Nat.eqb k i && at_idx g (fst x) q then snd x else 0) l.
Proof.
  induction l as [|[t w] l IH]; intros H m0; simpl.
  - exists m0. split; auto. intros; unfold sumf; simpl; lra.
  - destruct (state2pdf_em g t) as (j & Hj & _); [eapply H; now left|]. rewrite Hj. simpl.
    destruct IH with (m0 := mat_add m0 i j w) as (m & Hm & Hm').
    { intros s v Hs. eapply H. right. exact Hs. }
    exists m. split; auto. intros k q. rewrite Hm', sumf_cons. simpl. unfold at_idx, mat_add.
    rewrite Hj. destruct (Nat.eqb k i && Nat.eqb q j); lra.
Qed.

(** Contribution of one arc. *)
Definition follow (g : graph) (a : arc) : list (nat * R) :=
  match pdf_of g (a_end a) with
  | Some None => match find_next_pdf_ids g (Some (a_end a)) (a_weight a) with
                 | Some (Ok l) => l | _ => [] end
  | _ => [(a_end a, a_weight a)]
  end.

Lemma acc_arc_eq g m0 a : wf g -> In a (g_arcs g) ->
  exists m, acc_arc g m0 a = Ok m /\
    forall k q, m k q = m0 k q +
      if at_idx g (a_start a) k
      then sumf (fun x => if at_idx g (fst x) q then snd x else 0) (follow g a) else 0.
Proof.
  intros W Ha. pose proof (wf_nodup g W) as Hnd.
  destruct (wf_arcs g W a Ha) as [Hs He].
  destruct (in_states_pdf g _ Hs) as (o1 & E1). destruct (in_states_pdf g _ He) as (o2 & E2).
  unfold acc_arc, follow. rewrite E1, E2.
  destruct o1 as [p1|].
  2:{ exists m0. split; auto. intros k q. unfold at_idx.
      destruct (state2pdf g (a_start a)) as [i|] eqn:Ei; [|lra]. exfalso.
      assert (Hin : In (a_start a) (map fst (emitting g))).
      { apply index_of_nth in Ei. destruct Ei as (p & Ei). apply nth_error_In in Ei.
        apply (in_map fst) in Ei. exact Ei. }
      apply emitting_in in Hin. destruct Hin as (p & Hp).
      apply (pdf_of_in g _ _ Hnd) in Hp. congruence. }
  assert (Hem1 : is_emitting g (a_start a)) by (exists p1; now apply pdf_of_in).
  destruct (state2pdf_em g _ Hem1) as (i & Ei & _). rewrite Ei. unfold at_idx at 1. rewrite Ei.
  destruct o2 as [p2|].
  - assert (Hem2 : is_emitting g (a_end a)) by (exists p2; now apply pdf_of_in).
    destruct (state2pdf_em g _ Hem2) as (j & Ej & _). rewrite Ej.
    eexists. split; [reflexivity|]. intros k q. unfold mat_add, sumf. simpl. unfold at_idx.
    rewrite ?Ei, Ej. destruct (Nat.eqb k i), (Nat.eqb q j); simpl; lra.
  - unfold find_next_pdf_ids.
    destruct (find_ok true g (Some (a_end a)) (a_weight a) W) as (l & -> & Hl). simpl.
    destruct (acc_mat_eq g i l Hl m0) as (m & Hm & Hm'). exists m. split; auto.
    intros k q. rewrite Hm'.
    destruct (Nat.eqb k i); simpl; [reflexivity|]. rewrite sumf_zero; auto.
Qed.

Lemma raw_trans_eq g : wf g ->
  exists m, raw_trans g = Ok m /\
    forall k q, m k q = sumf (fun a => if at_idx g (a_start a) k
      then sumf (fun x => if at_idx g (fst x) q then snd x else 0) (follow g a) else 0)
      (g_arcs g).
Proof.
  intros W. unfold raw_trans.
  assert (G : forall l m0, incl l (g_arcs g) -> exists m, foldM (acc_arc g) l m0 = Ok m /\
    forall k q, m k q = m0 k q + sumf (fun a => if at_idx g (a_start a) k
      then sumf (fun x => if at_idx g (fst x) q then snd x else 0) (follow g a) else 0) l).
  { induction l as [|a l IH]; intros m0 Hl; simpl.
    - exists m0. split; auto. intros; unfold sumf; simpl; lra.
    - destruct (acc_arc_eq g m0 a W) as (m1 & Hm1 & Hm1'); [apply Hl; now left|].
      rewrite Hm1. simpl. destruct (IH m1) as (m & Hm & Hm').
      { intros b Hb. apply Hl. now right. }
      exists m. split; auto. intros k q. rewrite Hm', Hm1', sumf_cons. lra. }
  destruct (G (g_arcs g) (fun _ _ => 0) (incl_refl _)) as (m & Hm & Hm').
  exists m. split; auto. intros k q. rewrite Hm'. lra.
Qed.

Lemma compile_ok g : wf g -> exists c, compile g = Ok c.
Proof.
  intros W. unfold compile, raw_init, raw_final.
  destruct (find_ok true g (g_start g) 1 W) as (l1 & E1 & H1).
  destruct (find_ok false g (g_end g) 1 W) as (l2 & E2 & H2).
  unfold find_next_pdf_ids, find_previous_pdf_ids. rewrite E1, E2. simpl.
  destruct (acc_vec_eq g l1 H1) as (u1 & -> & _). destruct (acc_vec_eq g l2 H2) as (u2 & -> & _).
  destruct (raw_trans_eq g W) as (m & -> & _). simpl. eauto.
Qed.

(** ** C04, partial: no arc between two non-emitting states *)
Lemma explore_emitting fwd g : forall stack fuel visited,
  (length stack < fuel)%nat ->
  NoDup (states g) ->
  (forall a w, In (a, w) stack -> is_emitting g (dest fwd a)) ->
  explore fuel fwd g stack visited =
  Some (Ok (map (fun x => (dest fwd (fst x), snd x * a_weight (fst x))) stack)).
Proof.
  induction stack as [|[a w] stack IH]; intros [|fuel] visited Hf Hnd H; simpl in *; try lia;
    [reflexivity|].
  destruct (H a w) as (p & Hp); [now left|]. apply (pdf_of_in g _ _ Hnd) in Hp. rewrite Hp.
  rewrite IH; auto; [lia|]. intros b v Hb. eapply H. right. exact Hb.
Qed.

Lemma find_direct fwd g s w : wf g ->
  (forall a, In a (arcs_of fwd g s) -> is_emitting g (dest fwd a)) ->
  find_pdf_ids fwd g (Some s) w =
  Some (Ok (rev (map (fun a => (dest fwd a, w * a_weight a)) (arcs_of fwd g s)))).
Proof.
  intros W H. unfold find_pdf_ids. rewrite explore_emitting.
  - rewrite map_rev, map_map. reflexivity.
  - rewrite rev_length, map_length, arcs_of_filter.
    pose proof (filter_length_le (fun a => Nat.eqb (src fwd a) s) (g_arcs g)). lia.
  - apply W.
  - intros a v Ha. rewrite <- in_rev, in_map_iff in Ha. destruct Ha as (b & E & Hb). inv E. auto.
Qed.

Lemma sumf_rev {A} (f : A -> R) l : sumf f (rev l) = sumf f l.
Proof. apply sumf_perm. apply Permutation_sym, Permutation_rev. Qed.

Lemma is_eps_iff g s : is_eps g s = true <-> non_emitting g s.
Proof.
  unfold is_eps, non_emitting. rewrite existsb_exists. split.
  - intros ([t o] & Ht & E). simpl in E. apply andb_true_iff in E. destruct E as [E1 E2].
    apply Nat.eqb_eq in E1. destruct o; [discriminate|]. now subst.
  - intros H. exists (s, None). split; auto. simpl. now rewrite Nat.eqb_refl.
Qed.

Lemma pdf_em g s p : wf g -> pdf_of g s = Some (Some p) ->
  is_emitting g s /\ is_eps g s = false.
Proof.
  intros W H. pose proof (wf_nodup g W) as Hnd. apply (pdf_of_in g _ _ Hnd) in H. split; [exists p; auto|].
  apply not_true_iff_false. rewrite is_eps_iff. intros Hn.
  apply (pdf_of_in g _ _ Hnd) in H. apply (pdf_of_in g _ _ Hnd) in Hn. congruence.
Qed.

Lemma pdf_eps g s : wf g -> pdf_of g s = Some None ->
  non_emitting g s /\ is_eps g s = true /\ ~ is_emitting g s.
Proof.
  intros W H. pose proof (wf_nodup g W) as Hnd. apply (pdf_of_in g _ _ Hnd) in H.
  split; [auto|]. split; [now apply is_eps_iff|]. intros (p & Hp).
  apply (pdf_of_in g _ _ Hnd) in H. apply (pdf_of_in g _ _ Hnd) in Hp. congruence.
Qed.

(** at_idx for the index of an emitting state is state equality. *)
Lemma at_idx_eq g s i t : state2pdf g s = Some i -> at_idx g t i = Nat.eqb t s.
Proof.
  intros H. unfold at_idx. destruct (state2pdf g t) as [k|] eqn:E.
  - destruct (Nat.eqb i k) eqn:Ek.
    + apply Nat.eqb_eq in Ek. subst k. rewrite (state2pdf_inj g t s i E H). now rewrite Nat.eqb_refl.
    + symmetry. apply Nat.eqb_neq. intros ->. apply Nat.eqb_neq in Ek. congruence.
  - symmetry. apply Nat.eqb_neq. congruence.
Qed.

Lemma eps_weight_flat g e t d : wf g -> no_eps_eps g -> non_emitting g e ->
  eps_weight (S d) g e t =
  sumf (fun b => if Nat.eqb (a_start b) e && Nat.eqb (a_end b) t then a_weight b else 0) (g_arcs g).
Proof.
  intros W Hn He. simpl. apply sumf_ext. intros b Hb.
  destruct (Nat.eqb (a_start b) e) eqn:E; simpl; [|reflexivity].
  apply Nat.eqb_eq in E. rewrite <- E in He. destruct (Hn b Hb He) as (p & Hp).
  apply (pdf_of_in g _ _ (wf_nodup g W)) in Hp. apply pdf_em in Hp; auto. destruct Hp as [_ ->].
  lra.
Qed.

Lemma follow_flat g a t j : wf g -> no_eps_eps g -> In a (g_arcs g) ->
  state2pdf g t = Some j ->
  forall d,
  sumf (fun x => if at_idx g (fst x) j then snd x else 0) (follow g a) =
  (if Nat.eqb (a_end a) t then a_weight a else 0) +
  (if is_eps g (a_end a) then a_weight a * eps_weight (S d) g (a_end a) t else 0).
Proof.
  intros W Hn Ha Ht d. unfold follow. destruct (wf_arcs g W a Ha) as [_ He].
  destruct (in_states_pdf g _ He) as ([p|] & Ep); rewrite Ep.
  - destruct (pdf_em g _ _ W Ep) as [_ ->]. unfold sumf. simpl.
    rewrite (at_idx_eq g t j _ Ht). lra.
  - destruct (pdf_eps g _ W Ep) as (Hne & -> & Hnem).
    unfold find_next_pdf_ids. rewrite find_direct; auto.
    2:{ intros b Hb. apply arcs_of_in in Hb. destruct Hb as [Hb1 Hb2]. apply Hn; auto.
        simpl in Hb2. now rewrite Hb2. }
    assert (Et : Nat.eqb (a_end a) t = false).
    { apply Nat.eqb_neq. intros E. apply Hnem. rewrite E. apply emitting_in.
      unfold state2pdf in Ht. apply index_of_nth in Ht. destruct Ht as (p & Hp).
      apply nth_error_In in Hp. apply (in_map fst) in Hp. exact Hp. }
    rewrite Et, sumf_rev, sumf_map. simpl dest. simpl fst. simpl snd.
    rewrite eps_weight_flat by auto.
    rewrite <- sumf_scal_l, Rplus_0_l.
    change (arcs_of true g (a_end a)) with (filter (fun b => Nat.eqb (a_start b) (a_end a)) (g_arcs g)).
    rewrite sumf_filter. apply sumf_ext. intros b Hb.
    rewrite (at_idx_eq g t j _ Ht).
    destruct (Nat.eqb (a_start b) (a_end a)), (Nat.eqb (a_end b) t); simpl; lra.
Qed.

Lemma raw_trans_flat g m s t i j d : wf g -> no_eps_eps g -> raw_trans g = Ok m ->
  state2pdf g s = Some i -> state2pdf g t = Some j ->
  m i j = eps_weight (S (S d)) g s t.
Proof.
  intros W Hn Hm Hs Ht. destruct (raw_trans_eq g W) as (m' & Hm' & Hk).
  assert (m' = m) by congruence. subst m'. rewrite Hk.
  cbn [eps_weight]. apply sumf_ext. intros a Ha.
  rewrite (at_idx_eq g s i _ Hs). destruct (Nat.eqb (a_start a) s); [|reflexivity].
  apply (follow_flat g a t j W Hn Ha Ht d).
Qed.

(** ** Initial and final weights when the start (end) state leads directly to
    emitting states *)
Lemma raw_end_flat fwd g s w t j l d : wf g ->
  (forall a, In a (arcs_of fwd g s) -> is_emitting g (dest fwd a)) ->
  find_pdf_ids fwd g (Some s) w = Some (Ok l) ->
  state2pdf g t = Some j -> fwd = true ->
  sumf (fun x => if at_idx g (fst x) j then snd x else 0) l = w * eps_weight (S d) g s t.
Proof.
  intros W H Hl Ht ->. rewrite find_direct in Hl by auto. inv Hl.
  rewrite sumf_rev, sumf_map. simpl fst. simpl snd. simpl dest. cbn [eps_weight].
  rewrite <- sumf_scal_l. unfold arcs_of, out_arcs. rewrite sumf_filter.
  apply sumf_ext. intros a Ha. destruct (Nat.eqb (a_start a) s) eqn:E; [|lra].
  rewrite (at_idx_eq g t j _ Ht).
  destruct (H a) as (p & Hp).
  { apply arcs_of_in. split; auto. simpl. now apply Nat.eqb_eq. }
  simpl in Hp. apply (pdf_of_in g _ _ (wf_nodup g W)) in Hp. apply pdf_em in Hp; auto.
  destruct Hp as [_ ->]. destruct (Nat.eqb (a_end a) t); lra.
Qed.

Lemma raw_init_flat g s v t j d : wf g -> g_start g = Some s ->
  (forall a, In a (g_arcs g) -> a_start a = s -> is_emitting g (a_end a)) ->
  raw_init g = Ok v -> state2pdf g t = Some j ->
  v j = eps_weight (S d) g s t.
Proof.
  intros W Hs H Hv Ht. unfold raw_init, find_next_pdf_ids in Hv. rewrite Hs in Hv.
  destruct (find_ok true g (Some s) 1 W) as (l & El & Hl). rewrite El in Hv. simpl in Hv.
  destruct (acc_vec_eq g l Hl) as (u & Hu & Hu'). assert (u = v) by congruence. subst u.
  rewrite Hu'. rewrite (raw_end_flat true g s 1 t j l d); auto; [lra|].
  intros a Ha. apply arcs_of_in in Ha. destruct Ha. simpl. auto.
Qed.

(** ** C05 *)
Lemma norm_row_diag n m d : norm_row n m d d = m d d.
Proof.
  unfold norm_row. destruct (Rlt_dec 0 (m d d)); [|reflexivity].
  destruct (Rlt_dec 0 (sumf (m d) (seq 0 n) - m d d)); [|reflexivity].
  now rewrite Nat.eqb_refl.
Qed.

Lemma norm_row_sum n m d : (d < n)%nat -> 0 < m d d -> 0 < sumf (m d) (seq 0 n) - m d d ->
  sumf (norm_row n m d) (seq 0 n) = 1.
Proof.
  intros Hd H1 H2. unfold norm_row.
  destruct (Rlt_dec 0 (m d d)) as [_|]; [|lra].
  destruct (Rlt_dec 0 (sumf (m d) (seq 0 n) - m d d)) as [_|]; [|lra].
  set (off := sumf (m d) (seq 0 n) - m d d) in *.
  rewrite (sumf_ext _ (fun j => m d j * ((1 - m d d) / off) +
             (if Nat.eqb j d then m d d - m d d * ((1 - m d d) / off) else 0))).
  2:{ intros j _. destruct (Nat.eqb j d) eqn:E; [|lra]. apply Nat.eqb_eq in E. subst. lra. }
  rewrite sumf_plus, sumf_scal_r.
  rewrite (sumf_seq_single (fun j => if Nat.eqb j d then _ else _) n d); [|lia|].
  2:{ intros j _ Hj. destruct (Nat.eqb j d) eqn:E; [|reflexivity]. apply Nat.eqb_eq in E. congruence. }
  rewrite Nat.eqb_refl. 
  replace (sumf (m d) (seq 0 n)) with (off + m d d) by (unfold off; lra).
  field. lra.
Qed.

Lemma norm_row_nonneg n m d : (forall j, (j < n)%nat -> 0 <= m d j) -> m d d <= 1 ->
  forall j, (j < n)%nat -> (d < n)%nat -> 0 <= norm_row n m d j.
Proof.
  intros H Hd1 j Hj Hd. unfold norm_row.
  destruct (Rlt_dec 0 (m d d)); [|auto].
  destruct (Rlt_dec 0 (sumf (m d) (seq 0 n) - m d d)); [|auto].
  destruct (Nat.eqb j d); [auto|]. apply Rmult_le_pos; [auto|].
  apply Rmult_le_pos; [lra|]. left. apply Rinv_0_lt_compat. lra.
Qed.

(** Row sums of the raw matrix. *)
Lemma at_idx_sum g t : is_emitting g t -> forall c,
  sumf (fun q => if at_idx g t q then c else 0) (seq 0 (length (emitting g))) = c.
Proof.
  intros H c. destruct (state2pdf_em g t H) as (i & Hi & Hlt).
  rewrite (sumf_seq_single _ _ i); [|exact Hlt|].
  - unfold at_idx. now rewrite Hi, Nat.eqb_refl.
  - intros q _ Hq. unfold at_idx. rewrite Hi. destruct (Nat.eqb q i) eqn:E; [|reflexivity]. apply Nat.eqb_eq in E. congruence.
Qed.

Lemma follow_emitting g a : wf g -> In a (g_arcs g) ->
  forall t v, In (t, v) (follow g a) -> is_emitting g t.
Proof.
  intros W Ha t v. unfold follow. destruct (wf_arcs g W a Ha) as [_ He].
  destruct (in_states_pdf g _ He) as ([p|] & Ep); rewrite Ep.
  - intros [E|[]]. inv E. eapply pdf_em; eauto.
  - unfold find_next_pdf_ids. destruct (find_ok true g (Some (a_end a)) (a_weight a) W) as (l & -> & Hl).
    apply Hl.
Qed.

Lemma raw_row_sum g m i : wf g -> raw_trans g = Ok m ->
  sumf (m i) (seq 0 (length (emitting g))) =
  sumf (fun a => if at_idx g (a_start a) i then sumf snd (follow g a) else 0) (g_arcs g).
Proof.
  intros W Hm. destruct (raw_trans_eq g W) as (m' & Hm' & Hk).
  assert (m' = m) by congruence. subst m'.
  rewrite (sumf_ext (m i) _ _ (fun q _ => Hk i q)). rewrite sumf_swap.
  apply sumf_ext. intros a Ha. destruct (at_idx g (a_start a) i).
  - rewrite sumf_swap. apply sumf_ext. intros [t v] Ht. simpl.
    apply at_idx_sum. eapply follow_emitting; eauto.
  - apply sumf_zero. auto.
Qed.

Lemma follow_flat_sum g a : wf g -> no_eps_eps g -> nonneg_weights g -> normalised g ->
  In a (g_arcs g) ->
  0 <= sumf snd (follow g a) <= a_weight a /\ (forall x, In x (follow g a) -> 0 <= snd x).
Proof.
  intros W Hn Hw Hnorm Ha. unfold follow. destruct (wf_arcs g W a Ha) as [_ He].
  pose proof (Hw a Ha) as Hwa.
  destruct (in_states_pdf g _ He) as ([p|] & Ep); rewrite Ep.
  - split; [unfold sumf; simpl; lra|]. intros x [<-|[]]. exact Hwa.
  - destruct (pdf_eps g _ W Ep) as (Hne & _ & _).
    unfold find_next_pdf_ids. rewrite find_direct; auto.
    2:{ intros b Hb. apply arcs_of_in in Hb. destruct Hb as [Hb1 Hb2]. apply Hn; auto.
        simpl in Hb2. now rewrite Hb2. }
    split.
    + rewrite sumf_rev, sumf_map. simpl snd. rewrite sumf_scal_l.
      unfold arcs_of, out_arcs. rewrite sumf_filter.
      destruct (Hnorm (a_end a) He) as [H0|H1].
      * rewrite sumf_zero; [lra|]. intros b Hb. apply H0 in Hb. apply Nat.eqb_neq in Hb. now rewrite Hb.
      * rewrite H1. lra.
    + intros x Hx. rewrite <- in_rev, in_map_iff in Hx. destruct Hx as (b & <- & Hb). simpl.
      apply arcs_of_in in Hb. apply Rmult_le_pos; auto. apply Hw. tauto.
Qed.

Lemma compile_trans g c : compile g = Ok c ->
  exists m, raw_trans g = Ok m /\ c_n c = length (emitting g) /\
            c_trans c = norm_rows (length (emitting g)) m.
Proof.
  unfold compile. destruct (raw_init g); [|discriminate]. simpl.
  destruct (raw_final g); [|discriminate]. simpl.
  destruct (raw_trans g) as [m|]; [|discriminate]. simpl. intros H; inv H. eauto.
Qed.

Lemma rows_substochastic g c i : wf g -> no_eps_eps g -> nonneg_weights g -> normalised g ->
  compile g = Ok c -> (i < c_n c)%nat ->
  (forall j, (j < c_n c)%nat -> 0 <= c_trans c i j) /\
  sumf (c_trans c i) (seq 0 (c_n c)) <= 1.
Proof.
  intros W Hn Hw Hnorm Hc Hi. destruct (compile_trans g c Hc) as (m & Hm & En & Et).
  rewrite En in *. rewrite Et. unfold norm_rows. set (n := length (emitting g)) in *.
  destruct (raw_trans_eq g W) as (m' & Hm' & Hk).
  assert (m' = m) by congruence. subst m'.
  assert (Hpos : forall j, 0 <= m i j).
  { intros j. rewrite Hk. apply sumf_nonneg. intros a Ha.
    destruct (at_idx g (a_start a) i); [|lra]. apply sumf_nonneg. intros x Hx.
    destruct (at_idx g (fst x) j); [|lra]. eapply follow_flat_sum; eauto. }
  assert (Hsum : sumf (m i) (seq 0 n) <= 1).
  { unfold n. rewrite (raw_row_sum g m i W Hm).
    destruct (nth_error (emitting g) i) as [[s p]|] eqn:Es.
    2:{ apply nth_error_None in Es. unfold n in Hi. lia. }
    apply Rle_trans with (sumf (fun a => if Nat.eqb (a_start a) s then a_weight a else 0) (g_arcs g)).
    - apply sumf_le. intros a Ha.
      assert (Ei : state2pdf g (a_start a) = Some i -> a_start a = s).
      { intros E. unfold state2pdf in E. apply index_of_nth in E. destruct E as (q & E). congruence. }
      unfold at_idx. destruct (state2pdf g (a_start a)) as [k|] eqn:Ek.
      + destruct (Nat.eqb i k) eqn:Eik.
        * apply Nat.eqb_eq in Eik. subst k. rewrite (Ei eq_refl), Nat.eqb_refl.
          eapply follow_flat_sum; eauto.
        * destruct (Nat.eqb (a_start a) s); [apply Hw; auto|lra].
      + destruct (Nat.eqb (a_start a) s); [apply Hw; auto|lra].
    - assert (Hs : In s (states g)).
      { apply nth_error_In in Es. apply (in_map fst) in Es. apply emitting_in in Es.
        destruct Es as (q & Hq). apply in_states_iff. eauto. }
      destruct (Hnorm s Hs) as [H0|H1]; [|lra].
      rewrite sumf_zero; [lra|]. intros a Ha. apply H0 in Ha. apply Nat.eqb_neq in Ha. now rewrite Ha. }
  assert (Hd : m i i <= 1).
  { apply Rle_trans with (2 := Hsum). apply sumf_ge_term; auto. apply in_seq. lia. }
  split.
  - intros j Hj. apply norm_row_nonneg; auto.
  - destruct (Rlt_dec 0 (m i i)) as [H1|H1].
    + destruct (Rlt_dec 0 (sumf (m i) (seq 0 n) - m i i)) as [H2|H2].
      * right. apply norm_row_sum; auto.
      * unfold norm_row. destruct (Rlt_dec 0 (m i i)); [|lra].
        destruct (Rlt_dec 0 (sumf (m i) (seq 0 n) - m i i)); [lra|exact Hsum].
    + unfold norm_row. destruct (Rlt_dec 0 (m i i)); [lra|exact Hsum].
Qed.
