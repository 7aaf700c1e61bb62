(** Walks where some states stand for whole graphs, and their preservation by
    replace_state. *)
From Coq Require Import Reals String List Arith Bool Lra Lia Permutation.
From Verif Require Import Prelude Graph_Model Graph_Spec Graph_Proofs Graph_Hist Graph_Lang
  Gb_Model Gb_Spec.
Import ListNotations.
Local Open Scope R_scope.

Definition visit (sg : nat -> option graph) (c : nat) (o : option nat)
  (l : list nat) (w : R) : Prop :=
  match sg c with
  | Some h => generates h l w
  | None => l = label o /\ w = 1
  end.

Inductive lwalk (g : graph) (sg : nat -> option graph)
  : nat -> list nat -> R -> nat -> Prop :=
| lw_nil a : lwalk g sg a [] 1 a
| lw_cons a c o l wl ls w v b :
    In (Arc a c v) (g_arcs g) -> In (c, o) (g_states g) -> visit sg c o l wl ->
    lwalk g sg c ls w b -> lwalk g sg a (l ++ ls) (v * (wl * w)) b.

Definition nosg : nat -> option graph := fun _ => None.

Lemma lwalk_walk g sg a ls w b : (forall c, In c (states g) -> sg c = None) ->
  (lwalk g sg a ls w b <-> walk g a ls w b).
Proof.
  intros Hn. split.
  - induction 1 as [a|a c o l wl ls w v b Ha Hc Hv Hw IH]; [constructor|].
    unfold visit in Hv. rewrite Hn in Hv by (apply in_states_iff; eauto).
    destruct Hv as [-> ->]. rewrite Rmult_1_l. econstructor; eauto.
  - induction 1 as [a|a c o ls w v b Ha Hc Hw IH]; [constructor|].
    rewrite <- (Rmult_1_l w). econstructor; eauto.
    unfold visit. rewrite Hn by (apply in_states_iff; eauto). auto.
Qed.

Lemma lwalk_ext g sg sg' a ls w b : (forall c, In c (states g) -> sg c = sg' c) ->
  lwalk g sg a ls w b -> lwalk g sg' a ls w b.
Proof.
  intros Hn. induction 1 as [a|a c o l wl ls w v b Ha Hc Hv Hw IH]; [constructor|].
  econstructor; eauto. unfold visit in *.
  rewrite <- Hn by (apply in_states_iff; eauto). exact Hv.
Qed.

Lemma lwalk_app g sg a ls w c : lwalk g sg a ls w c ->
  forall ls2 w2 b, lwalk g sg c ls2 w2 b -> lwalk g sg a (ls ++ ls2) (w * w2) b.
Proof.
  induction 1 as [a|a c o l wl ls w v b Ha Hc Hv Hw IH]; intros ls2 w2 b' H2; simpl.
  - now rewrite Rmult_1_l.
  - rewrite <- app_assoc. replace (v * (wl * w) * w2) with (v * (wl * (w * w2))) by lra.
    econstructor; eauto.
Qed.

Section Replace.
  Variables (g h : graph) (x hs he : nat) (sg : nat -> option graph).
  Hypothesis Wg : wf g.
  Hypothesis Wh : wf h.
  Hypothesis Hx : In x (states g).
  Hypothesis Hs : g_start h = Some hs.
  Hypothesis He : g_end h = Some he.
  Hypothesis Hsin : In hs (states h).
  Hypothesis Hein : In he (states h).
  Hypothesis Hloop : no_self_loop g x.
  Hypothesis Hsg : sg x = Some h.
  Hypothesis Hfresh : forall c, (g_count g <= c)%nat -> sg c = None.

  Let ren := mkren g h.
  Let g' := replaced g h x hs he.
  Definition drop_sg : nat -> option graph := fun c => if Nat.eqb c x then None else sg c.
  Definition lpos (a : nat) : nat := if Nat.eqb a x then rho ren he else a.

  Lemma drop_new t : In t (states h) -> drop_sg (rho ren t) = None.
  Proof.
    intros Ht. unfold drop_sg. destruct (Nat.eqb _ x); [reflexivity|].
    apply Hfresh. apply (rho_range g h) in Ht. fold ren in Ht. lia.
  Qed.

  Lemma drop_old c : c <> x -> drop_sg c = sg c.
  Proof. intros Hc. unfold drop_sg. apply Nat.eqb_neq in Hc. now rewrite Hc. Qed.

  Lemma lcopy_walk s ls w e :
    In s (states h) -> walk h s ls w e -> lwalk g' drop_sg (rho ren s) ls w (rho ren e).
  Proof.
    intros Hin H. induction H as [|a c o ls w v b Ha Hc Hw IH]; [constructor|].
    assert (Hcin : In c (states h)) by (apply in_states_iff; eauto).
    rewrite <- (Rmult_1_l w).
    econstructor; [| | |apply IH; auto].
    - apply in_replaced_arcs; auto. right. left. exists (Arc a c v). split; auto.
    - apply in_replaced_states; auto. right. eauto.
    - unfold visit. fold ren. rewrite drop_new; auto.
  Qed.

  Lemma lsim_forward a ls w b :
    lwalk g sg a ls w b -> b <> x -> lwalk g' drop_sg (lpos a) ls w b.
  Proof.
    induction 1 as [a|a c o l wl ls w v b Ha Hc Hv Hw IH]; intros Hb.
    - unfold lpos. apply Nat.eqb_neq in Hb. rewrite Hb. constructor.
    - specialize (IH Hb). destruct (Nat.eq_dec c x) as [->|Hcx].
      + assert (Hax : a <> x) by (intros ->; apply (Hloop (Arc x x v)); auto).
        assert (Hpa : lpos a = a) by (unfold lpos; apply Nat.eqb_neq in Hax; now rewrite Hax).
        rewrite Hpa. unfold visit in Hv. rewrite Hsg in Hv.
        destruct Hv as (s & e & o' & lsi & Es & Ee & Ho & Hwi & ->).
        assert (s = hs) by congruence. assert (e = he) by congruence. subst s e.
        rewrite <- app_assoc. replace (wl * w) with (1 * (wl * w)) by lra. econstructor.
        * apply in_replaced_arcs; auto. right. right. right. exists (Arc a x v). eauto.
        * apply in_replaced_states; auto. right. eauto.
        * unfold visit. fold ren. rewrite drop_new; auto.
        * eapply lwalk_app; [apply lcopy_walk; eauto|].
          assert (Epx : lpos x = rho ren he) by (unfold lpos; now rewrite Nat.eqb_refl).
          rewrite <- Epx. exact IH.
      + assert (Hpc : lpos c = c) by (unfold lpos; apply Nat.eqb_neq in Hcx; now rewrite Hcx).
        rewrite Hpc in IH. econstructor; [| | |exact IH].
        * apply in_replaced_arcs; auto. unfold lpos. destruct (Nat.eqb a x) eqn:E.
          -- apply Nat.eqb_eq in E. subst a. right. right. left. exists (Arc x c v). auto.
          -- apply Nat.eqb_neq in E. left. auto.
        * apply in_replaced_states; eauto.
        * unfold visit in *. now rewrite drop_old.
  Qed.

  Lemma lold_not_copied s t : In s (states g) -> In t (states h) -> s <> rho ren t.
  Proof.
    intros H1 H2 E. apply (wf_fresh g Wg) in H1. apply (rho_range g h) in H2. fold ren in H2. lia.
  Qed.

  Lemma lsim_backward a ls w b :
    lwalk g' drop_sg a ls w b -> In b (states g) -> b <> x ->
    ((In a (states g) /\ a <> x) -> lwalk g sg a ls w b) /\
    (forall t, In t (states h) -> a = rho ren t ->
       exists lsh wh ls' w1, walk h t lsh wh he /\ lwalk g sg x ls' w1 b /\
         ls = lsh ++ ls' /\ w = wh * w1).
  Proof.
    induction 1 as [a|a c o l wl ls w v b Ha Hc Hv Hw IH]; intros Hb Hbx.
    - split.
      + intros _. constructor.
      + intros t Ht ->. exfalso. eapply lold_not_copied; eauto.
    - destruct (IH Hb Hbx) as [IH1 IH2]. clear IH.
      apply in_replaced_arcs in Ha; auto.
      apply in_replaced_states in Hc; auto. fold ren in Ha, Hc.
      split.
      + intros [Hag Hax].
        destruct Ha as [(H1 & H2 & H3)|[(b0 & H1 & H2)|[(b0 & H1 & H2 & H3)|(b0 & H1 & H2 & H3)]]].
        * simpl in H2, H3. destruct (wf_arcs g Wg _ H1) as [_ Hcg]. simpl in Hcg.
          destruct Hc as [[Hc _]|(t & Ht & Et)].
          2:{ exfalso. eapply lold_not_copied; [exact Hcg| |exact Et].
              apply in_states_iff; eauto. }
          econstructor; eauto. unfold visit in *. now rewrite drop_old in Hv by auto.
        * exfalso. unfold rarc in H2. inversion H2 as [[E1 E2 E3]].
          destruct (wf_arcs h Wh _ H1) as [H4 _]. exact (lold_not_copied _ _ Hag H4 E1).
        * exfalso. inversion H3 as [[E1 E2 E3]]. exact (lold_not_copied _ _ Hag Hein E1).
        * inv H3.
          destruct Hc as [[Hc _]|(t & Ht & Et)].
          { exfalso. assert (Hq : In (rho ren hs) (states g)) by (apply in_states_iff; eauto).
            exact (lold_not_copied _ _ Hq Hsin eq_refl). }
          assert (Hts : In t (states h)) by (apply in_states_iff; eauto).
          apply rho_inj in Et; auto. subst t.
          destruct (IH2 hs Hsin eq_refl) as (lsh & wh & ls' & w1 & Wk & M & -> & ->).
          destruct b0 as [b1 b2 b3]. simpl in *. subst b2.
          unfold visit in Hv. rewrite drop_new in Hv by auto. destruct Hv as [-> ->].
          destruct (in_states_iff g x) as [Hx1 _]. destruct (Hx1 Hx) as (ox & Hox).
          rewrite app_assoc. replace (1 * (wh * w1)) with (wh * w1) by lra.
          econstructor; eauto.
          unfold visit. rewrite Hsg. exists hs, he, o, lsh. auto.
      + intros t Ht ->.
        destruct Ha as [(H1 & H2 & H3)|[(b0 & H1 & H2)|[(b0 & H1 & H2 & H3)|(b0 & H1 & H2 & H3)]]].
        * exfalso. destruct (wf_arcs g Wg _ H1) as [H4 _]. simpl in H4.
          exact (lold_not_copied _ _ H4 Ht eq_refl).
        * unfold rarc in H2. destruct b0 as [b1 b2 b3]. simpl in *. inversion H2 as [[E1 E2 E3]].
          subst v. destruct (wf_arcs h Wh _ H1) as [H4 H5]. simpl in *.
          apply rho_inj in E1; auto. subst b1.
          destruct Hc as [[Hc _]|(t' & Ht' & Et')].
          { exfalso. assert (Hq : In c (states g)) by (apply in_states_iff; eauto).
            eapply lold_not_copied; [exact Hq| |exact E2]. auto. }
          assert (Hts : In t' (states h)) by (apply in_states_iff; eauto).
          assert (Ett : t' = b2) by (apply (rho_inj g h); auto; fold ren; congruence). subst t'.
          destruct (IH2 b2 H5 E2) as (lsh & wh & ls' & w1 & Wk & M & -> & ->).
          unfold visit in Hv. rewrite E2, drop_new in Hv by auto. destruct Hv as [-> ->].
          exists (label o ++ lsh), (b3 * wh), ls', w1.
          split; [econstructor; eauto|]. repeat split; auto.
          -- now rewrite app_assoc.
          -- lra.
        * inversion H3 as [[E1 E2 E3]]. subst v.
          apply rho_inj in E1; auto. subst t.
          destruct b0 as [b1 b2 b3]. simpl in *. subst b1 c.
          destruct (wf_arcs g Wg _ H1) as [_ H4]. simpl in H4.
          assert (Hb2 : b2 <> x) by (intros ->; apply (Hloop (Arc x x b3)); auto).
          destruct Hc as [[Hc _]|(t' & Ht' & Et')].
          2:{ exfalso. eapply lold_not_copied; [exact H4| |exact Et'].
              apply in_states_iff; eauto. }
          exists [], 1, (l ++ ls), (b3 * (wl * w)).
          split; [constructor|]. repeat split; [|lra].
          econstructor; eauto. unfold visit in *. now rewrite drop_old in Hv by auto.
        * exfalso. inversion H3 as [[E1 E2 E3]]. destruct (wf_arcs g Wg _ H1) as [H4 _].
          rewrite <- E1 in H4. exact (lold_not_copied _ _ H4 Ht eq_refl).
  Qed.

  Lemma replaced_lwalk a ls w b :
    In a (states g) -> a <> x -> In b (states g) -> b <> x ->
    (lwalk g' drop_sg a ls w b <-> lwalk g sg a ls w b).
  Proof.
    intros Ha Hax Hb Hbx. split; intros H.
    - destruct (lsim_backward _ _ _ _ H Hb Hbx) as [H1 _]. auto.
    - pose proof (lsim_forward _ _ _ _ H Hbx) as H1. unfold lpos in H1.
      apply Nat.eqb_neq in Hax. now rewrite Hax in H1.
  Qed.
End Replace.

(** ** Successive replacements *)

Definition replace_all (l : list (nat * graph)) (g : graph) : result graph :=
  foldM (fun g xh => replace_state g (fst xh) (snd xh)) l g.

Definition sg_of (l : list (nat * graph)) (sg : nat -> option graph) : nat -> option graph :=
  fun c => match lookup c l with Some h => Some h | None => sg c end.

Definition pos_weights (g : graph) : Prop := forall a, In a (g_arcs g) -> 0 < a_weight a.

Lemma replaced_loops g h x hs he y : wf g -> wf h -> In hs (states h) -> In he (states h) ->
  In y (states g) -> no_self_loop g y -> no_self_loop (replaced g h x hs he) y.
Proof.
  intros Wg Wh Hs He Hy Hl a Ha [E1 E2]. apply in_replaced_arcs in Ha; auto.
  assert (Hold : forall t, In t (states h) -> rho (mkren g h) t <> y).
  { intros t Ht E. apply (wf_fresh g Wg) in Hy. apply (rho_range g h) in Ht. lia. }
  destruct Ha as [(H1 & _ & _)|[(b & H1 & ->)|[(b & H1 & H2 & ->)|(b & H1 & H2 & ->)]]].
  - exact (Hl a H1 (conj E1 E2)).
  - destruct (wf_arcs h Wh _ H1) as [H2 _]. exact (Hold _ H2 E1).
  - exact (Hold _ He E1).
  - exact (Hold _ Hs E2).
Qed.

Lemma replaced_pos g h x hs he : wf g -> wf h -> pos_weights g -> pos_weights h ->
  pos_weights (replaced g h x hs he).
Proof.
  intros Wg Wh Pg Ph a Ha. apply in_replaced_arcs in Ha; auto.
  destruct Ha as [(H1 & _ & _)|[(b & H1 & ->)|[(b & H1 & H2 & ->)|(b & H1 & H2 & ->)]]]; simpl; auto.
Qed.

Lemma filter_filter {A} (p q : A -> bool) l :
  filter p (filter q l) = filter (fun x => q x && p x) l.
Proof.
  induction l as [|a l IH]; simpl; [reflexivity|].
  destruct (q a); simpl; [|exact IH]. destruct (p a); simpl; now rewrite IH.
Qed.

Lemma combine_seq_snd {A} (l : list A) k : map snd (combine (seq k (length l)) l) = l.
Proof. apply combine_map_snd. now rewrite seq_length. Qed.

Definition kept (l : list (nat * graph)) (s : nat * option nat) : bool :=
  negb (mem (fst s) (map fst l)).

Lemma replace_all_spec : forall l g sg, wf g -> NoDup (map fst l) ->
  (forall x h, In (x, h) l -> In x (states g) /\ usable h /\ no_self_loop g x) ->
  (forall c, (g_count g <= c)%nat -> sg c = None) ->
  (forall x, In x (map fst l) -> sg x = None) ->
  exists g', replace_all l g = Ok g' /\ wf g' /\
    g_start g' = g_start g /\ g_end g' = g_end g /\
    (forall s, In s (states g) -> ~ In s (map fst l) ->
       forall o, In (s, o) (g_states g') <-> In (s, o) (g_states g)) /\
    map snd (g_states g') =
      map snd (filter (kept l) (g_states g)) ++
      concat (map (fun xh => map snd (g_states (snd xh))) l) /\
    (pos_weights g -> (forall x h, In (x, h) l -> pos_weights h) -> pos_weights g') /\
    (forall c, (g_count g' <= c)%nat -> sg c = None) /\
    (forall a b ls w, In a (states g) -> ~ In a (map fst l) -> In b (states g) ->
       ~ In b (map fst l) ->
       (lwalk g' sg a ls w b <-> lwalk g (sg_of l sg) a ls w b)).
Proof.
  induction l as [|[x h] l IH]; intros g sg Wg Hnd Hl Hf Hx.
  - exists g. split; [reflexivity|]. split; [exact Wg|]. do 2 (split; [reflexivity|]).
    split; [tauto|]. split; [|split; [auto|split; [auto|tauto]]].
    simpl. rewrite app_nil_r. f_equal. clear. induction (g_states g) as [|s l IH]; simpl; congruence.
  - inversion_clear Hnd as [|? ? Hxl Hnd'].
    destruct (Hl x h (or_introl eq_refl)) as (Hxg & (Wh & (hs & Es & Hhs) & (he & Ee & Hhe)) & Hloop).
    assert (Er : replace_state g x h = Ok (replaced g h x hs he)) by now apply replace_state_eq.
    assert (W1 : wf (replaced g h x hs he)) by now apply replaced_wf.
    set (g1 := replaced g h x hs he) in *.
    assert (St1 : forall y, In y (states g) -> y <> x -> In y (states g1)).
    { intros y Hy Hyx. apply in_states_iff. apply in_states_iff in Hy. destruct Hy as (o & Ho).
      exists o. unfold g1. apply in_replaced_states; auto. }
    destruct (IH g1 sg W1 Hnd') as (g' & E' & W' & S' & F' & O' & M' & P' & N' & L').
    { intros y hy Hy. destruct (Hl y hy (or_intror Hy)) as (H1 & H2 & H3).
      assert (y <> x). { intros ->. apply Hxl. apply in_map_iff. exists (x, hy); auto. }
      split; [now apply St1|]. split; [exact H2|]. now apply replaced_loops. }
    { intros c Hc. apply Hf. unfold g1 in Hc. simpl in Hc. lia. }
    { intros y Hy. apply Hx. now right. }
    exists g'. split; [unfold replace_all; simpl; rewrite Er; exact E'|].
    split; [exact W'|]. split; [rewrite S'; reflexivity|]. split; [rewrite F'; reflexivity|].
    split; [|split; [|split; [|split]]].
    + intros s Hs Hn o. assert (s <> x) by (intros ->; apply Hn; now left).
      rewrite O'; [| now apply St1 | intros Hc; apply Hn; now right].
      unfold g1. rewrite in_replaced_states by auto. split; [|tauto].
      intros [[Ho _]|(t & Ht & Et)]; [exact Ho|]. exfalso.
      assert (Hts : In t (states h)) by (apply in_states_iff; eauto).
      apply (rho_range g h) in Hts. apply (wf_fresh g Wg) in Hs. lia.
    + rewrite M'. unfold g1. cbn [g_states replaced map concat snd].
      rewrite app_assoc. f_equal.
      rewrite filter_app, map_app. f_equal.
      * rewrite filter_filter. f_equal. apply filter_ext. intros [s o]. unfold kept. simpl.
        destruct (Nat.eqb s x); reflexivity.
      * assert (Eq : forall lst : list (nat * option nat),
          (forall s, In s lst -> (g_count g <= fst s)%nat) -> filter (kept l) lst = lst).
        { clear - Hl Wg. induction lst as [|s lst IH]; intros H; simpl; [reflexivity|].
          assert (K : kept l s = true).
          { unfold kept. apply negb_true_iff. apply mem_false. intros Hc.
            apply in_map_iff in Hc. destruct Hc as ([y hy] & E & Hy). simpl in E. subst y.
            destruct (Hl _ _ (or_intror Hy)) as (H1 & _). apply (wf_fresh g Wg) in H1.
            specialize (H s (or_introl eq_refl)). lia. }
          rewrite K. f_equal. apply IH. intros; apply H; now right. }
        rewrite Eq.
        -- replace (length (g_states h)) with (length (map snd (g_states h))) by apply map_length.
           apply combine_seq_snd.
        -- intros [s o] Hs. apply in_combine_l in Hs. apply in_seq in Hs. simpl. lia.
    + intros Pg Ph. apply P'.
      * apply replaced_pos; auto. eapply Ph; now left.
      * intros y hy Hy. eapply Ph; right; eauto.
    + exact N'.
    + intros a b ls w Ha Han Hb Hbn.
      assert (a <> x) by (intros ->; apply Han; now left).
      assert (b <> x) by (intros ->; apply Hbn; now left).
      rewrite L'; [| now apply St1 | intros Hc; apply Han; now right
                   | now apply St1 | intros Hc; apply Hbn; now right].
      set (sx := sg_of ((x, h) :: l) sg).
      assert (Hsx : sx x = Some h) by (unfold sx, sg_of; simpl; now rewrite Nat.eqb_refl).
      assert (Hfx : forall c, (g_count g <= c)%nat -> sx c = None).
      { intros c Hc. unfold sx, sg_of. simpl. destruct (Nat.eqb c x) eqn:E.
        - apply Nat.eqb_eq in E. subst c. apply (wf_fresh g Wg) in Hxg. lia.
        - destruct (lookup c l) eqn:El; [|now apply Hf]. apply lookup_in in El.
          destruct (Hl _ _ (or_intror El)) as (H1 & _). apply (wf_fresh g Wg) in H1. lia. }
      rewrite <- (replaced_lwalk g h x hs he sx) by auto. fold g1.
      assert (Eq : forall c, sg_of l sg c = drop_sg x sx c).
      { intros c. unfold drop_sg, sx, sg_of. simpl. destruct (Nat.eqb c x) eqn:E; [|reflexivity].
        apply Nat.eqb_eq in E. subst c. destruct (lookup x l) eqn:El; [|apply Hx; now left].
        exfalso. apply Hxl. apply lookup_in in El. apply in_map_iff. now exists (x, g0). }
      split; apply lwalk_ext; intros c _; [|symmetry]; apply Eq.
Qed.

(** ** Normalisation keeps the accepted sequences *)
Lemma norm_walk g1 g2 a ls w b :
  g_states g2 = g_states g1 ->
  (forall x, In x (g_arcs g1) -> exists v, In (Arc (a_start x) (a_end x) v) (g_arcs g2)) ->
  walk g1 a ls w b -> exists w', walk g2 a ls w' b.
Proof.
  intros Es Ea H. induction H as [a|a c o ls w v b Ha Hc Hw IH]; [exists 1; constructor|].
  destruct IH as (w' & Hw'). destruct (Ea _ Ha) as (v' & Hv'). simpl in Hv'.
  exists (v' * w'). econstructor; eauto. now rewrite Es.
Qed.

Lemma normalize_arcs g g' : NoDup (states g) -> normalize g = Ok g' ->
  g_states g' = g_states g /\ g_start g' = g_start g /\ g_end g' = g_end g /\
  g_count g' = g_count g /\
  (forall x, In x (g_arcs g) -> exists v, In (Arc (a_start x) (a_end x) v) (g_arcs g')) /\
  (forall x, In x (g_arcs g') -> exists v, In (Arc (a_start x) (a_end x) v) (g_arcs g)).
Proof.
  intros Hnd H. destruct (normalize_spec g Hnd) as [[_ E]|[_ E]]; rewrite E in H; inv H.
  simpl. repeat split; auto.
  - intros x Hx. destruct (norm1 (states g) (g_arcs g) x) as [a b v] eqn:En.
    exists v. assert (K := norm1_key (states g) (g_arcs g) x). rewrite En in K. unfold key in K.
    simpl in K. inversion K. subst. rewrite <- En. now apply in_map.
  - intros x Hx. apply in_map_iff in Hx. destruct Hx as (y & <- & Hy). exists (a_weight y).
    assert (K := norm1_key (states g) (g_arcs g) y). unfold key in K. inversion K as [[K1 K2]].
    rewrite K1, K2. destruct y; exact Hy.
Qed.

Lemma normalize_accepts g g' ls : NoDup (states g) -> normalize g = Ok g' ->
  (accepts g' ls <-> accepts g ls).
Proof.
  intros Hnd H. destruct (normalize_arcs g g' Hnd H) as (E1 & E2 & E3 & _ & A1 & A2).
  unfold accepts, generates. split.
  - intros (w & s & e & o & ls' & Es & Ee & Ho & Hw & ->).
    destruct (norm_walk g' g _ _ _ _ (eq_sym E1) A2 Hw) as (w' & Hw').
    exists w', s, e, o, ls'. rewrite <- E1, <- E2, <- E3. auto.
  - intros (w & s & e & o & ls' & Es & Ee & Ho & Hw & ->).
    destruct (norm_walk g g' _ _ _ _ E1 A1 Hw) as (w' & Hw').
    exists w', s, e, o, ls'. rewrite E1, E2, E3. auto.
Qed.

Lemma normalize_pos g : NoDup (states g) -> pos_weights g ->
  exists g', normalize g = Ok g' /\ pos_weights g'.
Proof.
  intros Hnd Hp.
  assert (Hpos : forall s, filter (fun a => Nat.eqb (a_start a) s) (g_arcs g) <> [] ->
             0 < out_sum (g_arcs g) s).
  { intros s Hs. unfold out_sum.
    destruct (filter (fun a => Nat.eqb (a_start a) s) (g_arcs g)) as [|a l] eqn:E; [now contradiction Hs|].
    assert (H : forall b, In b (a :: l) -> 0 < a_weight b).
    { intros b Hb. rewrite <- E in Hb. apply filter_In in Hb. apply Hp. tauto. }
    rewrite sumf_cons.
    assert (0 < a_weight a) by (apply H; now left).
    assert (0 <= sumf a_weight l).
    { apply sumf_nonneg. intros b Hb. left. apply H. now right. }
    lra. }
  destruct (normalize_spec g Hnd) as [[_ E]|[(s & Hs & Hn) E]].
  - eexists. split; [exact E|]. intros a Ha. simpl in Ha. apply in_map_iff in Ha.
    destruct Ha as (b & <- & Hb). unfold norm1. destruct (mem (a_start b) (states g)); [|auto].
    simpl. apply Rdiv_lt_0_compat; [auto|]. apply Hpos. intros Hc.
    assert (Hin : In b (filter (fun a => Nat.eqb (a_start a) (a_start b)) (g_arcs g)))
      by (apply filter_In; split; [exact Hb|apply Nat.eqb_refl]).
    rewrite Hc in Hin. exact Hin.
  - exfalso. apply Hn. unfold out_nonzero.
    destruct (filter (fun a => Nat.eqb (a_start a) s) (g_arcs g)) eqn:Ef; [now left|right].
    assert (H : 0 < out_sum (g_arcs g) s) by (apply Hpos; rewrite Ef; discriminate). lra.
Qed.

(** Concatenations, label level. *)
Lemma catgen_accepts hs ls : (exists w, catgen hs ls w) <-> cat_accepts hs ls.
Proof.
  split.
  - intros (w & H). induction H as [|h hs l w ls v Hg Hc (lss & F & ->)].
    + exists []. split; [constructor|reflexivity].
    + exists (l :: lss). split; [constructor; auto; now exists w|reflexivity].
  - intros (lss & F & ->). induction F as [|h l hs lss (w & Hw) F (v & IH)].
    + exists 1. constructor.
    + exists (w * v). now constructor.
Qed.
