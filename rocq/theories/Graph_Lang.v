(** C06: replace_state is substitution on label sequences. *)
From Coq Require Import Reals List Lra Lia Arith Bool.
From Verif Require Import Prelude Graph_Model Graph_Spec Graph_Proofs.
Import ListNotations.
Local Open Scope R_scope.

Lemma walk_app g a ls w c : walk g a ls w c ->
  forall ls2 w2 b, walk g c ls2 w2 b -> walk g a (ls ++ ls2) (w * w2) b.
Proof.
  induction 1; intros ls2 w2 b' H2; simpl.
  - replace (1 * w2) with w2 by lra. exact H2.
  - rewrite <- app_assoc. replace (v * w * w2) with (v * (w * w2)) by lra.
    econstructor; eauto.
Qed.

Section Lang.
  Variables (g h : graph) (x hs he : nat).
  Hypothesis Wg : wf g.
  Hypothesis Wh : wf h.
  Hypothesis Hx : In x (states g).
  Hypothesis Hs : g_start h = Some hs.
  Hypothesis He : g_end h = Some he.
  Hypothesis Hsin : In hs (states h).
  Hypothesis Hein : In he (states h).
  Hypothesis Hloop : no_self_loop g x.

  Let ren := mkren g h.
  Let g' := replaced g h x hs he.

  Lemma copy_walk s ls w e :
    In s (states h) -> walk h s ls w e -> walk g' (rho ren s) ls w (rho ren e).
  Proof.
    intros Hin H. induction H as [|a c o ls w v b Ha Hc Hw IH]; [constructor|].
    assert (Hcin : In c (states h)) by (apply in_states_iff; eauto).
    econstructor; [| |apply IH; auto].
    - apply in_replaced_arcs; auto. right. left. exists (Arc a c v). split; auto.
    - apply in_replaced_states; auto. right. eauto.
  Qed.

  Definition pos (a : nat) : nat := if Nat.eqb a x then rho ren he else a.

  Lemma sim_forward a ms w b :
    mwalk g x a ms w b -> b <> x ->
    forall ls w2, subst h ms ls w2 -> walk g' (pos a) ls (w * w2) b.
  Proof.
    induction 1 as [a|a c o ms w v b Ha Hc Hcx Hw IH|a ms w v b Ha Hw IH];
      intros Hb ls w2 Hsub.
    - inv Hsub. unfold pos. apply Nat.eqb_neq in Hb. rewrite Hb.
      replace (1 * 1) with 1 by lra. constructor.
    - assert (Harc : In (Arc (pos a) c v) (g_arcs g')).
      { apply in_replaced_arcs; auto. unfold pos. destruct (Nat.eqb a x) eqn:E.
        - apply Nat.eqb_eq in E. subst a. right. right. left. exists (Arc x c v). auto.
        - apply Nat.eqb_neq in E. left. auto. }
      assert (Hst : In (c, o) (g_states g')) by (apply in_replaced_states; auto).
      assert (Hpc : pos c = c) by (unfold pos; apply Nat.eqb_neq in Hcx; now rewrite Hcx).
      replace (v * w * w2) with (v * (w * w2)) by lra.
      destruct o as [p|]; simpl in Hsub.
      + inv Hsub. change (p :: ls0) with (label (Some p) ++ ls0).
        econstructor; eauto. rewrite <- Hpc. now apply IH.
      + change ls with (label None ++ ls). econstructor; eauto. rewrite <- Hpc. now apply IH.
    - assert (Hax : a <> x).
      { intros ->. apply (Hloop (Arc x x v)); auto. }
      inversion Hsub as [| |ms' ls0 w0 ls' w' Hgen Hsub']; subst.
      destruct Hgen as (s & e & o & lsi & Es & Ee & Ho & Hwi & ->).
      assert (s = hs) by congruence. assert (e = he) by congruence. subst s e.
      assert (Hpa : pos a = a) by (unfold pos; apply Nat.eqb_neq in Hax; now rewrite Hax).
      rewrite Hpa.
      replace (v * w * (w' * w0)) with (v * (w' * (w * w0))) by lra.
      rewrite <- app_assoc. econstructor.
      + apply in_replaced_arcs; auto. right. right. right. exists (Arc a x v). eauto.
      + apply in_replaced_states; auto. right. eauto.
      + eapply walk_app; [apply copy_walk; eauto|].
        assert (Epx : pos x = rho ren he) by (unfold pos; now rewrite Nat.eqb_refl).
        fold ren. rewrite <- Epx. apply IH; auto.
  Qed.

  Lemma old_not_copied s t : In s (states g) -> In t (states h) -> s <> rho ren t.
  Proof.
    intros H1 H2 E. apply (wf_fresh g Wg) in H1. apply (rho_range g h) in H2. fold ren in H2. lia.
  Qed.

  Lemma sim_backward a ls w b :
    walk g' a ls w b -> In b (states g) -> b <> x ->
    ((In a (states g) /\ a <> x) ->
       exists ms w1 w2, mwalk g x a ms w1 b /\ subst h ms ls w2 /\ w = w1 * w2) /\
    (forall t, In t (states h) -> a = rho ren t ->
       exists lsh wh ms ls' w1 w2, walk h t lsh wh he /\ mwalk g x x ms w1 b /\
         subst h ms ls' w2 /\ ls = lsh ++ ls' /\ w = wh * (w1 * w2)).
  Proof.
    induction 1 as [a|a c o ls w v b Ha Hc Hw IH]; intros Hb Hbx.
    - split.
      + intros _. exists [], 1, 1. repeat split; try constructor. lra.
      + intros t Ht ->. exfalso. eapply old_not_copied; eauto.
    - destruct (IH Hb Hbx) as [IH1 IH2]. clear IH.
      apply in_replaced_arcs in Ha; auto.
      apply in_replaced_states in Hc; auto. fold ren in Ha, Hc.
      split.
      + intros [Hag Hax].
        destruct Ha as [(H1 & H2 & H3)|[(b0 & H1 & H2)|[(b0 & H1 & H2 & H3)|(b0 & H1 & H2 & H3)]]].
        * simpl in H2, H3. destruct (wf_arcs g Wg _ H1) as [_ Hcg]. simpl in Hcg.
          destruct IH1 as (ms & w1 & w2 & M & S & ->); [auto|].
          destruct Hc as [[Hc _]|(t & Ht & Et)].
          2:{ exfalso. eapply old_not_copied; [exact Hcg| |exact Et].
              apply in_states_iff; eauto. }
          exists (labels o ++ ms), (v * w1), w2. split; [|split].
          -- econstructor; eauto.
          -- destruct o; simpl; [constructor|]; auto.
          -- lra.
        * exfalso. unfold rarc in H2. inversion H2 as [[E1 E2 E3]].
          destruct (wf_arcs h Wh _ H1) as [H4 _]. exact (old_not_copied _ _ Hag H4 E1).
        * exfalso. inversion H3 as [[E1 E2 E3]]. exact (old_not_copied _ _ Hag Hein E1).
        * inv H3.
          destruct Hc as [[Hc _]|(t & Ht & Et)].
          { exfalso. assert (Hq : In (rho ren hs) (states g)) by (apply in_states_iff; eauto).
            exact (old_not_copied _ _ Hq Hsin eq_refl). }
          assert (Hts : In t (states h)) by (apply in_states_iff; eauto).
          apply rho_inj in Et; auto. subst t.
          destruct (IH2 hs Hsin eq_refl) as (lsh & wh & ms & ls' & w1 & w2 & Wk & M & S & -> & ->).
          destruct b0 as [b1 b2 b3]. simpl in *.
          exists (Mark :: ms), (b3 * w1), (wh * w2). split; [|split].
          -- econstructor; eauto.
          -- rewrite app_assoc. constructor; auto.
             exists hs, he, o, lsh. auto.
          -- lra.
      + intros t Ht ->.
        destruct Ha as [(H1 & H2 & H3)|[(b0 & H1 & H2)|[(b0 & H1 & H2 & H3)|(b0 & H1 & H2 & H3)]]].
        * exfalso. destruct (wf_arcs g Wg _ H1) as [H4 _]. simpl in H4.
          exact (old_not_copied _ _ H4 Ht eq_refl).
        * unfold rarc in H2. destruct b0 as [b1 b2 b3]. simpl in *. inversion H2 as [[E1 E2 E3]].
          subst v. destruct (wf_arcs h Wh _ H1) as [H4 H5]. simpl in *.
          apply rho_inj in E1; auto. subst b1.
          destruct Hc as [[Hc _]|(t' & Ht' & Et')].
          { exfalso. assert (Hq : In c (states g)) by (apply in_states_iff; eauto).
            eapply old_not_copied; [exact Hq| |exact E2]. auto. }
          assert (Hts : In t' (states h)) by (apply in_states_iff; eauto).
          assert (Ett : t' = b2) by (apply (rho_inj g h); auto; fold ren; congruence). subst t'.
          destruct (IH2 b2 H5 E2) as (lsh & wh & ms & ls' & w1 & w2 & Wk & M & S & -> & ->).
          exists (label o ++ lsh), (b3 * wh), ms, ls', w1, w2.
          split; [econstructor; eauto|]. repeat split; auto.
          -- now rewrite app_assoc.
          -- lra.
        * inversion H3 as [[E1 E2 E3]]. subst v.
          apply rho_inj in E1; auto. subst t.
          destruct b0 as [b1 b2 b3]. simpl in *. subst b1 c.
          destruct (wf_arcs g Wg _ H1) as [_ H4]. simpl in H4.
          assert (Hb2 : b2 <> x) by (intros ->; apply (Hloop (Arc x x b3)); auto).
          destruct IH1 as (ms & w1 & w2 & M & S & ->); [auto|].
          destruct Hc as [[Hc _]|(t' & Ht' & Et')].
          2:{ exfalso. eapply old_not_copied; [exact H4| |exact Et'].
              apply in_states_iff; eauto. }
          exists [], 1, (labels o ++ ms), (label o ++ ls), (b3 * w1), w2.
          split; [constructor|]. repeat split.
          -- econstructor; eauto.
          -- destruct o; simpl; [constructor|]; auto.
          -- lra.
        * exfalso. inversion H3 as [[E1 E2 E3]]. destruct (wf_arcs g Wg _ H1) as [H4 _].
          rewrite <- E1 in H4. exact (old_not_copied _ _ H4 Ht eq_refl).
  Qed.

  (** Both directions, for whole graphs. *)
  Lemma replace_language s e ls w :
    g_start g = Some s -> g_end g = Some e -> In s (states g) -> In e (states g) ->
    s <> x -> e <> x ->
    (generates g' ls w <->
     exists o ms w1 ls' w2, In (s, o) (g_states g) /\ mwalk g x s ms w1 e /\
       subst h ms ls' w2 /\ ls = label o ++ ls' /\ w = w1 * w2).
  Proof.
    intros Es Ee Hsg Heg Hsx Hex. split.
    - intros (s' & e' & o & ls' & E1 & E2 & Ho & Hw & ->).
      simpl in E1, E2. rewrite Es in E1. rewrite Ee in E2. inv E1. inv E2.
      destruct (sim_backward _ _ _ _ Hw Heg Hex) as [H _].
      destruct H as (ms & w1 & w2 & M & S & ->); [auto|].
      apply in_replaced_states in Ho; auto. destruct Ho as [[Ho _]|(t & Ht & Et)].
      + exists o, ms, w1, ls', w2. auto.
      + exfalso. eapply (old_not_copied s'); [exact Hsg| |exact Et]. apply in_states_iff; eauto.
    - intros (o & ms & w1 & ls' & w2 & Ho & M & S & -> & ->).
      exists s, e, o, ls'. repeat split; auto.
      + apply in_replaced_states; auto.
      + pose proof (sim_forward _ _ _ _ M Hex _ _ S) as H.
        unfold pos in H. apply Nat.eqb_neq in Hsx. now rewrite Hsx in H.
  Qed.
End Lang.
