(** Support of the compiled graph. *)
From Coq Require Import Reals List Arith Bool Lra Lia.
From Verif Require Import Prelude Graph_Model Graph_Spec Graph_Proofs Graph_Eps Graph_Hist
  Graph_Lang Gb_Spec Gb_Lang Cl_Spec.
Import ListNotations.
Local Open Scope R_scope.

Lemma sumf_support {A} (f : A -> R) (p : A -> bool) l :
  (forall x, In x l -> p x = true -> 0 < f x) ->
  0 <= sumf (fun x => if p x then f x else 0) l /\
  (0 < sumf (fun x => if p x then f x else 0) l <-> exists x, In x l /\ p x = true).
Proof.
  induction l as [|a l IH]; intros H.
  - unfold sumf. simpl. split; [lra|]. split; [lra|]. intros (x & [] & _).
  - destruct IH as [IH1 IH2]; [intros; apply H; auto; now right|]. rewrite sumf_cons.
    destruct (p a) eqn:E.
    + assert (0 < f a) by (apply H; [now left|exact E]). split; [lra|]. split; [|lra].
      intros _. exists a. split; [now left|exact E].
    + split; [lra|]. rewrite Rplus_0_l, IH2. split.
      * intros (x & Hx & Ep). exists x. split; [now right|exact Ep].
      * intros (x & [<-|Hx] & Ep); [congruence|]. eauto.
Qed.

Lemma explore_pos fwd g : pos_weights g -> forall fuel stack visited l,
  (forall a w, In (a, w) stack -> In a (g_arcs g) /\ 0 < w) ->
  explore fuel fwd g stack visited = Some (Ok l) ->
  forall t v, In (t, v) l -> 0 < v.
Proof.
  intros P. induction fuel as [|fuel IH]; intros stack visited l Hs H t v Ht; [discriminate|].
  cbn [explore] in H. destruct stack as [|[a w] rest]; [inv H; inversion Ht|].
  destruct (Hs a w (or_introl eq_refl)) as [Ha Hw].
  assert (Hrest : forall b u, In (b, u) rest -> In b (g_arcs g) /\ 0 < u)
    by (intros; apply Hs; now right).
  destruct (pdf_of g (dest fwd a)) as [[q|]|]; [| |discriminate].
  - destruct (explore fuel fwd g rest visited) as [[l'|]|] eqn:E; try discriminate. inv H.
    destruct Ht as [Ht|Ht].
    + inversion Ht. subst. apply Rmult_lt_0_compat; auto.
    + eapply IH; eauto.
  - destruct (mem (dest fwd a) visited); [eapply IH; eauto|].
    eapply IH; [|exact H|exact Ht]. intros b u Hb. apply in_app_iff in Hb. destruct Hb as [Hb|Hb]; [|auto].
    rewrite <- in_rev, in_map_iff in Hb. destruct Hb as (b' & E & Hb). inversion E. subst.
    apply arcs_of_in in Hb. destruct Hb as [Hb _]. split; [exact Hb|]. apply Rmult_lt_0_compat; auto.
Qed.

Lemma find_pos fwd g s w l : pos_weights g -> 0 < w -> find_pdf_ids fwd g (Some s) w = Some (Ok l) ->
  forall t v, In (t, v) l -> 0 < v.
Proof.
  intros P Hw H. unfold find_pdf_ids in H. eapply explore_pos; [exact P| |exact H].
  intros a u Ha. rewrite <- in_rev, in_map_iff in Ha. destruct Ha as (b & E & Hb). inversion E. subst.
  apply arcs_of_in in Hb. tauto.
Qed.

Section Support.
  Variables (g : graph) (c : compiled) (s e : nat).
  Hypothesis W : wf g.
  Hypothesis P : pos_weights g.
  Hypothesis Hs : g_start g = Some s.
  Hypothesis He : g_end g = Some e.
  Hypothesis Hc : compile g = Ok c.

  Let n := length (emitting g).

  Lemma at_idx_iff t k : at_idx g t k = true <-> state2pdf g t = Some k.
  Proof.
    unfold at_idx. destruct (state2pdf g t) as [i|]; [|split; discriminate].
    rewrite Nat.eqb_eq. split; congruence.
  Qed.

  Lemma idx_lt t k : state2pdf g t = Some k -> (k < n)%nat.
  Proof.
    unfold state2pdf. intros H. apply index_of_nth in H. destruct H as (p & H).
    apply nth_error_Some. congruence.
  Qed.

  (** index k is the emitting state t with pdf id p *)
  Lemma idx_map t k : state2pdf g t = Some k ->
    exists p, In (t, Some p) (g_states g) /\ nth k (c_map c) 0%nat = p.
  Proof.
    intros H. apply index_of_nth in H. destruct H as (p & H). exists p. split.
    - apply nth_error_In in H. unfold emitting in H. apply in_flat_map in H.
      destruct H as ([x o] & Hx & Hi). simpl in Hi. destruct o as [q|]; [|inversion Hi].
      destruct Hi as [Hi|[]]. inversion Hi. subst. exact Hx.
    - destruct (compile_map g c Hc) as [-> _]. unfold pdf_id_mapping.
      apply nth_error_nth. now rewrite (map_nth_error snd _ _ H).
  Qed.

  Lemma ends_support fwd x v : find_pdf_ids fwd g (Some x) 1 <> None ->
    bindr (yields (find_pdf_ids fwd g (Some x) 1)) (acc_vec g) = Ok v ->
    (forall k, 0 <= v k) /\
    forall k, 0 < v k <-> exists t, state2pdf g t = Some k /\ next_emitting fwd g x t.
  Proof.
    intros _ H. destruct (find_ok fwd g (Some x) 1 W) as (l & El & Hl). rewrite El in H. simpl in H.
    destruct (acc_vec_eq g l Hl) as (u & Eu & Hu). rewrite Eu in H. inv H.
    assert (Hp : forall k, 0 <= v k /\ (0 < v k <-> exists y, In y l /\ at_idx g (fst y) k = true)).
    { intros k. rewrite Hu. apply sumf_support. intros [t w] Ht _. simpl.
      eapply find_pos; eauto. lra. }
    split; [intros k; apply Hp|]. intros k. destruct (Hp k) as [_ ->]. split.
    - intros ([t w] & Ht & Ei). apply at_idx_iff in Ei. simpl in Ei. exists t. split; [exact Ei|].
      apply (find_exact fwd g x 1 l W El). apply in_map_iff. exists (t, w). auto.
    - intros (t & Ei & Hn). apply (find_exact fwd g x 1 l W El) in Hn. apply in_map_iff in Hn.
      destruct Hn as ([t' w] & E & Hn). simpl in E. subst t'. exists (t, w). split; [exact Hn|].
      now apply at_idx_iff.
  Qed.

  Lemma vec_support v : (forall k, 0 <= v k) ->
    forall k, (k < n)%nat -> 0 < v k -> exists u, norm_vec n v = Some u /\ forall j, 0 < u j <-> 0 < v j.
  Proof.
    intros Hv k Hk Hk'. unfold norm_vec.
    assert (Hsum : 0 < sumf v (seq 0 n)).
    { apply Rlt_le_trans with (v k); [exact Hk'|].
      apply (sumf_ge_term v (seq 0 n) k); [|apply in_seq; lia]. intros; apply Hv. }
    destruct (Req_EM_T (sumf v (seq 0 n)) 0) as [E|E]; [lra|]. eexists. split; [reflexivity|].
    intros j. split; intros H.
    - apply (Rmult_lt_reg_r (/ sumf v (seq 0 n))); [now apply Rinv_0_lt_compat|]. unfold Rdiv in H. lra.
    - now apply Rdiv_lt_0_compat.
  Qed.

  Lemma vec_support_inv v u : (forall k, 0 <= v k) -> norm_vec n v = Some u ->
    forall j, 0 < u j <-> 0 < v j.
  Proof.
    intros Hv H. unfold norm_vec in H.
    assert (H0 : 0 <= sumf v (seq 0 n)) by (apply sumf_nonneg; intros; apply Hv).
    destruct (Req_EM_T (sumf v (seq 0 n)) 0) as [E|E]; [discriminate|]. inv H.
    assert (Hsum : 0 < sumf v (seq 0 n)) by lra. intros j. split; intros H.
    - apply (Rmult_lt_reg_r (/ sumf v (seq 0 n))); [now apply Rinv_0_lt_compat|]. unfold Rdiv in H. lra.
    - now apply Rdiv_lt_0_compat.
  Qed.

  Lemma follow_support a : In a (g_arcs g) ->
    (forall y, In y (follow g a) -> 0 < snd y) /\
    forall t, In t (map fst (follow g a)) <->
      is_emitting g t /\ (t = a_end a \/
        non_emitting g (a_end a) /\ next_emitting true g (a_end a) t).
  Proof.
    intros Ha. unfold follow. destruct (wf_arcs g W a Ha) as [_ Hin].
    destruct (in_states_pdf g _ Hin) as ([p|] & Ep); rewrite Ep.
    - destruct (pdf_em g _ _ W Ep) as [Hem _]. split.
      + intros y [<-|[]]. simpl. now apply P.
      + intros t. simpl. split.
        * intros [<-|[]]. auto.
        * intros [_ [->|[Hne _]]]; [now left|]. exfalso.
          unfold non_emitting in Hne. apply (pdf_of_in g _ _ (wf_nodup g W)) in Hne. congruence.
    - destruct (pdf_eps g _ W Ep) as (Hne & Hnem & _). unfold find_next_pdf_ids.
      destruct (find_ok true g (Some (a_end a)) (a_weight a) W) as (l & El & Hl). rewrite El. split.
      + intros [t w] Ht. simpl. eapply find_pos; [exact P| |exact El|exact Ht]. now apply P.
      + intros t. rewrite (find_exact true g _ _ l W El). split.
        * intros H. split; [|auto]. destruct H as (x & _ & _ & H). exact H.
        * intros [Hem [->|[_ H]]]; [|exact H]. exfalso.
          destruct Hem as (p & Hp). apply (pdf_of_in g _ _ (wf_nodup g W)) in Hp. congruence.
  Qed.

  Lemma next_split x t : is_emitting g x ->
    (next_emitting true g x t <-> exists a, In a (g_arcs g) /\ a_start a = x /\
      is_emitting g t /\ (t = a_end a \/ non_emitting g (a_end a) /\ next_emitting true g (a_end a) t)).
  Proof.
    intros Hx. split.
    - intros (y & Hr & (a & Ha & E1 & E2) & Hem).
      assert (G : forall y, eps_reach true g x y -> y = x \/
        exists b, In b (g_arcs g) /\ a_start b = x /\ non_emitting g (a_end b) /\ eps_reach true g (a_end b) y).
      { clear - Hx. induction 1 as [|y z H IH (b & Hb & F1 & F2) Hn]; [now left|]. right.
        destruct IH as [->|(d & D1 & D2 & D3 & D4)].
        - exists b. subst. repeat split; auto. constructor.
        - exists d. repeat split; auto. eapply er_step; eauto. exists b. auto. }
      destruct (G y Hr) as [->|(b & B1 & B2 & B3 & B4)].
      + exists a. subst. auto.
      + exists b. repeat split; auto. right. split; [exact B3|]. exists y. repeat split; auto.
        exists a. auto.
    - intros (a & Ha & E1 & Hem & [->|[Hne Hn]]).
      + exists x. split; [constructor|]. split; [exists a; auto|exact Hem].
      + destruct Hn as (y & Hr & Hst & _). exists y. split; [|auto].
        clear - Hr Ha E1 Hne. induction Hr as [|y z H IH S1 N1].
        * eapply er_step; [constructor| |exact Hne]. exists a. auto.
        * eapply er_step; eauto.
  Qed.

  Hypothesis Hdiag : forall i, (i < c_n c)%nat -> c_trans c i i < 1.

  Lemma trans_support x t i j : state2pdf g x = Some i -> state2pdf g t = Some j ->
    is_emitting g x ->
    (0 < c_trans c i j <-> next_emitting true g x t).
  Proof.
    intros Ei Ej Hx. destruct (compile_trans g c Hc) as (m & Em & En & Et).
    destruct (raw_trans_eq g W) as (m' & Em' & Hm). assert (m' = m) by congruence. subst m'.
    assert (Hinner : forall a q, In a (g_arcs g) ->
      0 <= sumf (fun y => if at_idx g (fst y) q then snd y else 0) (follow g a) /\
      (0 < sumf (fun y => if at_idx g (fst y) q then snd y else 0) (follow g a) <->
       exists y, In y (follow g a) /\ at_idx g (fst y) q = true)).
    { intros a q Ha. apply sumf_support. intros y Hy _. now apply (follow_support a Ha). }
    assert (Hnn : forall k q, 0 <= m k q).
    { intros k q. rewrite Hm. apply sumf_nonneg. intros a Ha. destruct (at_idx g (a_start a) k); [|lra].
      now apply Hinner. }
    assert (Hraw : 0 < m i j <-> next_emitting true g x t).
    { rewrite Hm. split.
      - intros Hp.
        assert (Hex : exists a, In a (g_arcs g) /\ at_idx g (a_start a) i = true /\
           0 < sumf (fun y => if at_idx g (fst y) j then snd y else 0) (follow g a)).
        { clear - Hp Hinner. induction (g_arcs g) as [|a l IH]; [unfold sumf in Hp; simpl in Hp; lra|].
          rewrite sumf_cons in Hp. destruct (at_idx g (a_start a) i) eqn:E.
          - destruct (proj1 (Hinner a j (or_introl eq_refl))) as [Hl|Hz].
            + exists a. split; [now left|]. auto.
            + destruct IH as (b & B1 & B2); [intros; apply Hinner; now right|rewrite <- Hz in Hp; lra|].
              exists b. split; [now right|exact B2].
          - destruct IH as (b & B1 & B2); [intros; apply Hinner; now right|lra|].
            exists b. split; [now right|exact B2]. }
        destruct Hex as (a & Ha & E1 & Hpos). apply (Hinner a j Ha) in Hpos.
        destruct Hpos as ([t' v] & Hy & E2). simpl in E2. apply at_idx_iff in E1, E2.
        assert (a_start a = x) by (eapply state2pdf_inj; eauto).
        assert (t' = t) by (eapply state2pdf_inj; eauto). subst t'.
        apply next_split; [exact Hx|]. exists a. split; [exact Ha|]. split; [assumption|].
        apply (follow_support a Ha). apply in_map_iff. exists (t, v). auto.
      - intros Hn. apply next_split in Hn; [|exact Hx]. destruct Hn as (a & Ha & E1 & Hrest).
        apply (follow_support a Ha) in Hrest. apply in_map_iff in Hrest.
        destruct Hrest as ([t' v] & E2 & Hy). simpl in E2. subst t'.
        assert (Hterm : 0 < (if at_idx g (a_start a) i
          then sumf (fun y => if at_idx g (fst y) j then snd y else 0) (follow g a) else 0)).
        { rewrite E1, (proj2 (at_idx_iff x i) Ei). apply (Hinner a j Ha). exists (t, v).
          split; [exact Hy|]. now apply at_idx_iff. }
        eapply Rlt_le_trans; [exact Hterm|].
        apply (sumf_ge_term (fun a => if at_idx g (a_start a) i
          then sumf (fun y => if at_idx g (fst y) j then snd y else 0) (follow g a) else 0)); [|exact Ha].
        intros b Hb. destruct (at_idx g (a_start b) i); [|lra]. now apply Hinner. }
    rewrite <- Hraw, Et.
    assert (Hin : (i < c_n c)%nat) by (rewrite En; apply (idx_lt x); exact Ei).
    specialize (Hdiag i Hin). rewrite Et in Hdiag. unfold norm_rows in *. rewrite norm_row_diag in Hdiag.
    unfold norm_row. destruct (Rlt_dec 0 (m i i)); [|tauto].
    destruct (Rlt_dec 0 (sumf (m i) (seq 0 (length (emitting g))) - m i i)) as [Ho|]; [|tauto].
    destruct (Nat.eqb j i) eqn:E; [apply Nat.eqb_eq in E; subst; tauto|].
    set (k := (1 - m i i) / (sumf (m i) (seq 0 (length (emitting g))) - m i i)).
    assert (Hk : 0 < k) by (apply Rdiv_lt_0_compat; lra). split; intros H.
    - apply (Rmult_lt_reg_r k); [exact Hk|]. lra.
    - now apply Rmult_lt_0_compat.
  Qed.

  (** *** Walks as sequences of emitting states *)

  Inductive hops : nat -> list nat -> list nat -> nat -> Prop :=
  | hops_end x : hops x [] [] x
  | hops_cons x t p ts ls y : next_emitting true g x t -> In (t, Some p) (g_states g) ->
      hops t ts ls y -> hops x (t :: ts) (p :: ls) y.

  Lemma walk_silent a ls w b : walk g a ls w b -> ls = [] -> eps_reach true g a b.
  Proof.
    intros H. induction H as [a|a x o ls w v b Ha Hx Hw IH]; intros E; [constructor|].
    destruct o as [p|]; simpl in E; [discriminate|]. specialize (IH E).
    clear - IH Ha Hx. assert (S1 : step true g a x) by (exists (Arc a x v); auto).
    induction IH as [|y z H1 IH1 S2 N2].
    - eapply er_step; [constructor|exact S1|exact Hx].
    - eapply er_step; eauto.
  Qed.

  Lemma eps_walk a b : eps_reach true g a b -> exists w, walk g a [] w b.
  Proof.
    induction 1 as [|x y H (w & IH) (r & Hr & E1 & E2) N]; [exists 1; constructor|].
    destruct r as [x' y' v]. simpl in E1, E2. subst x' y'.
    exists (w * (v * 1)). change ([] : list nat) with ([] ++ ([] : list nat)).
    eapply walk_app; [exact IH|]. change ([] : list nat) with (label None ++ []).
    econstructor; eauto. constructor.
  Qed.

  Lemma walk_hops a ls w b : walk g a ls w b ->
    exists ts y, hops a ts ls y /\ eps_reach true g y b.
  Proof.
    intros H. induction H as [a|a x o ls w v b Ha Hx Hw IH]; [exists [], a; split; constructor|].
    destruct IH as (ts & y & Hh & Hr).
    assert (S1 : step true g a x) by (exists (Arc a x v); auto).
    destruct o as [p|]; simpl.
    - exists (x :: ts), y. split; [|exact Hr]. econstructor; [|exact Hx|exact Hh].
      exists a. split; [constructor|]. split; [exact S1|]. now exists p.
    - assert (Hstep : forall z, eps_reach true g x z -> eps_reach true g a z).
      { induction 1 as [|y' z H1 IH1 S2 N2]; [eapply er_step; [constructor|exact S1|exact Hx]|].
        eapply er_step; eauto. }
      inversion Hh as [|? t q ts' ls' ? Hn Ht Hh']; subst.
      + exists [], a. split; [constructor|]. now apply Hstep.
      + exists (t :: ts'), y. split; [|exact Hr]. econstructor; [|exact Ht|exact Hh'].
        destruct Hn as (z & Hz & Hst & Hem). exists z. auto.
  Qed.

  Lemma hops_walk x ts ls y : hops x ts ls y -> exists w, walk g x ls w y.
  Proof.
    induction 1 as [x|x t p ts ls y Hn Ht Hh (w & IH)]; [exists 1; constructor|].
    destruct Hn as (z & Hz & (r & Hr & E1 & E2) & _). destruct r as [z' t' v]. simpl in E1, E2. subst z' t'.
    destruct (eps_walk x z Hz) as (u & Hu).
    exists (u * (v * w)). change (p :: ls) with ([] ++ (label (Some p) ++ ls)).
    eapply walk_app; [exact Hu|]. econstructor; eauto.
  Qed.

  Lemma eps_back x y : eps_reach true g x y -> non_emitting g y -> is_emitting g x ->
    next_emitting false g y x.
  Proof.
    intros H Hy Hx.
    assert (G : forall z, eps_reach true g x z -> z = x \/
      (non_emitting g z /\ exists u, eps_reach false g z u /\ step false g u x)).
    { induction 1 as [|z u H1 IH (a & Ha & E1 & E2) N]; [now left|]. right. split; [exact N|].
      destruct IH as [->|[Nz (q & Q1 & Q2)]].
      - exists u. split; [constructor|]. exists a. auto.
      - exists q. split; [|exact Q2].
        assert (S1 : step false g u z) by (exists a; auto). clear - Q1 S1 Nz.
        induction Q1 as [|y' z' H IH S2 N2]; [eapply er_step; [constructor|exact S1|exact Nz]|].
        eapply er_step; eauto. }
    destruct (G y H) as [->|[_ (u & U1 & U2)]].
    - exfalso. destruct Hx as (p & Hp). unfold non_emitting in Hy.
      apply (pdf_of_in g _ _ (wf_nodup g W)) in Hy, Hp. congruence.
    - exists u. auto.
  Qed.

  Lemma eps_forth x y : next_emitting false g y x -> non_emitting g y -> eps_reach true g x y.
  Proof.
    intros (u & Hu & (a & Ha & E1 & E2) & Hem) Hy.
    assert (G : forall u, eps_reach false g y u -> non_emitting g u /\ eps_reach true g u y).
    { induction 1 as [|z q H1 [N1 IH] (b & Hb & F1 & F2) N]; [split; [exact Hy|constructor]|].
      split; [exact N|]. assert (S1 : step true g q z) by (exists b; auto). clear - IH S1 N1.
      induction IH as [|y' z' H IH' S2 N2]; [eapply er_step; [constructor|exact S1|exact N1]|].
      eapply er_step; eauto. }
    destruct (G u Hu) as [Nu Ru]. assert (S1 : step true g x u) by (exists a; auto). clear - Ru S1 Nu.
    induction Ru as [|y' z' H IH' S2 N2]; [eapply er_step; [constructor|exact S1|exact Nu]|].
    eapply er_step; eauto.
  Qed.

  Hypothesis Ns : non_emitting g s.
  Hypothesis Ne : non_emitting g e.

  Lemma accepts_walk ls : accepts g ls <-> exists w, walk g s ls w e.
  Proof.
    unfold accepts, generates. split.
    - intros (w & s' & e' & o & ls' & E1 & E2 & Ho & Hw & ->). exists w.
      assert (s' = s) by congruence. assert (e' = e) by congruence. subst.
      unfold non_emitting in Ns. apply (pdf_of_in g _ _ (wf_nodup g W)) in Ho.
      pose proof Ns as Ns'. apply (pdf_of_in g _ _ (wf_nodup g W)) in Ns'.
      assert (o = None) by congruence. subst. exact Hw.
    - intros (w & Hw). exists w, s, e, None, ls. repeat split; auto.
  Qed.

  Lemma em_idx t : is_emitting g t -> exists k, state2pdf g t = Some k.
  Proof. intros H. destruct (state2pdf_em g t H) as (k & Hk & _). eauto. Qed.

  Lemma idx_em t k : state2pdf g t = Some k -> is_emitting g t.
  Proof. intros H. destruct (idx_map t k H) as (p & Hp & _). now exists p. Qed.

  Lemma compile_parts : exists vi vf, c_n c = n /\ c_init c = norm_vec n vi /\ c_final c = norm_vec n vf /\
    (forall k, 0 <= vi k) /\ (forall k, 0 <= vf k) /\
    (forall k, 0 < vi k <-> exists t, state2pdf g t = Some k /\ next_emitting true g s t) /\
    (forall k, 0 < vf k <-> exists t, state2pdf g t = Some k /\ next_emitting false g e t).
  Proof.
    pose proof Hc as H. unfold compile in H.
    destruct (raw_init g) as [vi|] eqn:E1; [|discriminate]. cbn [bindr] in H.
    destruct (raw_final g) as [vf|] eqn:E2; [|discriminate]. cbn [bindr] in H.
    destruct (raw_trans g) as [m|] eqn:E3; [|discriminate]. cbn [bindr] in H.
    exists vi, vf. unfold raw_init in E1. unfold raw_final in E2. rewrite Hs in E1. rewrite He in E2.
    destruct (ends_support true s vi) as [A1 A2]; [|exact E1|].
    { intros Hx. destruct (find_ok true g (Some s) 1 W) as (l & El & _). congruence. }
    destruct (ends_support false e vf) as [B1 B2]; [|exact E2|].
    { intros Hx. destruct (find_ok false g (Some e) 1 W) as (l & El & _). congruence. }
    inversion H. subst c. cbn [c_n c_init c_final]. auto 8.
  Qed.

  (** index sequences and state sequences *)
  Lemma hops_linked x i ts ls y : hops x ts ls y -> state2pdf g x = Some i ->
    exists l, linked (c_trans c) (i :: l) /\ (forall k, In k l -> (k < n)%nat) /\
      map (fun k => nth k (c_map c) 0%nat) l = ls /\ state2pdf g y = Some (last l i).
  Proof.
    intros H. revert i. induction H as [x|x t p ts ls y Hn Ht Hh IH]; intros i Ei.
    - exists []. repeat split; auto; try constructor. intros k [].
    - destruct (em_idx t) as (j & Ej); [now exists p|].
      destruct (IH j Ej) as (l & L1 & L2 & L3 & L4).
      exists (j :: l). split; [|split; [|split]].
      + constructor; [|exact L1]. apply (trans_support x t); auto. eapply idx_em; eauto.
      + intros k [<-|Hk]; [now apply (idx_lt t)|auto].
      + simpl. rewrite L3. f_equal. destruct (idx_map t j Ej) as (q & Hq & ->).
        apply (pdf_of_in g _ _ (wf_nodup g W)) in Hq, Ht. congruence.
      + rewrite L4. f_equal. clear. revert j. induction l as [|a l IH]; intros j; [reflexivity|].
        destruct l; [reflexivity|]. apply (IH i) || (simpl in *; apply IH).
  Qed.

  Lemma idx_surj k : (k < n)%nat -> exists t, state2pdf g t = Some k.
  Proof.
    intros Hk. unfold n in Hk. destruct (nth_error (emitting g) k) as [[t p]|] eqn:E.
    2:{ apply nth_error_None in E. lia. }
    exists t. destruct (emitting_spec g (wf_nodup g W)) as [Nd _] || idtac.
    assert (Hem : is_emitting g t).
    { apply emitting_in. apply nth_error_In in E. apply (in_map fst) in E. exact E. }
    destruct (state2pdf_em g t Hem) as (j & Ej & _). rewrite Ej. f_equal.
    apply index_of_nth in Ej. destruct Ej as (q & Ej).
    assert (Hnd : NoDup (map fst (emitting g))).
    { clear - W. pose proof (wf_nodup g W) as H. unfold states in H. unfold emitting.
      induction (g_states g) as [|[x o] l IH]; [constructor|]. simpl in *. inversion_clear H as [|? ? H1 H2].
      destruct o; simpl; [|auto]. constructor; [|auto]. intros Hx. apply H1.
      apply in_map_iff in Hx. destruct Hx as ([y z] & Ey & Hy). simpl in Ey. subst y.
      apply in_flat_map in Hy. destruct Hy as ([u v] & Hu & Hv). simpl in Hv. destruct v; [|inversion Hv].
      destruct Hv as [Hv|[]]. inversion Hv. subst. apply in_map_iff. eexists; split; [|exact Hu]. reflexivity. }
    eapply NoDup_nth_error; [exact Hnd| |].
    - rewrite map_length. apply nth_error_Some. congruence.
    - rewrite (map_nth_error fst _ _ Ej), (map_nth_error fst _ _ E). reflexivity.
  Qed.

  Lemma linked_hops : forall l i x, linked (c_trans c) (i :: l) -> state2pdf g x = Some i ->
    (forall k, In k l -> (k < n)%nat) ->
    exists ts y, hops x ts (map (fun k => nth k (c_map c) 0%nat) l) y /\
      state2pdf g y = Some (last l i).
  Proof.
    induction l as [|j l IH]; intros i x H Ei Hl.
    - exists [], x. split; [constructor|exact Ei].
    - inversion H as [|? ? ? Hp Hr]. subst.
      destruct (idx_surj j) as (t & Ej); [apply Hl; now left|].
      destruct (IH j t Hr Ej) as (ts & y & Hh & Ey); [intros; apply Hl; now right|].
      exists (t :: ts), y. split.
      + simpl. destruct (idx_map t j Ej) as (p & Hp' & ->). econstructor; [|exact Hp'|exact Hh].
        apply (trans_support x t i j); auto. eapply idx_em; eauto.
      + rewrite Ey. f_equal. clear. revert i j. induction l as [|a l IH]; intros i j; [reflexivity|].
        destruct l; [reflexivity|]. simpl in *. apply (IH i j).
  Qed.

  Lemma compile_language ls : ls <> [] -> (accepts g ls <-> chain_accepts c ls).
  Proof.
    intros Hne. destruct compile_parts as (vi & vf & En & Ei & Ef & Pi & Pf & Si & Sf).
    rewrite accepts_walk. split.
    - intros (w & Hw). destruct (walk_hops _ _ _ _ Hw) as (ts & y & Hh & Hr).
      inversion Hh as [|? t p ts' ls' ? Hn Ht Hh']; subst; [congruence|].
      destruct (em_idx t) as (i & Et); [now exists p|].
      destruct (hops_linked t i ts' ls' y Hh' Et) as (l & L1 & L2 & L3 & L4).
      assert (Hi : (i < n)%nat) by (now apply (idx_lt t)).
      assert (Hl : (last l i < n)%nat) by (now apply (idx_lt y)).
      assert (Pvi : 0 < vi i) by (apply Si; eauto).
      assert (Pvf : 0 < vf (last l i)).
      { apply Sf. exists y. split; [exact L4|]. apply eps_back; auto. eapply idx_em; eauto. }
      destruct (vec_support vi Pi i Hi Pvi) as (ui & Eui & Hui).
      destruct (vec_support vf Pf _ Hl Pvf) as (uf & Euf & Huf).
      exists ui, uf, l, i. rewrite Ei, Ef, En. repeat split; auto.
      + intros k [<-|Hk]; auto.
      + simpl. rewrite L3. f_equal. destruct (idx_map t i Et) as (q & Hq & ->).
        apply (pdf_of_in g _ _ (wf_nodup g W)) in Hq, Ht. congruence.
      + now apply Hui.
      + now apply Huf.
    - intros (ui & uf & l & i & Eui & Euf & Hlt & <- & Pui & Hlink & Puf).
      rewrite Ei in Eui. rewrite Ef in Euf. rewrite En in Hlt.
      apply (vec_support_inv vi ui Pi Eui) in Pui. apply (vec_support_inv vf uf Pf Euf) in Puf.
      apply Si in Pui. destruct Pui as (t & Et & Hn).
      destruct (linked_hops l i t Hlink Et) as (ts & y & Hh & Ey); [intros; apply Hlt; now right|].
      apply Sf in Puf. destruct Puf as (y' & Ey' & Hn').
      assert (y' = y) by (eapply state2pdf_inj; eauto). subst y'.
      destruct (idx_map t i Et) as (p & Hp & Ep).
      assert (Hh2 : hops s (t :: ts) (p :: map (fun k => nth k (c_map c) 0%nat) l) y)
        by (econstructor; eauto).
      destruct (hops_walk _ _ _ _ Hh2) as (w1 & Hw1).
      destruct (eps_walk y e) as (w2 & Hw2); [now apply eps_forth|].
      exists (w1 * w2). simpl map. rewrite Ep. rewrite <- (app_nil_r (p :: _)).
      eapply walk_app; eauto.
  Qed.
End Support.
