(** The decoding graph of left-to-right units: no state returns to itself
    through non-emitting states. *)
From Coq Require Import Reals String List Arith Bool Lra Lia Permutation.
From Verif Require Import Prelude FB_Model FB_Spec Graph_Model Graph_Spec Graph_Proofs Graph_Eps Graph_Hist
  Graph_Lang Graph_Props Gb_Model Gb_Spec Gb_Lang Gb_Proofs Gb_Loop Cl_Props Pa_Model Pa_Spec Pa_Proofs Pa_Rank.
Import ListNotations.
Local Open Scope R_scope.

(** Non-emitting states lead to states of [I] and are reached from states of
    [O]. *)
Definition gated (I O : nat -> Prop) (g : graph) : Prop :=
  forall a, In a (g_arcs g) ->
    (forall p, non_emitting g (a_start a) -> In (a_end a, Some p) (g_states g) -> I p) /\
    (forall p, In (a_start a, Some p) (g_states g) -> non_emitting g (a_end a) -> O p).

Section Replace.
  Variables (I O : nat -> Prop) (g h : graph) (x hs he : nat).
  Hypothesis Wg : wf g.
  Hypothesis Wh : wf h.
  Hypothesis Hx : non_emitting g x.
  Hypothesis Hs : non_emitting h hs.
  Hypothesis He : non_emitting h he.

  Lemma replaced_gated : gated I O g -> gated I O h -> gated I O (replaced g h x hs he).
  Proof.
    intros Gg Gh.
    assert (Hsin : In hs (states h)) by (apply in_states_iff; eauto).
    assert (Hein : In he (states h)) by (apply in_states_iff; eauto).
    assert (Hxs : In x (states g)) by (apply in_states_iff; eauto).
    assert (Old : forall y o, In y (states g) -> In (y, o) (g_states (replaced g h x hs he)) -> In (y, o) (g_states g)).
    { intros y o Hy Hn. apply in_replaced_states in Hn; auto. destruct Hn as [[Hn _]|(t & Ht & ->)]; [exact Hn|].
      apply (wf_fresh g Wg) in Hy. assert (Ht' : In t (states h)) by (apply in_states_iff; eauto).
      apply (rho_range g h) in Ht'. lia. }
    assert (New : forall t o, In t (states h) -> In (rho (mkren g h) t, o) (g_states (replaced g h x hs he)) ->
      In (t, o) (g_states h)).
    { intros t o Ht Hn. apply in_replaced_states in Hn; auto. destruct Hn as [[Hn _]|(t' & Ht' & E)].
      - exfalso. assert (Hr : In (rho (mkren g h) t) (states g)) by (apply in_states_iff; eauto).
        apply (wf_fresh g Wg) in Hr. apply (rho_range g h) in Ht. lia.
      - apply rho_inj in E; auto; [subst; exact Ht'|apply in_states_iff; eauto]. }
    assert (Uniq : forall t p, In (t, Some p) (g_states h) -> In (t, None) (g_states h) -> False).
    { intros t p H1 H2. apply (pdf_of_in h _ _ (wf_nodup h Wh)) in H1. apply (pdf_of_in h _ _ (wf_nodup h Wh)) in H2. congruence. }
    intros a Ha. apply in_replaced_arcs in Ha; auto. unfold non_emitting in *.
    destruct Ha as [(H1 & H2 & H3)|[(b & H1 & ->)|[(b & H1 & H2 & ->)|(b & H1 & H2 & ->)]]].
    - destruct (wf_arcs g Wg a H1) as [S1 S2]. destruct (Gg a H1) as [A B]. split; intros p P1 P2.
      + apply A; apply Old; auto.
      + apply B; apply Old; auto.
    - destruct (wf_arcs h Wh b H1) as [S1 S2]. destruct (Gh b H1) as [A B]. simpl. split; intros p P1 P2.
      + apply A; apply New; auto.
      + apply B; apply New; auto.
    - destruct (wf_arcs g Wg b H1) as [S1 S2]. destruct (Gg b H1) as [A B]. simpl. split; intros p P1 P2.
      + apply A; [|apply Old; auto]. unfold non_emitting. now rewrite H2.
      + exfalso. apply New in P1; auto. eauto.
    - destruct (wf_arcs g Wg b H1) as [S1 S2]. destruct (Gg b H1) as [A B]. simpl. split; intros p P1 P2.
      + exfalso. apply New in P2; auto. eauto.
      + apply B; [apply Old; auto|]. unfold non_emitting. now rewrite H2.
  Qed.
End Replace.

(** Graphs with non-emitting ends *)
Definition hooked (h : graph) : Prop :=
  exists hs he, g_start h = Some hs /\ g_end h = Some he /\ non_emitting h hs /\ non_emitting h he.

Lemma replace_all_gated (I O : nat -> Prop) : forall l g g', wf g -> NoDup (map fst l) ->
  (forall x h, In (x, h) l -> non_emitting g x /\ no_self_loop g x /\ wf h /\ hooked h /\ gated I O h /\ exits h) ->
  gated I O g -> exits g -> replace_all l g = Ok g' -> gated I O g' /\ exits g'.
Proof.
  induction l as [|[x h] l IH]; intros g g' Wg Hnd Hl Rg Eg H; unfold replace_all in H; simpl in H.
  - inv H. auto.
  - inversion_clear Hnd as [|? ? Hxl Hnd'].
    destruct (Hl x h (or_introl eq_refl)) as (Hxg & Hloop & Wh & (hs & he & Es & Ee & Ns & Ne) & Rh & Eh).
    assert (Hhs : In hs (states h)) by (apply in_states_iff; eauto).
    assert (Hhe : In he (states h)) by (apply in_states_iff; eauto).
    assert (Hxs : In x (states g)) by (apply in_states_iff; eauto).
    rewrite (replace_state_eq g h x hs he) in H by auto. simpl in H.
    eapply IH; [| | | | |exact H]; auto.
    + now apply replaced_wf.
    + intros y hy Hy. destruct (Hl y hy (or_intror Hy)) as (H1 & H2 & H3).
      assert (y <> x). { intros ->. apply Hxl. apply in_map_iff. exists (x, hy); auto. }
      split; [apply in_replaced_states; auto|]. split; [|exact H3].
      apply replaced_loops; auto. apply in_states_iff. eauto.
    + now apply replaced_gated.
    + now apply replaced_exits.
Qed.

Lemma normalize_gated (I O : nat -> Prop) g g' : NoDup (states g) -> normalize g = Ok g' ->
  gated I O g -> exits g -> gated I O g' /\ exits g'.
Proof.
  intros Hnd H R E. destruct (normalize_arcs g g' Hnd H) as (E1 & _ & _ & _ & A1 & A2).
  split.
  - intros a Ha. destruct (A2 a Ha) as (v & Hv). specialize (R _ Hv). simpl in R.
    unfold non_emitting in *. rewrite E1. exact R.
  - intros a Ha Ee. destruct (A2 a Ha) as (v & Hv). destruct (E _ Hv Ee) as (b & B1 & B2 & B3).
    destruct (A1 b B1) as (w & Hw). exists (Arc (a_start b) (a_end b) w). auto.
Qed.

(** ** The diagonal *)
Lemma eps_from_plain g s x : non_emitting g s -> eps_reach true g s x -> non_emitting g x.
Proof. intros H E. destruct E; auto. Qed.

Lemma gated_diag (I O : nat -> Prop) g c : wf g -> all_positive g -> normalised g -> exits g -> gated I O g ->
  (forall p, I p -> O p -> False) -> compile g = Ok c -> forall i, (i < c_n c)%nat -> Graph_Model.c_trans c i i < 1.
Proof.
  intros W P N E G D Ec. apply (diag_direct g c W Ec).
  - intros a Ha Es. destruct (E a Ha Es) as (b & B1 & B2 & B3). destruct (wf_arcs g W a Ha) as [S1 _].
    destruct (N (a_start a) S1) as [Hno|Hsum]; [exfalso; now apply (Hno a)|].
    assert (Ls : forall l, (forall d, In d l -> 0 < a_weight d) -> In a l -> In b l ->
      a_weight a + a_weight b <= sumf (fun d => if Nat.eqb (a_start d) (a_start a) then a_weight d else 0) l).
    { assert (Hab : a <> b) by (intros ->; congruence).
      assert (L1 : forall l c0, (forall d, In d l -> 0 < a_weight d) -> In c0 l -> a_start c0 = a_start a ->
        a_weight c0 <= sumf (fun d => if Nat.eqb (a_start d) (a_start a) then a_weight d else 0) l).
      { induction l as [|d l IH]; intros c0 Hp Hi Hc; [destruct Hi|]. rewrite sumf_cons.
        assert (0 <= sumf (fun d0 => if Nat.eqb (a_start d0) (a_start a) then a_weight d0 else 0) l).
        { apply sumf_nonneg. intros y Hy. destruct (Nat.eqb _ _); [|lra]. left. apply Hp. now right. }
        destruct Hi as [->|Hi].
        - rewrite Hc, Nat.eqb_refl. lra.
        - assert (0 < a_weight d) by (apply Hp; now left).
          assert (a_weight c0 <= sumf (fun d0 => if Nat.eqb (a_start d0) (a_start a) then a_weight d0 else 0) l)
            by (apply IH; auto; intros; apply Hp; now right).
          destruct (Nat.eqb _ _); lra. }
      induction l as [|d l IH]; intros Hp Ha' Hb'; [destruct Ha'|]. rewrite sumf_cons.
      assert (Hp' : forall d, In d l -> 0 < a_weight d) by (intros; apply Hp; now right).
      destruct Ha' as [->|Ha'], Hb' as [->|Hb'].
      - congruence.
      - rewrite Nat.eqb_refl. specialize (L1 l b Hp' Hb' B2). lra.
      - rewrite B2, Nat.eqb_refl. specialize (L1 l a Hp' Ha' eq_refl). lra.
      - assert (0 < a_weight d) by (apply Hp; now left). specialize (IH Hp' Ha' Hb'). destruct (Nat.eqb _ _); lra. }
    specialize (Ls (g_arcs g) P Ha B1). specialize (P b B1). lra.
  - intros a Ha Hn (y & Y1 & (b & Hb & <- & Eb) & (p & Hp)).
    assert (Hy := eps_from_plain g _ _ Hn Y1). destruct (G a Ha) as [_ A2]. destruct (G b Hb) as [B1 _].
    rewrite Eb in B1. exact (D p (B1 p Hy Hp) (A2 p Hp Hn)).
Qed.

(** ** Units *)
Lemma unit_of_gated (I O : nat -> Prop) t k n e x : (2 <= n)%nat -> contiguous t n -> one_way t n ->
  single_entry t n e -> single_exit t n x -> I (k + (e - 1))%nat -> O (k + (x - 1))%nat ->
  gated I O (unit_of t k n) /\ hooked (unit_of t k n) /\ exits (unit_of t k n).
Proof.
  intros Hn Hc Ho (He & _ & Le) (Hx & _ & Lx) HI HO. split; [|split; [|now apply (unit_of_rank t k n)]].
  - destruct Ho as (O1 & O2 & _).
    assert (Hne : forall s, non_emitting (unit_of t k n) s -> s = 0%nat \/ s = (n - 1)%nat).
    { intros s Hs. unfold non_emitting in Hs. simpl in Hs. apply unit_sts_in in Hs. destruct Hs as [_ Hs].
      unfold unit_pdf in Hs. destruct (Nat.eqb_spec s 0); [auto|]. destruct (Nat.eqb_spec s (n - 1)); [auto|discriminate]. }
    assert (Hem : forall s p, In (s, Some p) (g_states (unit_of t k n)) -> p = (k + (s - 1))%nat).
    { intros s p Hs. simpl in Hs. apply unit_sts_in in Hs. destruct Hs as [_ Hs].
      unfold unit_pdf in Hs. destruct (_ || _) in Hs; [discriminate|]. congruence. }
    intros a Ha. simpl in Ha. apply fold_arc_add_in in Ha. destruct Ha as [[]|Ha].
    apply in_map_iff in Ha. destruct Ha as (b & <- & Hb). unfold triple_arc. cbn [a_start a_end].
    split; intros p P1 P2.
    + apply Hem in P2. apply Hne in P1. destruct P1 as [P1|P1]; [|exfalso; now apply (O2 b Hb)].
      rewrite P2, (Le b Hb P1). exact HI.
    + apply Hem in P1. apply Hne in P2. destruct P2 as [P2|P2]; [exfalso; now apply (O1 b Hb)|].
      rewrite P1, (Lx b Hb P2). exact HO.
  - exists 0%nat, (n - 1)%nat. split; [reflexivity|]. split; [reflexivity|]. unfold non_emitting. simpl.
    split; apply unit_sts_in; unfold unit_pdf; rewrite Nat.eqb_refl, ?orb_true_r; split; auto; lia.
Qed.

(** ** The decoding graph *)
Lemma decode_gated (I O : nat -> Prop) group lines ul units pl sym g sp ep c :
  mapM unit_line lines = Ok ul -> NoDup (map fst ul) ->
  (forall u, In u (map fst ul) -> ~ special u) -> group <> Some ""%string ->
  Permutation (map fst units) (map fst ul) ->
  (forall n h, In (n, h) units -> usable h /\ all_positive h /\ gated I O h /\ hooked h /\ exits h) ->
  (forall p, I p -> O p -> False) ->
  mkphoneloopgraph group lines = Ok (pl, sym) -> mkdecodegraph pl sym units = Ok (g, sp, ep) -> compile g = Ok c ->
  wf g /\ all_positive g /\ g_start g = Some 0%nat /\ g_end g = Some 1%nat /\ non_emitting g 0 /\ non_emitting g 1 /\
  forall i, (i < c_n c)%nat -> Graph_Model.c_trans c i i < 1.
Proof.
  intros Hul Hnd Hsp Hgr Hperm Hu D Ep Ed Ec.
  destruct (normalize_pos _ (wf_nodup _ (loop_wf group ul Hsp)) (loop_pos group ul)) as (pl' & Hpl & _).
  rewrite (phoneloop_eq group lines ul Hul Hnd Hsp Hgr), Hpl in Ep. cbn [bindr] in Ep. assert (pl' = pl) by congruence. assert (Esy : sym = swap (u2s ul)) by congruence. subst pl' sym. clear Ep.
  destruct (pl_facts group ul Hsp pl Hpl) as (P1 & P2 & P3 & P4 & P5 & P6 & P7).
  assert (Est : states pl = seq 0 (3 + length ul)) by now apply (pl_states group ul Hsp pl Hpl).
  set (l := dec_list ul units).
  assert (Hin : forall x h, In (x, h) l -> (3 <= x < 3 + length ul)%nat /\ exists n, In (n, h) units).
  { intros x h Hx. split.
    - apply (dec_states ul Hnd Hsp units Hperm). apply in_map_iff. exists (x, h). auto.
    - unfold l, dec_list in Hx. apply in_map_iff in Hx. destruct Hx as ([n h'] & E & Hx). inversion E. subst. eauto. }
  assert (Hns : forall x, no_self_loop pl x).
  { intros x a Ha [E1 E2].
    assert (K : In (x, x) (map key (g_arcs (raw_loop group ul)))).
    { apply P7. exists (a_weight a). destruct a as [s' e' w']. simpl in *. subst. exact Ha. }
    apply loop_keys in K.
    assert (St : forall u, In u (map fst ul) -> (3 <= st ul u)%nat) by (intros u Hu'; now apply st_unit).
    destruct K as [(u & Hu1 & K)|(u & Hu1 & K)].
    - assert (Hst : (2 <= st ul u)%nat).
      { unfold seu in Hu1. destruct group as [gr|].
        - apply in_map_iff in Hu1. destruct Hu1 as (y & <- & Hy). apply filter_In in Hy.
          assert (H := St (fst y) (in_map fst _ _ (proj1 Hy))). lia.
        - destruct Hu1 as [<-|[]]. rewrite st_pivot. lia. }
      lia.
    - specialize (St u Hu1). lia. }
  assert (Hnon : forall x, (x < 3 + length ul)%nat -> non_emitting pl x).
  { intros x Hx. unfold non_emitting. rewrite P1. apply in_plain. split; [lia|reflexivity]. }
  destruct (replace_all_spec l pl nosg P5 (dec_nodup ul Hnd Hsp units Hperm)) as
    (g0 & E0 & W0 & S1 & S2 & Ost & _ & Pp & _).
  { intros x h Hx. destruct (Hin x h Hx) as (Hr & n & Hn). split; [rewrite Est; apply in_seq; lia|].
    split; [now apply (Hu n h)|apply Hns]. }
  { reflexivity. }
  { reflexivity. }
  assert (P0 : pos_weights g0).
  { apply Pp; [exact P6|]. intros x h Hx. destruct (Hin x h Hx) as (_ & n & Hn). apply (Hu n h Hn). }
  assert (G0 : gated I O g0 /\ exits g0).
  { apply (replace_all_gated I O l pl g0 P5 (dec_nodup ul Hnd Hsp units Hperm)).
    - intros x h Hx. destruct (Hin x h Hx) as (Hr & n & Hn). destruct (Hu n h Hn) as (U1 & U2 & U3 & U4 & U5).
      split; [apply Hnon; lia|]. split; [apply Hns|]. split; [apply U1|]. auto.
    - intros a Ha. split; intros p X1 X2; exfalso.
      + rewrite P1 in X2. apply in_plain in X2. destruct X2. discriminate.
      + rewrite P1 in X1. apply in_plain in X1. destruct X1. discriminate.
    - intros a Ha E. exfalso. now apply (Hns (a_start a) a).
    - exact E0. }
  unfold mkdecodegraph in Ed. rewrite (fold_sset_swap_append (u2s ul) []) in Ed by (simpl; apply u2s_nodup; auto).
  cbn [app] in Ed. rewrite (dec_fold ul units Hperm pl) in Ed. fold l in Ed. rewrite E0 in Ed. cbn [bindr] in Ed.
  destruct (normalize_pos g0 (wf_nodup _ W0) P0) as (g' & Eg & Pg). rewrite Eg in Ed. cbn [bindr] in Ed.
  assert (g' = g). { destruct (mapM _ units) in Ed; [|discriminate]. cbn [bindr] in Ed. congruence. } subst g'.
  destruct (normalize_arcs g0 g (wf_nodup _ W0) Eg) as (N1 & N2 & N3 & N4 & _ & _).
  assert (Wg : wf g) by (eapply normalize_wf; eauto).
  assert (Ng : normalised g).
  { destruct (C02_normalize_exact g0 (wf_nodup _ W0)) as [H _].
    destruct (H g Eg) as (_ & _ & _ & F2 & H').
    intros s Hs. unfold states in Hs. rewrite N1 in Hs. destruct (H' s Hs) as [H1|[_ H1]]; auto.
    left. intros a Ha. clear - F2 Ha H1. revert H1 Ha. induction F2 as [|x y l l' (E & _) F IH]; intros H1 Ha; [destruct Ha|].
    destruct Ha as [<-|Ha]; [rewrite E; apply H1; now left|]. apply IH; auto. intros; apply H1; now right. }
  destruct (normalize_gated I O g0 g (wf_nodup _ W0) Eg (proj1 G0) (proj2 G0)) as (Gg & Xg).
  split; [exact Wg|]. split; [exact Pg|]. split; [congruence|]. split; [congruence|].
  assert (Old : forall s, (s < 3)%nat -> non_emitting g s).
  { intros s Hs. unfold non_emitting. rewrite N1. apply Ost; [rewrite Est; apply in_seq; lia| |apply Hnon; lia].
    intros Hc. apply (dec_states ul Hnd Hsp units Hperm) in Hc. lia. }
  split; [apply Old; lia|]. split; [apply Old; lia|].
  exact (gated_diag I O g c Wg Pg Ng Xg Gg D Ec).
Qed.
