(** Alignment graphs built from left-to-right units: the diagonal of the
    compiled graph stays below one. *)
From Coq Require Import Reals String List Arith Bool Lra Lia.
From Verif Require Import Prelude FB_Model FB_Spec Graph_Model Graph_Spec Graph_Proofs Graph_Eps Graph_Hist
  Graph_Lang Graph_Props Gb_Model Gb_Spec Gb_Lang Gb_Proofs Gb_Loop Pa_Model Pa_Spec Pa_Proofs.
Import ListNotations.
Local Open Scope R_scope.

Lemma rho_nth g h t : In t (states h) -> nth (rho (mkren g h) t - g_count g) (states h) 0%nat = t.
Proof.
  intros H. pose proof (rho_in g h t H) as Hin. unfold mkren in Hin at 2.
  apply In_nth with (d := (0, 0)%nat) in Hin. destruct Hin as (i & Hi & E).
  rewrite combine_length in Hi.
  rewrite combine_nth in E by (unfold states; now rewrite map_length, seq_length).
  rewrite seq_length in Hi.
  assert (E1 : nth i (states h) 0%nat = t) by congruence.
  assert (E2 : nth i (seq (g_count g) (length (g_states h))) 0%nat = rho (mkren g h) t) by congruence.
  rewrite seq_nth in E2 by lia. rewrite <- E2.
  replace (g_count g + i - g_count g)%nat with i by lia. exact E1.
Qed.

Section RankReplace.
  Variables (g h : graph) (x hs he : nat).
  Hypothesis Wg : wf g.
  Hypothesis Wh : wf h.
  Hypothesis Hx : non_emitting g x.
  Hypothesis Hsin : In hs (states h).
  Hypothesis Hein : In he (states h).

  Let Hxs : In x (states g).
  Proof. apply in_states_iff. eauto. Qed.

  Lemma replaced_ranked : ranked g -> ranked h -> ranked (replaced g h x hs he).
  Proof.
    intros (rg & Rg) (rh & Rh). set (K := S (list_max (map rh (states h)))).
    assert (HK : forall t, In t (states h) -> (rh t < K)%nat).
    { intros t Ht. unfold K. apply Nat.lt_succ_r.
      assert (F : Forall (fun k => (k <= list_max (map rh (states h)))%nat) (map rh (states h)))
        by now apply list_max_le.
      rewrite Forall_forall in F. apply F. now apply in_map. }
    set (R := fun y => if Nat.ltb y (g_count g) then (K * rg y)%nat
                       else (K * rg x + rh (nth (y - g_count g) (states h) 0%nat))%nat).
    assert (Rold : forall y, In y (states g) -> R y = (K * rg y)%nat).
    { intros y Hy. unfold R. apply (wf_fresh g Wg) in Hy. apply Nat.ltb_lt in Hy. now rewrite Hy. }
    assert (Rnew : forall t, In t (states h) -> R (rho (mkren g h) t) = (K * rg x + rh t)%nat).
    { intros t Ht. unfold R. pose proof (rho_range g h t Ht) as Hr.
      destruct (Nat.ltb_spec (rho (mkren g h) t) (g_count g)); [lia|]. now rewrite rho_nth. }
    assert (Nold : forall y, In y (states g) -> non_emitting (replaced g h x hs he) y -> non_emitting g y).
    { intros y Hy Hn. apply in_replaced_states in Hn; auto. destruct Hn as [[Hn _]|(t & Ht & ->)]; [exact Hn|].
      apply (wf_fresh g Wg) in Hy. assert (Ht' : In t (states h)) by (apply in_states_iff; eauto).
      apply (rho_range g h) in Ht'. lia. }
    assert (Nnew : forall t, In t (states h) -> non_emitting (replaced g h x hs he) (rho (mkren g h) t) -> non_emitting h t).
    { intros t Ht Hn. apply in_replaced_states in Hn; auto. destruct Hn as [[Hn _]|(t' & Ht' & E)].
      - exfalso. assert (Hr : In (rho (mkren g h) t) (states g)) by (apply in_states_iff; eauto).
        apply (wf_fresh g Wg) in Hr. apply (rho_range g h) in Ht. lia.
      - apply rho_inj in E; auto; [subst; exact Ht'|apply in_states_iff; eauto]. }
    exists R. intros a Ha. apply in_replaced_arcs in Ha; auto.
    destruct Ha as [(H1 & _ & _)|[(b & H1 & ->)|[(b & H1 & H2 & ->)|(b & H1 & H2 & ->)]]].
    - destruct (wf_arcs g Wg a H1) as [S1 S2]. rewrite !Rold by auto. destruct (Rg a H1) as [R1 R2].
      split; [nia|]. intros Hn. assert (rg (a_start a) < rg (a_end a))%nat; [|unfold K; nia].
      apply R2. destruct Hn as [Hn|Hn]; [left|right]; auto.
    - destruct (wf_arcs h Wh b H1) as [S1 S2]. simpl. rewrite !Rnew by auto. destruct (Rh b H1) as [R1 R2].
      split; [nia|]. intros Hn. assert (rh (a_start b) < rh (a_end b))%nat; [|lia].
      apply R2. destruct Hn as [Hn|Hn]; [left|right]; auto.
    - destruct (wf_arcs g Wg b H1) as [S1 S2]. simpl. rewrite Rnew, Rold by auto.
      destruct (Rg b H1) as [_ R2]. subst x. specialize (R2 (or_introl Hx)). specialize (HK he Hein).
      split; intros; nia.
    - destruct (wf_arcs g Wg b H1) as [S1 S2]. simpl. rewrite Rnew, Rold by auto.
      destruct (Rg b H1) as [_ R2]. subst x. specialize (R2 (or_intror Hx)).
      split; intros; unfold K; nia.
  Qed.

  Lemma replaced_exits : exits g -> exits h -> exits (replaced g h x hs he).
  Proof.
    intros Eg Eh a Ha E.
    apply in_replaced_arcs in Ha; auto.
    destruct Ha as [(H1 & H2 & H3)|[(b & H1 & ->)|[(b & H1 & H2 & ->)|(b & H1 & H2 & ->)]]].
    - destruct (Eg a H1 E) as (b & B1 & B2 & B3). destruct (Nat.eq_dec (a_end b) x) as [Ex|Ex].
      + exists (Arc (a_start b) (rho (mkren g h) hs) (a_weight b)). split; [|split; [auto|]].
        * apply in_replaced_arcs; auto. right. right. right. exists b. auto.
        * simpl. destruct (wf_arcs g Wg a H1) as [S1 _]. apply (wf_fresh g Wg) in S1.
          apply (rho_range g h) in Hsin. lia.
      + exists b. split; [|auto]. apply in_replaced_arcs; auto. left. rewrite B2. auto.
    - simpl in E. destruct (wf_arcs h Wh b H1) as [S1 S2]. apply rho_inj in E; auto.
      destruct (Eh b H1 E) as (c & C1 & C2 & C3). exists (rarc (mkren g h) c). split; [|split].
      + apply in_replaced_arcs; auto. right. left. eauto.
      + simpl. now rewrite C2.
      + simpl. destruct (wf_arcs h Wh c C1) as [_ S4]. intros Hc. apply rho_inj in Hc; auto.
    - simpl in E. destruct (wf_arcs g Wg b H1) as [_ S2]. apply (wf_fresh g Wg) in S2.
      apply (rho_range g h) in Hein. lia.
    - simpl in E. destruct (wf_arcs g Wg b H1) as [S1 _]. apply (wf_fresh g Wg) in S1.
      apply (rho_range g h) in Hsin. lia.
  Qed.
End RankReplace.

Lemma ranked_no_loop g x : ranked g -> non_emitting g x -> no_self_loop g x.
Proof.
  intros (r & R) Hx a Ha [E1 E2]. destruct (R a Ha) as [_ H]. rewrite E1, E2 in H.
  specialize (H (or_introl Hx)). lia.
Qed.

Lemma replace_all_rank : forall l g g', wf g -> NoDup (map fst l) ->
  (forall x h, In (x, h) l -> non_emitting g x /\ usable h /\ ranked h /\ exits h) ->
  ranked g -> exits g -> replace_all l g = Ok g' -> ranked g' /\ exits g'.
Proof.
  induction l as [|[x h] l IH]; intros g g' Wg Hnd Hl Rg Eg H; unfold replace_all in H; simpl in H.
  - inv H. auto.
  - inversion_clear Hnd as [|? ? Hxl Hnd'].
    destruct (Hl x h (or_introl eq_refl)) as
      (Hxg & (Wh & (hs & Es & Hhs) & (he & Ee & Hhe)) & Rh & Eh).
    assert (Hxs : In x (states g)) by (apply in_states_iff; eauto).
    assert (Hloop : no_self_loop g x) by now apply ranked_no_loop.
    rewrite (replace_state_eq g h x hs he) in H by auto. simpl in H.
    eapply IH; [| | | | |exact H]; auto.
    + now apply replaced_wf.
    + intros y hy Hy. destruct (Hl y hy (or_intror Hy)) as (H1 & H2).
      assert (y <> x). { intros ->. apply Hxl. apply in_map_iff. exists (x, hy); auto. }
      split; [|exact H2]. apply in_replaced_states; auto.
    + now apply replaced_ranked.
    + now apply replaced_exits.
Qed.

Lemma linear_rank n : ranked (linear n) /\ exits (linear n).
Proof.
  split.
  - exists (fun i => i). intros a Ha. simpl in Ha. apply in_chain in Ha. destruct Ha as (i & _ & ->).
    simpl. lia.
  - intros a Ha E. simpl in Ha. apply in_chain in Ha. destruct Ha as (i & _ & ->). simpl in E. lia.
Qed.

Lemma normalize_rank g g' : NoDup (states g) -> normalize g = Ok g' ->
  ranked g -> exits g -> ranked g' /\ exits g'.
Proof.
  intros Hnd H (r & R) E. destruct (normalize_arcs g g' Hnd H) as (E1 & _ & _ & _ & A1 & A2).
  split.
  - exists r. intros a Ha. destruct (A2 a Ha) as (v & Hv). specialize (R _ Hv). simpl in R.
    unfold non_emitting in *. rewrite E1. exact R.
  - intros a Ha Ee. destruct (A2 a Ha) as (v & Hv). destruct (E _ Hv Ee) as (b & B1 & B2 & B3).
    destruct (A1 b B1) as (w & Hw). exists (Arc (a_start b) (a_end b) w). auto.
Qed.

(** ** The diagonal *)
Lemma rank_eps g r : (forall a, In a (g_arcs g) ->
    (r (a_start a) <= r (a_end a))%nat /\
    (non_emitting g (a_start a) \/ non_emitting g (a_end a) -> (r (a_start a) < r (a_end a))%nat)) ->
  forall x y, eps_reach true g x y -> (r x <= r y)%nat.
Proof.
  intros R x y H. induction H as [|y z Hy IH (a & Ha & <- & <-) Hn]; [lia|].
  destruct (R a Ha) as [H1 _]. lia.
Qed.

Lemma diag_lt_one g c i : wf g -> all_positive g -> normalised g -> ranked g -> exits g ->
  compile g = Ok c -> (i < c_n c)%nat -> Graph_Model.c_trans c i i < 1.
Proof.
  intros W P N (r & R) E Ec Hi. destruct (compile_trans g c Ec) as (m & Hm & En & Et).
  rewrite Et. unfold norm_rows. rewrite norm_row_diag. rewrite En in Hi.
  destruct (idx_state g W i Hi) as (s & Es).
  assert (Hem : is_emitting g s) by (eapply state2pdf_is_em; eauto).
  destruct (Rlt_dec 0 (m i i)) as [Hp|]; [|lra].
  pose proof (rank_eps g r R) as Re.
  apply (next_iff g W P m s i s i Hm Es Es) in Hp. destruct Hp as (x & H1 & H2 & _).
  assert (Hx : x = s).
  { destruct (eps_reach_first _ _ _ _ H1) as [->|(b & (a & Ha & <- & <-) & Hb & H3)]; auto. exfalso.
    destruct (R a Ha) as [_ Hs]. specialize (Hs (or_intror Hb)). apply Re in H3.
    destruct H2 as (a' & Ha' & <- & E2). destruct (R a' Ha') as [Hs' _]. rewrite E2 in Hs'. lia. }
  subst x. destruct H2 as (a & Ha & A1 & A2).
  destruct (E a Ha) as (b & B1 & B2 & B3); [congruence|]. rewrite A1 in B2, B3.
  destruct (raw_trans_eq g W) as (m' & Hm' & Hk). assert (m' = m) by congruence. subst m'. rewrite Hk.
  set (F := fun a => if at_idx g (a_start a) i
      then sumf (fun y => if at_idx g (fst y) i then snd y else 0) (follow g a) else 0).
  assert (HF : forall a, In a (g_arcs g) -> F a =
     if Nat.eqb (a_start a) s then if Nat.eqb (a_end a) s then a_weight a else 0 else 0).
  { intros d Hd. unfold F. rewrite (at_idx_eq g s i) by auto.
    destruct (Nat.eqb_spec (a_start d) s) as [Ed|]; [|reflexivity].
    destruct (follow_support g d W P Hd) as [F1 F2].
    destruct (wf_arcs g W d Hd) as [_ He]. apply in_states_iff in He. destruct He as ([p|] & Ho).
    - unfold follow. pose proof Ho as Ho'. apply (pdf_of_in g _ _ (wf_nodup g W)) in Ho'. rewrite Ho'.
      unfold sumf. simpl. rewrite (at_idx_eq g s i) by auto. destruct (Nat.eqb (a_end d) s); lra.
    - assert (Hne : a_end d <> s). { intros Hc. rewrite Hc in Ho. now apply (em_not_eps g s W Hem). }
      apply Nat.eqb_neq in Hne. rewrite Hne. apply sumf_zero. intros [t v] Ht. simpl.
      rewrite (at_idx_eq g s i) by auto. destruct (Nat.eqb_spec t s); [|reflexivity]. subst t. exfalso.
      assert (Hin : In s (map fst (follow g d))) by (apply in_map_iff; exists (s, v); auto).
      apply F2 in Hin. destruct Hin as [[Hc _]|[_ (x & X1 & (a' & Ha' & X2 & X3) & _)]].
      + now apply (em_not_eps g _ W Hc).
      + destruct (R d Hd) as [_ Hs]. specialize (Hs (or_intror Ho)). apply Re in X1.
        destruct (R a' Ha') as [Hs' _]. rewrite X2, X3 in Hs'. rewrite Ed in Hs. lia. }
  rewrite (sumf_ext F _ _ HF).
  destruct (N s) as [Hno|Hsum].
  { apply in_states_iff. destruct Hem as (p & Hp). eauto. }
  { exfalso. now apply (Hno a). }
  assert (Hd : sumf (fun a => if Nat.eqb (a_start a) s then a_weight a else 0) (g_arcs g) =
    sumf (fun a => if Nat.eqb (a_start a) s then if Nat.eqb (a_end a) s then a_weight a else 0 else 0) (g_arcs g) +
    sumf (fun a => if Nat.eqb (a_start a) s then if Nat.eqb (a_end a) s then 0 else a_weight a else 0) (g_arcs g)).
  { rewrite <- sumf_plus. apply sumf_ext. intros d _.
    destruct (Nat.eqb (a_start d) s), (Nat.eqb (a_end d) s); lra. }
  assert (Hpos : 0 < sumf (fun a => if Nat.eqb (a_start a) s then if Nat.eqb (a_end a) s then 0 else a_weight a else 0) (g_arcs g)).
  { apply sumf_pos_iff.
    - intros d Hd'. apply P in Hd'. destruct (Nat.eqb (a_start d) s), (Nat.eqb (a_end d) s); lra.
    - exists b. split; auto. rewrite B2, Nat.eqb_refl. apply Nat.eqb_neq in B3. rewrite B3. auto. }
  lra.
Qed.

(** ** Units and alignment graphs *)
Lemma unit_of_rank t k n : (2 <= n)%nat -> contiguous t n -> one_way t n ->
  ranked (unit_of t k n) /\ exits (unit_of t k n).
Proof.
  intros Hn Hc (O1 & O2 & O3).
  assert (Hin : forall a, In a (g_arcs (unit_of t k n)) -> exists b, In b t /\ a = triple_arc b).
  { intros a Ha. simpl in Ha. apply fold_arc_add_in in Ha. destruct Ha as [[]|Ha].
    apply in_map_iff in Ha. destruct Ha as (b & <- & Hb). eauto. }
  assert (Hall : forall b, In b t -> exists w, In (Arc (fst (fst b)) (snd (fst b)) w) (g_arcs (unit_of t k n))).
  { intros b Hb.
    assert (Hk : In (key (triple_arc b)) (map key (g_arcs (unit_of t k n)))).
    { simpl. apply fold_arc_add_keys. right. apply in_map. apply in_map. exact Hb. }
    apply in_map_iff in Hk. destruct Hk as ([s e w] & Ek & Hin'). unfold key in Ek. simpl in Ek.
    inversion Ek. subst. eauto. }
  assert (Hne : forall s, non_emitting (unit_of t k n) s -> s = 0%nat \/ s = (n - 1)%nat).
  { intros s Hs. unfold non_emitting in Hs. simpl in Hs. apply unit_sts_in in Hs. destruct Hs as [_ Hs].
    unfold unit_pdf in Hs. destruct (Nat.eqb_spec s 0); [auto|]. destruct (Nat.eqb_spec s (n - 1)); [auto|discriminate]. }
  split.
  - exists (fun s => if Nat.eqb s 0 then 0%nat else if Nat.eqb s (n - 1) then 2%nat else 1%nat).
    intros a Ha. destruct (Hin a Ha) as (b & Hb & ->). unfold triple_arc. simpl.
    pose proof (O1 b Hb) as H1. pose proof (O2 b Hb) as H2.
    assert (Hlt : forall y, (exists a, In a t /\ (fst (fst a) = y \/ snd (fst a) = y)) -> (y < n)%nat)
      by (intros; now apply Hc).
    destruct (Nat.eqb_spec (snd (fst b)) 0); [lia|]. destruct (Nat.eqb_spec (fst (fst b)) (n - 1)); [lia|].
    destruct (Nat.eqb_spec (fst (fst b)) 0); destruct (Nat.eqb_spec (snd (fst b)) (n - 1)); cbn; split; try lia.
    intros [Hx|Hx]; apply Hne in Hx; simpl in Hx; lia.
  - intros a Ha E. destruct (Hin a Ha) as (b & Hb & ->). unfold triple_arc in *. simpl in *.
    destruct (O3 b Hb E) as (c & C1 & C2 & C3). destruct (Hall c C1) as (w & Hw).
    eexists. split; [exact Hw|]. simpl. auto.
Qed.

Lemma ali_full pg sq hs : Forall2 (fun p h => sget p pg = Ok h) sq hs -> Forall usable hs ->
  Forall all_positive hs ->
  exists g, ali_graph sq pg = Ok g /\ wf g /\ all_positive g /\ normalised g /\
    (exists s e, g_start g = Some s /\ g_end g = Some e /\ non_emitting g s /\ non_emitting g e) /\
    (Forall (fun h => ranked h /\ exits h) hs -> ranked g /\ exits g).
Proof.
  intros F U P.
  assert (El : length hs = length sq) by (eapply ali_length; eauto).
  pose proof (replace_phones_eq pg sq hs (seq 1 (length sq)) (linear (length sq)) (seq_length _ _) F) as Er.
  set (n := length sq) in *. set (l := combine (seq 1 n) hs) in *.
  assert (Ef : map fst l = seq 1 n) by (unfold l; apply combine_map_fst; now rewrite seq_length).
  assert (Est : states (linear n) = seq 0 (n + 2)) by (unfold states; simpl; apply states_plain).
  destruct (replace_all_spec l (linear n) nosg (linear_wf n)) as
    (g0 & E0 & W0 & S1 & S2 & O & _ & Pp & _).
  { rewrite Ef. apply seq_NoDup. }
  { intros x h Hx. rewrite Forall_forall in U. split; [|split].
    - rewrite Est. apply in_seq. apply in_combine_l in Hx. apply in_seq in Hx. lia.
    - apply U. now apply in_combine_r in Hx.
    - intros a Ha [E1 E2]. simpl in Ha. apply in_chain in Ha. destruct Ha as (i & _ & ->). simpl in *. lia. }
  { reflexivity. }
  { reflexivity. }
  assert (P0 : pos_weights g0).
  { apply Pp.
    - intros a Ha. simpl in Ha. apply in_chain in Ha. destruct Ha as (i & _ & ->). simpl. lra.
    - intros x h Hx. rewrite Forall_forall in P. apply P. now apply in_combine_r in Hx. }
  destruct (normalize_pos g0 (wf_nodup _ W0) P0) as (g & Eg & Pg).
  destruct (normalize_arcs g0 g (wf_nodup _ W0) Eg) as (N1 & N2 & N3 & N4 & _ & _).
  exists g. split; [|split; [|split; [|split; [|split]]]].
  - unfold ali_graph. rewrite linear_graph_eq. fold n. rewrite Er, E0. exact Eg.
  - eapply normalize_wf; eauto.
  - exact Pg.
  - destruct (C02_normalize_exact g0 (wf_nodup _ W0)) as [H _].
    destruct (H g Eg) as (_ & _ & _ & F2 & H').
    intros s Hs. unfold states in Hs. rewrite N1 in Hs. destruct (H' s Hs) as [H1|[_ H1]]; auto.
    left. intros a Ha. clear - F2 Ha H1. revert H1 Ha. induction F2 as [|x y l l' (E & _) F IH]; intros H1 Ha; [destruct Ha|].
    destruct Ha as [<-|Ha]; [rewrite E; apply H1; now left|]. apply IH; auto. intros; apply H1; now right.
  - exists 0%nat, (n + 1)%nat. rewrite N2, N3, S1, S2. unfold non_emitting. rewrite N1.
    repeat split; auto; apply O; try (rewrite Est; apply in_seq; lia); try (rewrite Ef, in_seq; lia);
      simpl; apply in_plain; split; auto; lia.
  - intros Hr.
    assert (H0 : ranked g0 /\ exits g0).
    { apply (replace_all_rank l (linear n) g0 (linear_wf n)); try (apply linear_rank).
      - rewrite Ef. apply seq_NoDup.
      - intros x h Hx. rewrite Forall_forall in Hr, U. pose proof (in_combine_l _ _ _ _ Hx) as H1.
        pose proof (in_combine_r _ _ _ _ Hx) as H2. apply in_seq in H1.
        split; [|split; [auto|now apply Hr]].
        unfold non_emitting. simpl. apply in_plain. split; auto. lia.
      - exact E0. }
    now apply (normalize_rank g0 g (wf_nodup _ W0) Eg).
Qed.
