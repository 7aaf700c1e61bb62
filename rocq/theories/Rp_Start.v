(** Where the paths of a phone-loop begin, and the units of the recipes. *)
From Coq Require Import Reals String List Arith Bool Lia Lra Permutation.
From Verif Require Import Prelude Vec FB_Model FB_Spec FB_Proofs FB_Viterbi Graph_Model Graph_Spec Graph_Proofs Graph_Eps Graph_Hist
  Graph_Lang Graph_Props Gb_Model Gb_Spec Gb_Lang Gb_Proofs Gb_Loop Gb_Props Cl_Props Pa_Model Pa_Spec Pa_Proofs Pa_Rank Pa_Props.
From Verif Require Import Set_Model Set_Spec HMM_Model HMM_Spec Dist_Model Dist_Spec Mat NW_Model NW_Spec SB_Model SB_Spec Sk_Model Sk_Spec
  Vt_Model Vt_Spec Vl_Model Vl_Spec Rp_Graph Rp_Model Rp_Spec Rp_Proofs.
Import ListNotations.
Local Open Scope R_scope.

(** ** Paths through the states of a topology *)
Lemma unit_arc t k n a b w : In (a, b, w) t -> exists v, In (Arc a b v) (g_arcs (unit_of t k n)).
Proof.
  intros H. assert (Hk : In (a, b) (map Graph_Spec.key (g_arcs (unit_of t k n)))).
  { simpl. apply fold_arc_add_keys. right. apply in_map_iff. exists (triple_arc (a, b, w)). split; [reflexivity|]. now apply in_map. }
  apply in_map_iff in Hk. destruct Hk as ([x y v] & E & Hv). unfold Graph_Spec.key in E. simpl in E. injection E as -> ->. eauto.
Qed.

Lemma unit_inner k n i : (0 < i < n - 1)%nat -> unit_pdf k n i = Some (k + (i - 1))%nat.
Proof.
  intros H. unfold unit_pdf. destruct (Nat.eqb_spec i 0); [lia|]. destruct (Nat.eqb_spec i (n - 1)); [lia|]. reflexivity.
Qed.

Lemma unit_walk t k n : (2 <= n)%nat -> forall mid a, Forall (fun i => (0 < i < n - 1)%nat) mid ->
  follows t (a :: mid ++ [(n - 1)%nat]) -> exists w, walk (unit_of t k n) a (map (fun i => (k + (i - 1))%nat) mid) w (n - 1).
Proof.
  intros Hn. induction mid as [|i mid IH]; intros a F H.
  - destruct H as ((w & Hw) & _). destruct (unit_arc t k n _ _ _ Hw) as (v & Hv). exists (v * 1).
    apply (walk_cons _ a (n - 1) None [] 1 v (n - 1) Hv); [|constructor].
    simpl. apply unit_sts_in. split; [lia|]. unfold unit_pdf. now rewrite Nat.eqb_refl, orb_true_r.
  - inversion F as [|? ? Fi Fm]; subst. cbn [app] in H. destruct H as ((w & Hw) & H). destruct (IH i Fm H) as (w' & Hw').
    destruct (unit_arc t k n _ _ _ Hw) as (v & Hv). exists (v * w').
    apply (walk_cons _ a i (Some (k + (i - 1))%nat) _ w' v (n - 1) Hv); [|exact Hw'].
    simpl. apply unit_sts_in. split; [lia|]. symmetry. now apply unit_inner.
Qed.

Lemma unit_accepts t k n mid : (2 <= n)%nat -> Forall (fun i => (0 < i < n - 1)%nat) mid ->
  follows t (0%nat :: mid ++ [(n - 1)%nat]) -> Gb_Spec.accepts (unit_of t k n) (map (fun i => (k + (i - 1))%nat) mid).
Proof.
  intros Hn F H. destruct (unit_walk t k n Hn mid 0%nat F H) as (w & Hw). exists w.
  exists 0%nat, (n - 1)%nat, None. eexists. split; [reflexivity|]. split; [reflexivity|]. split; [|split; [exact Hw|reflexivity]].
  simpl. apply unit_sts_in. split; [lia|]. reflexivity.
Qed.

Lemma follows_stay t x y m w v : In (x, x, w) t -> In (x, y, v) t -> follows t (repeat x (S m) ++ [y]).
Proof.
  intros Hx Hy. induction m as [|m IH]; [simpl; split; [eauto|exact I]|].
  change (follows t (x :: repeat x (S m) ++ [y])). cbn [repeat app] in *. split; [eauto|exact IH].
Qed.

(** The first label *)
Lemma unit_first t k n e ls : (2 <= n)%nat -> one_way t n -> single_entry t n e ->
  Gb_Spec.accepts (unit_of t k n) ls -> exists ls', ls = (k + (e - 1))%nat :: ls'.
Proof.
  intros Hn (O1 & O2 & _) (He & _ & Hall) (w & s & f & o & ls' & Es & Ee & Hs & Hw & ->).
  simpl in Es, Ee. injection Es as <-. injection Ee as <-.
  apply unit_sts_in in Hs. destruct Hs as (_ & ->). cbn [unit_pdf Nat.eqb orb label app].
  inversion Hw as [a E1 E2 E3|a c o ls2 w2 v b Ha Hc Hw2]; subst; [lia|].
  simpl in Ha. apply fold_arc_add_in in Ha. destruct Ha as [[]|Ha]. apply in_map_iff in Ha.
  destruct Ha as (b0 & Eb & Hb). unfold triple_arc in Eb. injection Eb as E1 E2 E3.
  assert (c = e) by (rewrite <- E2; now apply Hall). subst c.
  simpl in Hc. apply unit_sts_in in Hc. destruct Hc as (_ & ->). rewrite unit_inner by lia. exists ls2. rewrite H. reflexivity.
Qed.

(** ** The initial states of the loop *)
Lemma init_range g c s e i : Graph_Spec.wf g -> all_positive g -> g_start g = Some s -> g_end g = Some e -> compile g = Ok c ->
  cg_init (to_cgraph c) i <> NInf -> (i < c_n c)%nat.
Proof.
  intros W P Es Ee Ec H. destruct (compiled_parts g c s e Es Ee Ec) as (vi & vf & m & H1 & H2 & H3 & ->).
  cbn [to_cgraph cg_init c_init c_n] in *. unfold norm_vec, log_vec in H.
  destruct (Req_EM_T _ 0) as [E|E]; [now destruct H|]. apply lnp_finite in H.
  destruct (vec_support true g s vi i W P H1) as (A & B).
  assert (Hv : 0 < vi i).
  { destruct A as [A|A]; [exact A|]. rewrite <- A in H. unfold Rdiv in H. rewrite Rmult_0_l in H. lra. }
  apply B in Hv. destruct Hv as (t & Ht & _). apply state2pdf_pdf in Ht. now destruct Ht as (_ & _ & _ & Ht).
Qed.

(** A path from the middle of another one *)
Lemma tail_from g : forall (rows : list row) p a i, tail_score g a rows p <> NInf -> In i p ->
  exists rows' p', (forall r, In r rows' -> In r rows) /\ tail_score g i rows' p' <> NInf /\ length rows' = length p' /\ incl p' p.
Proof.
  induction rows as [|r rows IH]; intros p a i H Hi; destruct p as [|j p]; simpl in H; try congruence; [destruct Hi|].
  apply ladd_fin in H. destruct H as (_ & H). destruct Hi as [->|Hi].
  - exists rows, p. split; [intros; now right|]. split; [exact H|]. split; [|intros x Hx; now right].
    clear - H. revert p i H. induction rows as [|r rows IH]; intros p i H; destruct p as [|j p]; simpl in *; try congruence.
    apply ladd_fin in H. destruct H as (_ & H). f_equal. eauto.
  - destruct (IH p j i H Hi) as (rows' & p' & A & B & C & E). exists rows', p'.
    split; [intros; right; auto|]. split; [exact B|]. split; [exact C|]. intros x Hx. right. auto.
Qed.

Lemma rows_same (rows : list row) p : (forall r, In r rows -> r = (fun _ => Fin 0)) -> length rows = length p ->
  rows = map (fun _ : nat => (fun _ : nat => Fin 0)) p.
Proof.
  revert p. induction rows as [|r rows IH]; intros p H E; destruct p as [|j p]; try discriminate; [reflexivity|].
  simpl. rewrite (H r) by now left. f_equal. apply IH; [intros; apply H; now right|]. now injection E.
Qed.

Lemma from_initial g n ls i : cg_n g = n -> cg_accepts g (seq 0 n) ls -> In i ls -> cg_init g i <> NInf ->
  exists ls', cg_accepts g (seq 0 n) (i :: ls').
Proof.
  intros En (p & Hp & Hs & El) Hi H0. apply in_paths in Hp. destruct Hp as (Lp & Fp).
  assert (Ep : map (fun i => nth i (seq 0 n) 0%nat) p = p).
  { rewrite <- (map_id p) at 2. apply map_ext_in. intros a Ha. rewrite seq_nth; [reflexivity|].
    rewrite <- En. now apply (proj1 (Forall_forall _ _) Fp). }
  rewrite Ep in El. subst p. clear Ep Lp.
  assert (Ht : exists rows' p', (forall r : row, In r rows' -> r = (fun _ => Fin 0)) /\ tail_score g i rows' p' <> NInf /\
    length rows' = length p' /\ incl p' ls).
  { destruct ls as [|j ls]; [destruct Hi|]. simpl in Hs. apply ladd_fin in Hs. destruct Hs as (_ & Hs).
    assert (Hr : forall r : row, In r (map (fun _ : nat => (fun _ : nat => Fin 0)) ls) -> r = (fun _ => Fin 0)).
    { intros r Hr. apply in_map_iff in Hr. destruct Hr as (x & <- & _). reflexivity. }
    destruct Hi as [->|Hi].
    - exists (map (fun _ : nat => (fun _ : nat => Fin 0)) ls), ls. split; [exact Hr|]. split; [exact Hs|]. split; [apply map_length|]. intros x Hx. now right.
    - destruct (tail_from g _ ls j i Hs Hi) as (rows' & p' & A & B & C & E). exists rows', p'.
      split; [intros; apply Hr; auto|]. split; [exact B|]. split; [exact C|]. intros x Hx. right. auto. }
  destruct Ht as (rows' & p' & A & B & C & E).
  rewrite (rows_same rows' p' A C) in B. exists p', (i :: p').
  assert (F' : Forall (fun i => (i < cg_n g)%nat) (i :: p')).
  { apply Forall_forall. intros x Hx. apply (proj1 (Forall_forall _ _) Fp). destruct Hx as [<-|Hx]; auto. }
  split; [apply in_paths; split; [reflexivity|exact F']|]. split.
  - simpl. apply ladd_fin. split; [|exact B]. apply ladd_fin. split; [exact H0|discriminate].
  - rewrite <- (map_id (i :: p')) at 1. apply map_ext_in. intros a Ha. rewrite seq_nth; [reflexivity|].
    rewrite <- En. now apply (proj1 (Forall_forall _ _) F').
Qed.

(** ** The topologies of the recipes *)
Lemma nonspeech_ok : left_to_right nonspeech_topology.
Proof.
  assert (C : contiguous nonspeech_topology 7).
  { intros s. split.
    - intros H. destruct s as [|[|[|[|[|[|[|s]]]]]]]; [.. |lia].
      + exists (0%nat, 1%nat, 1); split; [simpl; tauto|simpl; auto].
      + exists (1%nat, 1%nat, / 4); split; [simpl; tauto|simpl; auto].
      + exists (2%nat, 2%nat, / 4); split; [simpl; tauto|simpl; auto].
      + exists (3%nat, 3%nat, / 4); split; [simpl; tauto|simpl; auto].
      + exists (4%nat, 4%nat, / 4); split; [simpl; tauto|simpl; auto].
      + exists (5%nat, 5%nat, 3 / 4); split; [simpl; tauto|simpl; auto].
      + exists (5%nat, 6%nat, / 4); split; [simpl; tauto|simpl; auto].
    - intros (a & Ha & Hs). simpl in Ha. repeat (destruct Ha as [<-|Ha]; [simpl in Hs; lia|]). destruct Ha. }
  split.
  - intros a Ha. simpl in Ha. repeat (destruct Ha as [<-|Ha]; [simpl; lra|]). destruct Ha.
  - exists 7%nat, 1%nat, 5%nat. split; [exact C|]. split.
    + split; [|split]; intros a Ha.
      * simpl in Ha. repeat (destruct Ha as [<-|Ha]; [simpl; lia|]). destruct Ha.
      * simpl in Ha. repeat (destruct Ha as [<-|Ha]; [simpl; lia|]). destruct Ha.
      * intros E. assert (Hc : In (fst (fst a)) [1; 2; 3; 4; 5]%nat).
        { simpl in Ha. repeat (destruct Ha as [<-|Ha]; [simpl in *; lia|]). destruct Ha. }
        simpl in Hc. destruct Hc as [<-|[<-|[<-|[<-|[<-|[]]]]]].
        -- exists (1%nat, 2%nat, / 4). split; [simpl; tauto|simpl; split; lia].
        -- exists (2%nat, 5%nat, / 4). split; [simpl; tauto|simpl; split; lia].
        -- exists (3%nat, 5%nat, / 4). split; [simpl; tauto|simpl; split; lia].
        -- exists (4%nat, 5%nat, / 4). split; [simpl; tauto|simpl; split; lia].
        -- exists (5%nat, 6%nat, / 4). split; [simpl; tauto|simpl; split; lia].
    + split; [|split; [|lia]].
      * split; [lia|]. split; [exists 1; simpl; tauto|]. intros a Ha E. simpl in Ha. repeat (destruct Ha as [<-|Ha]; [simpl in *; lia|]). destruct Ha.
      * split; [simpl; lia|]. split; [exists (/ 4); simpl; tauto|]. intros a Ha E. simpl in Ha. repeat (destruct Ha as [<-|Ha]; [simpl in *; lia|]). destruct Ha.
Qed.

Lemma speech_ok : left_to_right speech_topology.
Proof.
  assert (C : contiguous speech_topology 5).
  { intros s. split.
    - intros H. destruct s as [|[|[|[|[|s]]]]]; [.. |lia].
      + exists (0%nat, 1%nat, 1); split; [simpl; tauto|simpl; auto].
      + exists (1%nat, 1%nat, 3 / 4); split; [simpl; tauto|simpl; auto].
      + exists (2%nat, 2%nat, 3 / 4); split; [simpl; tauto|simpl; auto].
      + exists (3%nat, 3%nat, 3 / 4); split; [simpl; tauto|simpl; auto].
      + exists (3%nat, 4%nat, / 4); split; [simpl; tauto|simpl; auto].
    - intros (a & Ha & Hs). simpl in Ha. repeat (destruct Ha as [<-|Ha]; [simpl in Hs; lia|]). destruct Ha. }
  split.
  - intros a Ha. simpl in Ha. repeat (destruct Ha as [<-|Ha]; [simpl; lra|]). destruct Ha.
  - exists 5%nat, 1%nat, 3%nat. split; [exact C|]. split.
    + split; [|split]; intros a Ha.
      * simpl in Ha. repeat (destruct Ha as [<-|Ha]; [simpl; lia|]). destruct Ha.
      * simpl in Ha. repeat (destruct Ha as [<-|Ha]; [simpl; lia|]). destruct Ha.
      * intros E. assert (Hc : In (fst (fst a)) [1; 2; 3]%nat).
        { simpl in Ha. repeat (destruct Ha as [<-|Ha]; [simpl in *; lia|]). destruct Ha. }
        simpl in Hc. destruct Hc as [<-|[<-|[<-|[]]]].
        -- exists (1%nat, 2%nat, / 4). split; [simpl; tauto|simpl; split; lia].
        -- exists (2%nat, 3%nat, / 4). split; [simpl; tauto|simpl; split; lia].
        -- exists (3%nat, 4%nat, / 4). split; [simpl; tauto|simpl; split; lia].
    + split; [|split; [|lia]].
      * split; [lia|]. split; [exists 1; simpl; tauto|]. intros a Ha E. simpl in Ha. repeat (destruct Ha as [<-|Ha]; [simpl in *; lia|]). destruct Ha.
      * split; [simpl; lia|]. split; [exists (/ 4); simpl; tauto|]. intros a Ha E. simpl in Ha. repeat (destruct Ha as [<-|Ha]; [simpl in *; lia|]). destruct Ha.
Qed.

Lemma nonspeech_contiguous n : contiguous nonspeech_topology n -> n = 7%nat.
Proof.
  intros H. destruct nonspeech_ok as (_ & m & e & x & C & _ & (He & (w & Hw) & _) & (Hx & (v & Hv) & _) & _).
  assert (m = n) by (eapply contiguous_unique; eauto). subst m. simpl in Hv.
  repeat (destruct Hv as [Hv|Hv]; [injection Hv; intros; subst; try lia|]); [..|destruct Hv];
  exfalso; assert (6 < n)%nat by (apply H; exists (5%nat, 6%nat, / 4); split; [simpl; tauto|simpl; auto]); lia.
Qed.

Lemma speech_contiguous n : contiguous speech_topology n -> n = 5%nat.
Proof.
  intros H. destruct speech_ok as (_ & m & e & x & C & _ & (He & (w & Hw) & _) & (Hx & (v & Hv) & _) & _).
  assert (m = n) by (eapply contiguous_unique; eauto). subst m. simpl in Hv.
  repeat (destruct Hv as [Hv|Hv]; [injection Hv; intros; subst; try lia|]); [..|destruct Hv];
  exfalso; assert (4 < n)%nat by (apply H; exists (3%nat, 4%nat, / 4); split; [simpl; tauto|simpl; auto]); lia.
Qed.

Lemma nonspeech_alive : no_dead_end nonspeech_topology.
Proof.
  intros n Hc i Hi. apply nonspeech_contiguous in Hc. subst n.
  assert (Hi' : In i [1; 2; 3; 4; 5]%nat) by (simpl in *; lia). clear Hi.
  assert (G : forall j, In j [2; 3; 4]%nat -> Forall (fun i => (0 < i < 7 - 1)%nat) [1; j; 5]%nat /\
    follows nonspeech_topology (0%nat :: [1; j; 5]%nat ++ [(7 - 1)%nat])).
  { intros j Hj. split.
    - repeat (apply Forall_cons; [simpl in *; lia|]). apply Forall_nil.
    - cbn [app follows]. simpl in Hj.
      destruct Hj as [<-|[<-|[<-|[]]]]; (split; [exists 1; simpl; tauto|]); (split; [exists (/ 4); simpl; tauto|]);
        (split; [exists (/ 4); simpl; tauto|]); (split; [exists (/ 4); simpl; tauto|exact I]). }
  simpl in Hi'. destruct Hi' as [<-|[<-|[<-|[<-|[<-|[]]]]]].
  - exists [1; 2; 5]%nat. destruct (G 2%nat) as (A & B); [simpl; tauto|]. split; [exact A|]. split; [simpl; tauto|exact B].
  - exists [1; 2; 5]%nat. destruct (G 2%nat) as (A & B); [simpl; tauto|]. split; [exact A|]. split; [simpl; tauto|exact B].
  - exists [1; 3; 5]%nat. destruct (G 3%nat) as (A & B); [simpl; tauto|]. split; [exact A|]. split; [simpl; tauto|exact B].
  - exists [1; 4; 5]%nat. destruct (G 4%nat) as (A & B); [simpl; tauto|]. split; [exact A|]. split; [simpl; tauto|exact B].
  - exists [1; 2; 5]%nat. destruct (G 2%nat) as (A & B); [simpl; tauto|]. split; [exact A|]. split; [simpl; tauto|exact B].
Qed.

Lemma speech_alive : no_dead_end speech_topology.
Proof.
  intros n Hc i Hi. apply speech_contiguous in Hc. subst n. exists [1; 2; 3]%nat. split; [repeat (apply Forall_cons; [simpl; lia|]); apply Forall_nil|].
  split; [simpl in *; lia|]. cbn [app follows]. split; [exists 1; simpl; tauto|].
  split; [exists (/ 4); simpl; tauto|]. split; [exists (/ 4); simpl; tauto|]. split; [exists (/ 4); simpl; tauto|exact I].
Qed.

(** Three frames are necessary and sufficient. *)
Lemma least_labels t k n (f : nat -> nat) : (forall a b w, In (a, b, w) t ->
    (f a <= f b + length (label (unit_pdf k n b)))%nat) -> f (n - 1)%nat = 0%nat ->
  forall a ls w, walk (unit_of t k n) a ls w (n - 1) -> (f a <= length ls)%nat.
Proof.
  intros Hf H0 a ls w H. remember (n - 1)%nat as z eqn:Ez.
  induction H as [a|a c o ls w v b Ha Hc Hw IH]; [subst; lia|].
  specialize (IH Ez H0). rewrite app_length.
  simpl in Ha. apply fold_arc_add_in in Ha. destruct Ha as [[]|Ha]. apply in_map_iff in Ha.
  destruct Ha as ([[x y] z] & Eb & Hb). unfold triple_arc in Eb. simpl in Eb. injection Eb as -> -> ->.
  simpl in Hc. apply unit_sts_in in Hc. destruct Hc as (_ & ->). specialize (Hf _ _ _ Hb). lia.
Qed.

Lemma nonspeech_frames k T : (exists ls, Gb_Spec.accepts (unit_of nonspeech_topology k 7) ls /\ length ls = T) <-> (3 <= T)%nat.
Proof.
  split.
  - intros (ls & (w & s & e & o & ls' & Es & Ee & Hs & Hw & ->) & <-). simpl in Es, Ee. injection Es as <-. injection Ee as <-.
    apply unit_sts_in in Hs. destruct Hs as (_ & ->). simpl.
    apply (least_labels nonspeech_topology k 7 (fun a => nth a [3; 2; 1; 1; 1; 0; 0]%nat 0%nat)) in Hw; [exact Hw| |reflexivity].
    intros a b v H. simpl in H. repeat (destruct H as [H|H]; [injection H; intros; subst; simpl; lia|]). destruct H.
  - intros HT. exists (map (fun i => (k + (i - 1))%nat) ([1; 2]%nat ++ repeat 5%nat (T - 2))). split.
    + apply unit_accepts; [lia| |].
      * apply Forall_app. split; [repeat (apply Forall_cons; [simpl; lia|]); apply Forall_nil|]. apply Forall_forall. intros x Hx. apply repeat_spec in Hx. lia.
      * rewrite <- app_assoc. cbn [app follows]. split; [exists 1; simpl; tauto|]. split; [exists (/ 4); simpl; tauto|].
        assert (F : follows nonspeech_topology (repeat 5%nat (S (T - 3)) ++ [6%nat])).
        { apply (follows_stay _ 5 6 (T - 3) (3 / 4) (/ 4)); simpl; tauto. }
        replace (T - 2)%nat with (S (T - 3)) by lia. cbn [repeat app] in F |- *. split; [exists (/ 4); simpl; tauto|exact F].
    + rewrite map_length, app_length, repeat_length. simpl. lia.
Qed.

Lemma speech_frames k T : (exists ls, Gb_Spec.accepts (unit_of speech_topology k 5) ls /\ length ls = T) <-> (3 <= T)%nat.
Proof.
  split.
  - intros (ls & (w & s & e & o & ls' & Es & Ee & Hs & Hw & ->) & <-). simpl in Es, Ee. injection Es as <-. injection Ee as <-.
    apply unit_sts_in in Hs. destruct Hs as (_ & ->). simpl.
    apply (least_labels speech_topology k 5 (fun a => nth a [3; 2; 1; 0; 0]%nat 0%nat)) in Hw; [exact Hw| |reflexivity].
    intros a b v H. simpl in H. repeat (destruct H as [H|H]; [injection H; intros; subst; simpl; lia|]). destruct H.
  - intros HT. exists (map (fun i => (k + (i - 1))%nat) ([1; 2]%nat ++ repeat 3%nat (T - 2))). split.
    + apply unit_accepts; [lia| |].
      * apply Forall_app. split; [repeat (apply Forall_cons; [simpl; lia|]); apply Forall_nil|]. apply Forall_forall. intros x Hx. apply repeat_spec in Hx. lia.
      * rewrite <- app_assoc. cbn [app follows]. split; [exists 1; simpl; tauto|]. split; [exists (/ 4); simpl; tauto|].
        assert (F : follows speech_topology (repeat 3%nat (S (T - 3)) ++ [4%nat])).
        { apply (follows_stay _ 3 4 (T - 3) (3 / 4) (/ 4)); simpl; tauto. }
        replace (T - 2)%nat with (S (T - 3)) by lia. cbn [repeat app] in F |- *. split; [exists (/ 4); simpl; tauto|exact F].
    + rewrite map_length, app_length, repeat_length. simpl. lia.
Qed.
