(** Proofs about decoding with phone-loops. *)
From Coq Require Import Reals String List Arith Bool Lia Lra Permutation.
From Verif Require Import Prelude Vec Edit_Model Edit_Proofs Dec_Model Dec_Spec Dec_Proofs Opt_Model.
From Verif Require Import FB_Model FB_Spec FB_Proofs FB_Viterbi Graph_Model Graph_Spec Graph_Proofs Graph_Eps Graph_Hist
  Graph_Lang Graph_Props Gb_Model Gb_Spec Gb_Lang Gb_Proofs Gb_Loop Gb_Props Cl_Props Pa_Model Pa_Spec Pa_Proofs Pa_Rank Pa_Props.
From Verif Require Import Set_Model Set_Spec HMM_Model HMM_Spec HMM_Proofs HMM_Props Dist_Model Mat NW_Model NW_Spec Df_Model Pl_Model
  Vt_Model Vt_Spec Vt_Proofs Vl_Model Vl_Spec Pw_Model Pw_Spec Bg_Model Bg_Spec Dt_Model Dl_Model Db_Model Rp_Graph Rp_Model Rp_Spec Rp_Proofs Rp_Start
  De_Model De_Spec.
Import ListNotations.
Local Open Scope R_scope.

(** ** The states of one unit *)
Section Unit.
  Variables (t : list (nat * nat * R)) (k n e x : nat).
  Hypothesis Hn : (2 <= n)%nat.
  Hypothesis Hc : contiguous t n.
  Hypothesis Ho : one_way t n.
  Hypothesis He : single_entry t n e.
  Hypothesis Hx : single_exit t n x.
  Hypothesis Hex : e <> x.
  Hypothesis Hon : entered_once t.

  Lemma unit_step a c o v : In (Arc a c v) (g_arcs (unit_of t k n)) -> In (c, o) (g_states (unit_of t k n)) ->
    (exists w, In (a, c, w) t) /\ c <> 0%nat /\ (c < n)%nat /\
    label o = if Nat.eqb c (n - 1) then [] else [(k + (c - 1))%nat].
  Proof.
    intros Ha Hs. simpl in Ha. apply fold_arc_add_in in Ha. destruct Ha as [[]|Ha]. apply in_map_iff in Ha.
    destruct Ha as ([[p q] w] & E & Hin). unfold triple_arc in E. cbn [fst snd] in E. injection E as -> -> _.
    assert (C0 : c <> 0%nat) by (destruct Ho as (O1 & _); exact (O1 _ Hin)).
    simpl in Hs. apply unit_sts_in in Hs. destruct Hs as (Hlt & ->). split; [eauto|]. split; [exact C0|]. split; [exact Hlt|].
    unfold unit_pdf. destruct (Nat.eqb_spec c 0); [lia|]. destruct (Nat.eqb_spec c (n - 1)); reflexivity.
  Qed.

  Lemma walk_rest a ls w : walk (unit_of t k n) a ls w (n - 1) -> a <> 0%nat -> a <> e ->
    ~ In (k + (e - 1))%nat ls /\ incl ls (seq k (n - 2)).
  Proof.
    intros H. remember (n - 1)%nat as z eqn:Ez. induction H as [a|a c o ls w v b Ha Hs Hw IH]; intros A0 Ae.
    - split; [intros []|intros y []].
    - destruct (unit_step a c o v Ha Hs) as ((w0 & Hin) & C0 & Hlt & ->).
      destruct He as (Hr & (we & Hwe) & _).
      assert (Ce : c <> e).
      { intros ->. destruct (Hon e we _ Hwe Hin eq_refl) as [E|E]; cbn [fst] in E; contradiction. }
      destruct (IH Ez C0 Ce) as (I1 & I2). destruct (Nat.eqb_spec c (n - 1)); [split; assumption|]. split.
      + intros [E|E]; [lia|contradiction].
      + intros y [<-|Hy]; [apply in_seq; lia|now apply I2].
  Qed.

  Lemma walk_entry a ls w : walk (unit_of t k n) a ls w (n - 1) -> a = e ->
    exists m rest, ls = repeat (k + (e - 1))%nat m ++ rest /\ rest <> [] /\ ~ In (k + (e - 1))%nat rest /\ incl rest (seq k (n - 2)).
  Proof.
    intros H. remember (n - 1)%nat as z eqn:Ez. induction H as [a|a c o ls w v b Ha Hs Hw IH]; intros Ea.
    - exfalso. destruct He as (Hr & _). lia.
    - subst a. destruct (unit_step e c o v Ha Hs) as ((w0 & Hin) & C0 & Hlt & ->).
      assert (Cz : c <> (n - 1)%nat).
      { intros E. destruct Hx as (_ & _ & Hall). apply Hex. apply (Hall _ Hin). exact E. }
      destruct (Nat.eqb_spec c (n - 1)); [contradiction|].
      destruct (Nat.eq_dec c e) as [->|Ce].
      + destruct (IH Ez eq_refl) as (m & rest & -> & R). exists (S m), rest. split; [reflexivity|exact R].
      + subst b. destruct (walk_rest c ls w Hw C0 Ce) as (I1 & I2). exists O, ((k + (c - 1))%nat :: ls).
        split; [reflexivity|]. split; [discriminate|]. destruct He as (Hr & _). split.
        * intros [E|E]; [lia|contradiction].
        * intros y [<-|Hy]; [apply in_seq; lia|now apply I2].
  Qed.

  (** Once in its first state, the unit never comes back to it. *)
  Lemma unit_visit ls : Gb_Spec.accepts (unit_of t k n) ls ->
    exists m rest, ls = (k + (e - 1))%nat :: repeat (k + (e - 1))%nat m ++ rest /\ rest <> [] /\
      ~ In (k + (e - 1))%nat rest /\ incl rest (seq k (n - 2)).
  Proof.
    intros (w & s & f & o & ls' & Es & Ee & Hs & Hw & ->).
    simpl in Es, Ee. injection Es as <-. injection Ee as <-.
    apply unit_sts_in in Hs. destruct Hs as (_ & ->). cbn [unit_pdf Nat.eqb orb label app].
    inversion Hw as [a E1 E2 E3|a c o ls2 w2 v b Ha Hs2 Hw2]; subst; [lia|].
    destruct (unit_step 0 c o v Ha Hs2) as ((w0 & Hin) & C0 & Hlt & ->).
    destruct He as (Hr & _ & Hall). assert (c = e) by exact (Hall _ Hin eq_refl). subst c.
    destruct (Nat.eqb_spec e (n - 1)); [lia|].
    destruct (walk_entry e ls2 w2 Hw2 eq_refl) as (m & rest & -> & R). exists m, rest. split; [reflexivity|exact R].
  Qed.

  Lemma unit_begins p : begins (unit_of t k n) p -> p = (k + (e - 1))%nat.
  Proof.
    intros (b & c & Eb & (a & Ha & E1 & E2) & Hs). simpl in Eb. injection Eb as <-. destruct a as [a1 a2 v]. simpl in E1, E2. subst a1 a2.
    destruct (unit_step 0 c (Some p) v Ha Hs) as ((w0 & Hin) & C0 & Hlt & Hl).
    destruct He as (Hr & _ & Hall). assert (c = e) by exact (Hall _ Hin eq_refl). subst c.
    destruct (Nat.eqb_spec e (n - 1)); [lia|]. simpl in Hl. congruence.
  Qed.

  Lemma unit_finishes p : finishes (unit_of t k n) p -> p = (k + (x - 1))%nat.
  Proof.
    intros (b & c & Eb & (a & Ha & E1 & E2) & Hs). simpl in Eb. injection Eb as <-. destruct a as [a1 a2 v]. simpl in E1, E2. subst a1 a2.
    simpl in Ha. apply fold_arc_add_in in Ha. destruct Ha as [[]|Ha]. apply in_map_iff in Ha.
    destruct Ha as ([[p1 q] w] & E & Hin). unfold triple_arc in E. cbn [fst snd] in E. injection E as -> -> _.
    destruct Hx as (Hr & _ & Hall). assert (c = x) by exact (Hall _ Hin eq_refl). subst c.
    simpl in Hs. apply unit_sts_in in Hs. destruct Hs as (_ & Hs). rewrite unit_inner in Hs by lia. congruence.
  Qed.

  Hypothesis Hdead : no_dead_end t.

  Lemma follows_cut : forall m1 a m2 z w, follows t (a :: m1 ++ x :: m2) -> In (x, z, w) t -> follows t (a :: m1 ++ [x; z]).
  Proof.
    induction m1 as [|b m1 IH]; intros a m2 z w H Hz.
    - cbn [app] in *. destruct H as (H & _). split; [exact H|]. split; [eauto|exact I].
    - cbn [app] in *. destruct H as (H & H'). split; [exact H|]. now apply (IH b m2 z w).
  Qed.

  (** Some sequence of states of the unit ends with its last state. *)
  Lemma unit_ends : exists ls, Gb_Spec.accepts (unit_of t k n) (ls ++ [(k + (x - 1))%nat]).
  Proof.
    destruct Hx as (Hr & (w & Hw) & _). destruct (Hdead n Hc x Hr) as (mid & F & Hi & Hf).
    apply in_split in Hi. destruct Hi as (m1 & m2 & ->).
    exists (map (fun i => (k + (i - 1))%nat) m1).
    change [(k + (x - 1))%nat] with (map (fun i => (k + (i - 1))%nat) [x]). rewrite <- map_app.
    apply Forall_app in F. destruct F as (F1 & F2). inversion F2 as [|? ? F3 F4]; subst.
    apply unit_accepts; [exact Hn|apply Forall_app; auto|].
    rewrite <- app_assoc. cbn [app]. apply (follows_cut m1 0%nat (m2 ++ [(n - 1)%nat]) (n - 1)%nat w); [|exact Hw].
    rewrite <- app_assoc in Hf. exact Hf.
  Qed.

  Lemma unit_starts : exists ls, Gb_Spec.accepts (unit_of t k n) ((k + (e - 1))%nat :: ls).
  Proof.
    destruct unit_ends as (ls & H). destruct (unit_first t k n e _ Hn Ho He H) as (ls' & E). rewrite E in H. eauto.
  Qed.
End Unit.

(** ** Units of an inventory *)
Lemma concat_same {A} (F : A -> list nat) us : NoDup (concat (map F us)) -> forall i j u v y,
  nth_error us i = Some u -> nth_error us j = Some v -> In y (F u) -> In y (F v) -> i = j.
Proof.
  induction us as [|a us IH]; intros H i j u v y Hi Hj Hu Hv; [destruct i; discriminate|].
  cbn [map concat] in H. destruct (NoDup_app_inv _ _ H) as (_ & H2 & H3).
  assert (Cr : forall i u, nth_error us i = Some u -> In y (F u) -> In y (concat (map F us))).
  { intros i' u' Hi' Hu'. apply in_concat. exists (F u'). split; [|exact Hu']. apply in_map. eapply nth_error_In; eauto. }
  destruct i as [|i], j as [|j]; cbn [nth_error] in Hi, Hj.
  - reflexivity.
  - exfalso. injection Hi as ->. apply (H3 y); eauto.
  - exfalso. injection Hj as ->. apply (H3 y); eauto.
  - f_equal. eapply IH; eauto.
Qed.

Lemma map_rep {A B} (f : A -> B) a n : map f (repeat a n) = repeat (f a) n.
Proof. induction n; simpl; congruence. Qed.

Lemma F2_len {A B} (P : A -> B -> Prop) la lb : Forall2 P la lb -> length la = length lb.
Proof. induction 1; simpl; congruence. Qed.

Lemma Forall2_nth_error {A B} (P : A -> B -> Prop) la lb : Forall2 P la lb -> forall i a, nth_error la i = Some a ->
  exists b, nth_error lb i = Some b /\ P a b.
Proof.
  induction 1 as [|a b la lb H F IH]; intros i c Hi; destruct i as [|i]; cbn [nth_error] in *; try discriminate.
  - injection Hi as <-. eauto.
  - eauto.
Qed.

Lemma nth_error_combine_seq (l : list nat) : forall s i y, nth_error l i = Some y -> In ((s + i)%nat, y) (combine (seq s (length l)) l).
Proof.
  induction l as [|a l IH]; intros s i y H; destruct i as [|i]; cbn [nth_error] in H; try discriminate; cbn [length seq combine].
  - injection H as ->. left. f_equal. lia.
  - right. replace (s + S i)%nat with (S s + i)%nat by lia. now apply IH.
Qed.

Lemma combine_fst {A B} (l : list A) : forall (l' : list B), length l = length l' -> map fst (combine l l') = l.
Proof. induction l as [|a l IH]; intros [|b l'] H; try discriminate; [reflexivity|]. cbn [combine map fst]. f_equal. apply IH. now injection H. Qed.
Lemma combine_snd {A B} (l : list A) : forall (l' : list B), length l = length l' -> map snd (combine l l') = l'.
Proof. induction l as [|a l IH]; intros [|b l'] H; try discriminate; [reflexivity|]. cbn [combine map snd]. f_equal. apply IH. now injection H. Qed.

Section Inventory.
  Variables (units : list (string * graph)) (l : ploop) (N : nat).
  Hypothesis Hb : Forall2 (fun u p => begins (snd u) p) units (pl_starts l).
  Hypothesis Hall : concat (map (fun u => pdf_id_mapping (snd u)) units) = seq 0 N.
  Hypothesis Hns : NoDup (pl_starts l).
  Hypothesis HU : forall n h, In (n, h) units -> exists t k m e x, (2 <= m)%nat /\ contiguous t m /\ one_way t m /\
    single_entry t m e /\ single_exit t m x /\ e <> x /\ entered_once t /\ h = unit_of t k m.

  Definition entry (i : nat) : nat := nth i (pl_starts l) 0%nat.

  Lemma one_visit n h ls : In (n, h) units -> Gb_Spec.accepts h ls ->
    exists v, nth (v_phone v) (map fst units) ""%string = n /\ (v_phone v < length (pl_starts l))%nat /\ Dec_Spec.frames entry v = ls /\
      v_rest v <> [] /\ forall s, In s (v_rest v) -> ~ In s (pl_starts l).
  Proof.
    intros Hin Ha. destruct (In_nth_error _ _ Hin) as (i & Hi).
    destruct (Forall2_nth_error _ _ _ Hb i _ Hi) as (p & Hp & Hbp). cbn [snd] in Hbp.
    assert (Fact : forall j q, nth_error (pl_starts l) j = Some q -> exists u, nth_error units j = Some u /\ In q (pdf_id_mapping (snd u)) /\
      (snd u = h -> q = p)).
    { intros j q Hj. assert (Hlen := F2_len _ _ _ Hb).
      destruct (nth_error units j) as [u|] eqn:Eu.
      2:{ apply nth_error_None in Eu. assert (nth_error (pl_starts l) j = None) by (apply nth_error_None; lia). congruence. }
      exists u. split; [reflexivity|]. destruct (Forall2_nth_error _ _ _ Hb j _ Eu) as (q' & Hq' & Hbq). assert (q' = q) by congruence. subst q'.
      destruct u as [n' h']. cbn [snd] in *. destruct (HU n' h' (nth_error_In _ _ Eu)) as (t & k & m & e & x & H1 & H2 & H3 & H4 & H5 & H6 & H7 & ->).
      assert (E := unit_begins t k m e x H1 H3 H4 H6 q Hbq).
      split.
      - destruct (C64_unit_graph t m k H1 H2) as (g' & Eg' & _ & _ & _ & _ & _ & _ & _ & G2 & _).
        rewrite (create_unit_graph_eq t k m) in Eg' by auto. assert (g' = unit_of t k m) by congruence. subst g'.
        rewrite G2, E. apply in_seq. destruct H4 as (H4 & _). lia.
      - intros <-. rewrite E. symmetry. now apply (unit_begins t k m e x). }
    destruct (HU n h Hin) as (t & k & m & e & x & H1 & H2 & H3 & H4 & H5 & H6 & H7 & Eh).
    assert (Ep : p = (k + (e - 1))%nat) by (subst h; now apply (unit_begins t k m e x)).
    assert (Emap : pdf_id_mapping h = seq k (m - 2)).
    { subst h. destruct (C64_unit_graph t m k H1 H2) as (g' & Eg' & _ & _ & _ & _ & _ & _ & _ & G2 & _).
      rewrite (create_unit_graph_eq t k m) in Eg' by auto. assert (g' = unit_of t k m) by congruence. now subst g'. }
    assert (Ha' := Ha). rewrite Eh in Ha'.
    destruct (unit_visit t k m e x H1 H3 H4 H5 H6 H7 ls Ha') as (c & rest & -> & R1 & R2 & R3). rewrite <- Ep in *.
    assert (Een : entry i = p) by (unfold entry; now apply nth_error_nth).
    exists (Visit i c rest). cbn [v_phone v_rest v_more]. split.
    { apply nth_error_nth. now rewrite nth_error_map, Hi. }
    split; [apply nth_error_Some; congruence|]. split; [unfold Dec_Spec.frames; cbn [v_phone v_rest v_more]; now rewrite Een|].
    split; [exact R1|]. intros s Hs Hst. destruct (In_nth_error _ _ Hst) as (j & Hj).
    destruct (Fact j s Hj) as (u & Hu & Hsu & Hsame).
    assert (i = j).
    { apply (concat_same (fun u : string * graph => pdf_id_mapping (snd u)) units) with (u := (n, h)) (v := u) (y := s); auto.
      - rewrite Hall. apply seq_NoDup.
      - cbn [snd]. rewrite Emap. now apply R3. }
    subst j. assert (u = (n, h)) by congruence. subst u. apply R2. rewrite <- (Hsame eq_refl). exact Hs.
  Qed.

  Lemma all_visits sq hs : Forall2 (fun n h => In (n, h) units) sq hs -> forall lss, Forall2 Gb_Spec.accepts hs lss ->
    exists vs, unroll entry vs = concat lss /\ map (fun v => nth (v_phone v) (map fst units) ""%string) vs = sq /\
      map (fun i => nth i (map fst units) ""%string) (frame_phones vs) = per_frame_units sq lss /\
      Forall (fun v => (v_phone v < length (pl_starts l))%nat /\ v_rest v <> [] /\ forall s, In s (v_rest v) -> ~ In s (pl_starts l)) vs.
  Proof.
    induction 1 as [|n h sq hs Hin F IH]; intros lss A; inversion A as [|? ls ? lss' A1 A2]; subst.
    - exists []. repeat split. constructor.
    - destruct (IH lss' A2) as (vs & V1 & V2 & V3 & V4). destruct (one_visit n h ls Hin A1) as (v & U1 & U2 & U3 & U4 & U5).
      exists (v :: vs). split; [|split; [|split]].
      + unfold unroll in *. cbn [flat_map concat]. now rewrite V1, U3.
      + cbn [map]. now rewrite V2, U1.
      + unfold frame_phones, per_frame_units in *. cbn [flat_map combine map concat fst snd]. rewrite map_app, V3. f_equal.
        rewrite map_rep, U1. f_equal. rewrite <- U3. unfold Dec_Spec.frames. cbn [length]. rewrite app_length, repeat_length. reflexivity.
      + constructor; auto.
  Qed.

  Lemma all_separated vs : Forall (fun v => (v_phone v < length (pl_starts l))%nat /\ v_rest v <> [] /\ forall s, In s (v_rest v) -> ~ In s (pl_starts l)) vs ->
    separated vs.
  Proof.
    induction 1 as [|v vs H F IH]; [exact I|]. destruct vs as [|w vs]; [exact I|]. split; [left; apply H|exact IH].
  Qed.

  (** state2phone returns the units. *)
  Lemma units_read sq lss path : reads units sq lss path -> path <> [] ->
    bindr (state2phone path (start_pdf l) false) (fun ps => Ok (map (fun i => nth i (map fst units) ""%string) ps)) = Ok sq /\
    bindr (state2phone path (start_pdf l) true) (fun ps => Ok (map (fun i => nth i (map fst units) ""%string) ps)) = Ok (per_frame_units sq lss).
  Proof.
    intros (hs & F & A & ->) Hne. destruct (all_visits sq hs F lss A) as (vs & V1 & V2 & V3 & V4). rewrite <- V1 in *.
    destruct vs as [|v vs]; [now destruct Hne|].
    assert (Lc : length (seq 0 (length (pl_starts l))) = length (pl_starts l)) by apply seq_length.
    assert (Hv : forall pf, state2phone (unroll entry (v :: vs)) (start_pdf l) pf = Ok (out pf (v :: vs))).
    { intros pf. apply state2phone_visits.
      - unfold start_pdf. now rewrite combine_snd.
      - unfold start_pdf. rewrite combine_fst by exact Lc. intros p Hp. apply in_seq in Hp.
        change p with (0 + p)%nat at 1. apply nth_error_combine_seq. apply nth_error_nth'. lia.
      - unfold start_pdf. rewrite combine_fst, combine_snd by exact Lc. intros w Hw.
        destruct (proj1 (Forall_forall _ _) V4 w Hw) as (W1 & _ & W3). split; [apply in_seq; lia|exact W3].
      - now apply all_separated. }
    rewrite !Hv. cbn [bindr out]. rewrite map_map, V2, V3. auto.
  Qed.
End Inventory.

(** ** Training keeps the structure of the loop *)
Lemma row_set_other sv : forall r j, ~ In j (map fst sv) -> row_set r sv j = r j.
Proof.
  induction sv as [|[s v] sv IH]; intros r j H; [reflexivity|]. unfold row_set in *. cbn [fold_left fst snd map] in *.
  rewrite IH by (intros Hc; apply H; now right). destruct (Nat.eqb_spec j s) as [->|_]; [|reflexivity].
  exfalso. apply H. now left.
Qed.

Lemma update_other starts ews : forall tr i j, ~ (In i (map fst ews) /\ In j starts) ->
  fold_left (update_end starts) ews tr i j = tr i j.
Proof.
  induction ews as [|[e w] ews IH]; intros tr i j H; [reflexivity|]. cbn [fold_left map fst] in *. rewrite IH.
  - unfold update_end. destruct (Nat.eqb_spec i e) as [->|_]; [|reflexivity].
    apply row_set_other. intros Hc. apply H. split; [now left|]. apply in_map_iff in Hc. destruct Hc as ([a b] & <- & Hc).
    now apply in_combine_l in Hc.
  - intros [A B]. apply H. split; [now right|exact B].
Qed.

Lemma unigram_other logw starts ends tr i j : ~ (In i ends /\ In j starts) -> on_weights_update logw starts ends tr i j = tr i j.
Proof. intros H. apply update_other. rewrite map_map. cbn [fst]. now rewrite map_id. Qed.

Lemma bigram_other logm starts ends tr i j : ~ (In i ends /\ In j starts) -> bigram_on_weights_update logm starts ends tr i j = tr i j.
Proof.
  intros H. apply update_other. rewrite map_map. cbn [fst]. rewrite combine_snd by apply seq_length. exact H.
Qed.

Definition same_else (l : ploop) (tr tr' : nat -> nat -> lp) : Prop :=
  forall i j, ~ (In i (pl_ends l) /\ In j (pl_starts l)) -> tr' i j = tr i j.

Lemma bindr_ok {A B} (m : result A) (f : A -> result B) y : bindr m f = Ok y -> exists x, m = Ok x /\ f x = Ok y.
Proof. destruct m as [x|]; [|discriminate]. intros H. exists x. auto. Qed.

Lemma loop_round_else enum sort amax scale ds l skel wid eg lrate keep xs jobs x y :
  loop_round enum sort amax scale ds l skel wid eg lrate keep xs jobs x = Ok y -> same_else l (pw_trans (fst x)) (pw_trans (fst y)).
Proof.
  destruct x as [s sv]. unfold loop_round. intros H.
  apply bindr_ok in H. destruct H as (d & _ & H). apply bindr_ok in H. destruct H as (a & _ & H).
  apply bindr_ok in H. destruct H as (hs & _ & H). apply bindr_ok in H. destruct H as (st' & _ & H). injection H as <-.
  cbn [fst pw_trans]. destruct (existsb _ _); intros i j Hij; [|reflexivity]. now apply unigram_other.
Qed.

Lemma loop_rounds_else enum sort amax scale ds l skel wid eg lrate keep xs : forall jobss x y,
  loop_rounds enum sort amax scale ds l skel wid eg lrate keep xs jobss x = Ok y -> same_else l (pw_trans (fst x)) (pw_trans (fst y)).
Proof.
  unfold loop_rounds. induction jobss as [|jobs jobss IH]; intros x y H; cbn [foldM] in H.
  - injection H as <-. intros i j _. reflexivity.
  - apply bindr_ok in H. destruct H as (z & Hz & H). apply loop_round_else in Hz. apply IH in H.
    intros i j Hij. rewrite H by exact Hij. now apply Hz.
Qed.

Lemma bg_round_else enum amax scale ds l skel wid eg lrate keep xs jobs x y :
  bg_round enum amax scale ds l skel wid eg lrate keep xs jobs x = Ok y -> same_else l (bg_trans (fst x)) (bg_trans (fst y)).
Proof.
  destruct x as [s sv]. unfold bg_round. intros H.
  apply bindr_ok in H. destruct H as (d & _ & H). apply bindr_ok in H. destruct H as (a & _ & H).
  apply bindr_ok in H. destruct H as (hs & _ & H). apply bindr_ok in H. destruct H as (st' & _ & H). injection H as <-.
  cbn [fst bg_trans]. destruct (existsb _ _); intros i j Hij; [|reflexivity]. now apply bigram_other.
Qed.

Lemma bg_rounds_else enum amax scale ds l skel wid eg lrate keep xs : forall jobss x y,
  bg_rounds enum amax scale ds l skel wid eg lrate keep xs jobss x = Ok y -> same_else l (bg_trans (fst x)) (bg_trans (fst y)).
Proof.
  unfold bg_rounds. induction jobss as [|jobs jobss IH]; intros x y H; cbn [foldM] in H.
  - injection H as <-. intros i j _. reflexivity.
  - apply bindr_ok in H. destruct H as (z & Hz & H). apply bg_round_else in Hz. apply IH in H.
    intros i j Hij. rewrite H by exact Hij. now apply Hz.
Qed.

(** ** Scores *)
Lemma tail_rows g : forall (rows rows' : list row) p s, length rows = length rows' ->
  (forall r j, In r rows' -> r j <> NInf) -> tail_score g s rows p <> NInf -> tail_score g s rows' p <> NInf.
Proof.
  induction rows as [|r rows IH]; intros [|r' rows'] p s L Hr H; try discriminate; destruct p as [|j p]; simpl in *; try congruence.
  apply ladd_fin in H. destruct H as [H1 H2]. apply ladd_fin in H1. destruct H1 as [H1 H3].
  apply ladd_fin. split; [apply ladd_fin; split; [exact H1|apply Hr; now left]|].
  apply (IH rows'); auto.
Qed.

Lemma path_rows g (rows rows' : list row) p : length rows = length rows' ->
  (forall r j, In r rows' -> r j <> NInf) -> path_score g rows p <> NInf -> path_score g rows' p <> NInf.
Proof.
  intros L Hr H. destruct rows as [|r rows], rows' as [|r' rows']; try discriminate; destruct p as [|j p]; simpl in *; try congruence.
  apply ladd_fin in H. destruct H as [H1 H2]. apply ladd_fin in H1. destruct H1 as [H1 H3].
  apply ladd_fin. split; [apply ladd_fin; split; [exact H1|apply Hr; now left]|].
  apply (tail_rows g rows); auto.
Qed.

Lemma tail_link g : forall (rows : list row) p1 a e s p2, tail_score g a rows (p1 ++ e :: s :: p2) <> NInf -> cg_trans g e s <> NInf.
Proof.
  induction rows as [|r rows IH]; intros p1 a e s p2 H; destruct p1 as [|b p1]; cbn [app tail_score] in H; try congruence.
  - apply ladd_fin in H. destruct H as [_ H]. destruct rows as [|r' rows]; cbn [tail_score] in H; [congruence|].
    apply ladd_fin in H. destruct H as [H _]. apply ladd_fin in H. apply H.
  - apply ladd_fin in H. destruct H as [_ H]. now apply IH in H.
Qed.

Lemma path_link g (rows : list row) p1 e s p2 : path_score g rows (p1 ++ e :: s :: p2) <> NInf -> cg_trans g e s <> NInf.
Proof.
  intros H. destruct rows as [|r rows]; [destruct p1; cbn [app path_score] in H; congruence|]. destruct p1 as [|b p1]; cbn [app path_score] in H.
  - apply ladd_fin in H. destruct H as [_ H]. destruct rows as [|r' rows]; cbn [tail_score] in H; [congruence|].
    apply ladd_fin in H. destruct H as [H _]. apply ladd_fin in H. apply H.
  - apply ladd_fin in H. destruct H as [_ H]. now apply tail_link in H.
Qed.

(** ** Decoding an utterance that can be said *)
Lemma decode_best amax k D skel st scale u : is_argmax amax -> typed k D st skel -> utt_ok k D skel u ->
  let m := inst (forms st) skel in
  let rows := HMM_Spec.frames scale (map (fun o => nth o (denote m) e0) (u_order u)) (u_stats u) in
  exists best, hmm_decode amax m (u_graph u) (u_order u) scale (u_stats u) = Ok (map (fun s => nth s (u_order u) 0%nat) best) /\
    In best (paths (cg_n (u_graph u)) (length (u_stats u))) /\
    (forall p, In p (paths (cg_n (u_graph u)) (length (u_stats u))) -> lp_le (path_score (u_graph u) rows p) (path_score (u_graph u) rows best)) /\
    path_score (u_graph u) rows best <> NInf.
Proof.
  intros Ha T (Hne & _ & Ho & Hlen & p & Hp & Hpr) m rows.
  assert (Lr : length rows = length (u_stats u)) by (unfold rows, HMM_Spec.frames; apply map_length).
  assert (Hn : (0 < cg_n (u_graph u))%nat).
  { apply in_paths in Hp. destruct Hp as (L & F). destruct p as [|a p]; [destruct (u_stats u); [congruence|discriminate]|].
    inversion F as [|? ? F1 F2]; subst. lia. }
  destruct (C81_decode amax m (u_graph u) (u_order u) scale (u_stats u) Ha) as (best & E & B1 & B2); auto.
  { now apply (inst_wf k D). }
  { intros o H. unfold m. rewrite (inst_size k D) by exact T. auto. }
  exists best. split; [exact E|]. split; [exact B1|]. split; [exact B2|].
  assert (Fp : path_score (u_graph u) rows p <> NInf).
  { apply (path_rows _ (repeat (fun _ => Fin 0) (length (u_stats u)))).
    - now rewrite repeat_length, Lr.
    - intros r j Hr. unfold rows, HMM_Spec.frames in Hr. apply in_map_iff in Hr. destruct Hr as (y & <- & _). discriminate.
    - apply fin_ex. rewrite ex_path_score. exact Hpr. }
  specialize (B2 p Hp). fold rows in B2. intros En. rewrite En in B2. destruct (path_score (u_graph u) rows p); [now apply Fp|destruct B2].
Qed.

Lemma score_accepts g order (rows : list row) p : In p (paths (cg_n g) (length rows)) -> path_score g rows p <> NInf ->
  cg_accepts g order (map (fun s => nth s order 0%nat) p).
Proof.
  intros Hp H. exists p. rewrite map_length. assert (L : length p = length rows) by (apply in_paths in Hp; apply Hp).
  rewrite L. split; [exact Hp|]. split; [|reflexivity]. apply (path_rows g rows); [now rewrite !map_length| |exact H].
  intros r j Hr. apply in_map_iff in Hr. destruct Hr as (y & <- & _). discriminate.
Qed.

Lemma seq_labels n p : Forall (fun i => (i < n)%nat) p -> map (fun s => nth s (seq 0 n) 0%nat) p = p.
Proof.
  intros F. rewrite <- (map_id p) at 2. apply map_ext_in. intros a Ha. rewrite seq_nth; [reflexivity|].
  now apply (proj1 (Forall_forall _ _) F).
Qed.
