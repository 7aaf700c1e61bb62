(** Proofs about the loops of Rp_Model.v. *)
From Coq Require Import Reals String List Arith Bool Lra Lia Permutation.
From Verif Require Import Prelude Vec FB_Model FB_Spec FB_Proofs FB_Viterbi Graph_Model Graph_Spec Graph_Proofs Graph_Eps Graph_Hist
  Graph_Lang Graph_Props Gb_Model Gb_Spec Gb_Lang Gb_Proofs Gb_Loop Gb_Props Cl_Props Pa_Model Pa_Spec Pa_Proofs Pa_Rank Pa_Props Rp_Graph.
From Verif Require Import Set_Model Set_Spec HMM_Model HMM_Spec Dist_Model Dist_Spec Mat NW_Model NW_Spec SB_Model SB_Spec Sk_Model Sk_Spec
  Vt_Model Vt_Spec Vl_Model Vl_Spec Mx_Model Mx_Spec Df_Model Pl_Model Pw_Model Pw_Spec Pw_Proofs Bg_Model Bg_Spec Bg_Proofs
  Rp_Model Rp_Spec.
Import ListNotations.
Local Open Scope R_scope.

(** ** One choice in each of several disjoint lists *)
Lemma NoDup_app_inv {A} (l1 l2 : list A) : NoDup (l1 ++ l2) ->
  NoDup l1 /\ NoDup l2 /\ forall x, In x l1 -> In x l2 -> False.
Proof.
  induction l1 as [|a l1 IH]; simpl; intros H; [repeat split; auto; constructor|].
  inversion_clear H as [|? ? H1 H2]. destruct (IH H2) as (A1 & A2 & A3). split; [|split; [exact A2|]].
  - constructor; auto. intros Hc. apply H1, in_app_iff. now left.
  - intros x [<-|Hx] Hy; [apply H1, in_app_iff; now right|eauto].
Qed.

Lemma picks {A} (F : A -> list nat) (f : A -> nat) us : NoDup (concat (map F us)) ->
  (forall u, In u us -> In (f u) (F u)) -> NoDup (map f us).
Proof.
  induction us as [|u us IH]; intros H Hf; simpl in *; [constructor|].
  destruct (NoDup_app_inv _ _ H) as (_ & H2 & H3). constructor; [|apply IH; auto].
  intros Hc. apply in_map_iff in Hc. destruct Hc as (v & Ev & Hv). apply (H3 (f u)); [auto|].
  apply in_concat. exists (F v). split; [now apply in_map|]. rewrite <- Ev. auto.
Qed.

Lemma picks2 {A} (F : A -> list nat) (f h : A -> nat) us : NoDup (concat (map F us)) ->
  (forall u, In u us -> In (f u) (F u) /\ In (h u) (F u) /\ f u <> h u) ->
  forall a, In a (map f us) -> ~ In a (map h us).
Proof.
  induction us as [|u us IH]; intros H Hf a Ha Hb; simpl in *; [contradiction|].
  destruct (NoDup_app_inv _ _ H) as (_ & H2 & H3).
  assert (Cr : forall k v, In v us -> In (k v) (F v) -> In (k v) (concat (map F us))).
  { intros k v Hv Hk. apply in_concat. exists (F v). split; [now apply in_map|exact Hk]. }
  destruct (Hf u (or_introl eq_refl)) as (U1 & U2 & U3).
  destruct Ha as [Ha|Ha], Hb as [Hb|Hb].
  - congruence.
  - apply in_map_iff in Hb. destruct Hb as (v & Ev & Hv). apply (H3 a); [now rewrite <- Ha|]. rewrite <- Ev. apply Cr; auto. now apply Hf; right.
  - apply in_map_iff in Ha. destruct Ha as (v & Ev & Hv). apply (H3 a); [now rewrite <- Hb|]. rewrite <- Ev. apply Cr; auto. now apply Hf; right.
  - exact (IH H2 (fun v Hv => Hf v (or_intror Hv)) a Ha Hb).
Qed.

(** ** The commands *)
Definition unit_edge (fwd : bool) (u : string * graph) : nat :=
  match edge_pdf fwd (snd u) with Ok (Some p) => p | _ => 0%nat end.

Lemma unit_lines ul : mapM unit_line (map (fun u : string * string => [fst u; snd u]) ul) = Ok ul.
Proof.
  induction ul as [|[a b] ul IH]; [reflexivity|]. cbn [map mapM unit_line fst snd bindr]. rewrite IH. reflexivity.
Qed.

Lemma contiguous_unique t n m : contiguous t n -> contiguous t m -> n = m.
Proof.
  intros N B. destruct (Nat.lt_trichotomy n m) as [H|[H|H]]; [exfalso|exact H|exfalso].
  - apply B in H. apply N in H. lia.
  - apply N in H. apply B in H. lia.
Qed.

Lemma sget_units (units : list (string * graph)) n h : NoDup (map fst units) -> In (n, h) units -> sget n units = Ok h.
Proof. intros. now apply sget_nodup. Qed.

Lemma build_ok conf lines ul group wid : config_ok conf lines ul group ->
  exists l units tots c g, build_loop conf lines group wid = Ok (l, units, tots) /\
    pl_weights l = wid /\ pl_graph l = to_cgraph c /\ pl_order l = c_map c /\ compile g = Ok c /\
    c_n c = list_sum tots /\ c_map c = seq 0 (c_n c) /\
    bg_loop_ok l /\ length (pl_starts l) = length ul /\
    NoDup (map fst units) /\ Permutation (map fst units) (map fst ul) /\
    (forall n h, In (n, h) units -> usable h /\ all_positive h /\ ranked h /\ exits h /\
       forall p, In p (pdf_id_mapping h) -> (p < list_sum tots)%nat) /\
    Graph_Spec.wf g /\ all_positive g /\ g_start g = Some 0%nat /\ g_end g = Some 1%nat /\ non_emitting g 0 /\ non_emitting g 1 /\
    (forall i, (i < c_n c)%nat -> Graph_Model.c_trans c i i < 1) /\
    (forall ls, Gb_Spec.accepts g ls <-> sayable group ul units ls).
Proof.
  intros (Hconf & -> & Hne & Hpop & Hnd & Hg & Hsp & Hgr). set (lines := map (fun u : string * string => [fst u; snd u]) ul).
  assert (Hul : mapM unit_line lines = Ok ul) by apply unit_lines.
  assert (Hreg : forall g t, In (g, t) conf -> regular t).
  { intros g t Ht. destruct (Hconf g t Ht) as (_ & n & e & x & Hc & _ & (He & _) & _). exists n. split; [lia|exact Hc]. }
  assert (Hem : forall g t, In (g, t) conf -> has_emitting t).
  { intros g t Ht. destruct (Hconf g t Ht) as (_ & n & e & x & Hc & _ & (He & _) & _). exists n. split; [lia|exact Hc]. }
  assert (Hsp' : forall u, In u (map fst ul) -> ~ special u).
  { intros u Hu Hs. destruct (Hsp u Hu) as (A & B & C). unfold special in Hs. tauto. }
  destruct (mkphones_spec conf lines ul Hem Hpop Hul Hnd Hg) as (units & tots & Em & Pm & M & _ & F).
  assert (Nu : NoDup (map fst units)) by (eapply Permutation_NoDup; [apply Permutation_sym; exact Pm|exact Hnd]).
  assert (FU : forall u, In u units -> exists t k n e x, (2 <= n)%nat /\ contiguous t n /\ positive t /\ one_way t n /\
    single_entry t n e /\ single_exit t n x /\ e <> x /\ snd u = unit_of t k n /\
    edge_pdf true (snd u) = Ok (Some (k + (e - 1))%nat) /\ edge_pdf false (snd u) = Ok (Some (k + (x - 1))%nat) /\
    pdf_id_mapping (snd u) = seq k (n - 2)).
  { intros u Hin. destruct (proj1 (Forall_forall _ _) F u Hin) as (gr & t & k & m & B1 & B2 & B3 & B4 & B5).
    destruct (Hconf gr t B2) as (Hp & n & e & x & Hc & Ho & N3 & N4 & Hex).
    assert (n = m) by (eapply contiguous_unique; eauto). subst n.
    exists t, k, m, e, x. repeat (split; [assumption|]). rewrite B5. split; [now apply unit_entry|]. split; [now apply unit_exit|].
    destruct (C64_unit_graph t m k B3 B4) as (g' & Eg' & _ & _ & _ & _ & _ & _ & _ & G2 & _).
    rewrite (create_unit_graph_eq t k m) in Eg' by auto. congruence. }
  assert (Rng : forall u b, In u units -> In (unit_edge b u) (pdf_id_mapping (snd u)) /\ unit_edge true u <> unit_edge false u).
  { intros u b Hin. destruct (FU u Hin) as (t & k & n & e & x & H1 & H2 & H3 & H4 & (H5 & _) & (H6 & _) & H7 & H8 & H9 & H10 & H11).
    unfold unit_edge. rewrite H9, H10, H11. split; [|lia]. apply in_seq. destruct b; [rewrite H9|rewrite H10]; lia. }
  assert (Nc : NoDup (concat (map (fun u => pdf_id_mapping (snd u)) units))) by (rewrite M; apply seq_NoDup).
  set (starts := map (unit_edge true) units). set (ends := map (unit_edge false) units).
  assert (Dj : forall p, In p starts -> In p ends -> False).
  { intros p H1 H2. revert H2. unfold starts, ends in *. apply (picks2 (fun u : string * graph => pdf_id_mapping (snd u)) (unit_edge true) (unit_edge false) units Nc); auto.
    intros u Hu. destruct (Rng u true Hu) as (A & B). destruct (Rng u false Hu) as (C & _). auto. }
  assert (HU : forall n h, In (n, h) units -> usable h /\ all_positive h /\ gated (fun p => In p starts) (fun p => In p ends) h /\ hooked h /\ exits h).
  { intros nm h Hin. destruct (FU (nm, h) Hin) as (t & k & n & e & x & H1 & H2 & H3 & H4 & H5 & H6 & H7 & H8 & H9 & H10 & H11).
    cbn [snd] in *. subst h. split; [now apply unit_of_usable|]. split; [now apply unit_of_pos|].
    apply (unit_of_gated _ _ t k n e x); auto.
    - apply in_map_iff. exists (nm, unit_of t k n). split; [|exact Hin]. unfold unit_edge. cbn [snd]. now rewrite H9.
    - apply in_map_iff. exists (nm, unit_of t k n). split; [|exact Hin]. unfold unit_edge. cbn [snd]. now rewrite H10. }
  destruct (decode_ok group lines ul units Hul Hnd Hsp' Hgr Pm (fun n h H => conj (proj1 (HU n h H)) (proj1 (proj2 (HU n h H)))))
    as (pl & sym & Ep & g & Wg & Pg & Lg & Ed).
  assert (Emap : mapM (fun ph : string * graph => bindr (edge_pdf true (snd ph)) (fun s =>
                         bindr (edge_pdf false (snd ph)) (fun e => Ok (fst ph, s, e)))) units =
                 Ok (map (fun u => (fst u, Some (unit_edge true u), Some (unit_edge false u))) units)).
  { assert (FU' : forall u, In u units -> edge_pdf true (snd u) = Ok (Some (unit_edge true u)) /\ edge_pdf false (snd u) = Ok (Some (unit_edge false u))).
    { intros u Hu. destruct (FU u Hu) as (t & k & n & e & x & _ & _ & _ & _ & _ & _ & _ & _ & H9 & H10 & _). unfold unit_edge. now rewrite H9, H10. }
    clear - FU'. induction units as [|u us IH]; [reflexivity|]. cbn [mapM map]. destruct (FU' u (or_introl eq_refl)) as (-> & ->). cbn [bindr].
    rewrite IH by (intros; apply FU'; now right). reflexivity. }
  rewrite Emap in Ed. cbn [bindr] in Ed. rewrite !map_map in Ed. cbn [fst snd] in Ed.
  destruct (compile_ok g Wg) as (c & Ec).
  destruct (C65_identity_partial _ _ _ _ _ _ _ _ _ _ _ _ _ Hreg Hul Hnd Hg Em Ep Ed Ec) as [I1 I2].
  destruct (decode_gated (fun p => In p starts) (fun p => In p ends) group lines ul units pl sym g _ _ c Hul Hnd Hsp' Hgr Pm HU Dj Ep Ed Ec)
    as (_ & _ & S1 & S2 & S3 & S4 & Dg).
  assert (Pv : forall b, pdf_values (map (fun u => (fst u, Some (unit_edge b u))) units) = Ok (map (unit_edge b) units)).
  { intros b. clear. induction units as [|u us IH]; [reflexivity|]. unfold pdf_values in *. cbn [map mapM snd bindr]. now rewrite IH. }
  exists {| pl_weights := wid; pl_graph := to_cgraph c; pl_order := c_map c; pl_starts := starts; pl_ends := ends |}, units, tots, c, g.
  split.
  { unfold build_loop. rewrite Em. cbn [bindr fst snd]. rewrite Ep. cbn [bindr fst snd]. rewrite Ed. cbn [bindr fst snd]. rewrite Ec. cbn [bindr].
    rewrite !Pv. reflexivity. }
  do 3 (split; [reflexivity|]). split; [exact Ec|]. split; [exact I2|]. split; [exact I1|].
  assert (Elen : length units = length ul) by (apply Permutation_length in Pm; now rewrite !map_length in Pm).
  assert (Lt : forall b u, In u units -> (unit_edge b u < c_n c)%nat).
  { intros b u Hu. assert (Hin : In (unit_edge b u) (seq 0 (list_sum tots))).
    { rewrite <- M. apply in_concat. exists (pdf_id_mapping (snd u)). split; [|now apply Rng].
      apply in_map_iff. exists u. auto. }
    apply in_seq in Hin. lia. }
  split.
  { split; [|unfold starts, ends; cbn [pl_starts pl_ends]; now rewrite !map_length].
    unfold loop_ok. cbn [pl_starts pl_ends pl_graph to_cgraph cg_n]. split; [|split; [|split; [|split; [|split]]]].
    - apply (picks (fun u : string * graph => pdf_id_mapping (snd u))); auto. intros u Hu. now apply Rng.
    - apply (picks (fun u : string * graph => pdf_id_mapping (snd u))); auto. intros u Hu. now apply Rng.
    - intros e H1 H2. eauto.
    - intros Hc. apply (f_equal (@length nat)) in Hc. unfold starts in Hc. rewrite map_length, Elen in Hc. destruct ul; [congruence|discriminate].
    - intros s Hs. apply in_map_iff in Hs. destruct Hs as (u & <- & Hu). now apply Lt.
    - intros s Hs. apply in_map_iff in Hs. destruct Hs as (u & <- & Hu). now apply Lt. }
  split; [cbn [pl_starts]; unfold starts; now rewrite map_length|].
  split; [exact Nu|]. split; [exact Pm|]. split.
  { intros nm h Hin. destruct (FU (nm, h) Hin) as (t & k & n & e & x & H1 & H2 & H3 & H4 & H5 & H6 & H7 & H8 & H9 & H10 & H11).
    cbn [snd] in *. destruct (HU nm h Hin) as (U1 & U2 & _ & _ & U3). split; [exact U1|]. split; [exact U2|].
    split; [|split; [exact U3|]]. { rewrite H8. now apply unit_of_rank. }
    intros p Hp. assert (Hi : In p (seq 0 (list_sum tots))).
    { rewrite <- M. apply in_concat. exists (pdf_id_mapping h). split; [|exact Hp]. apply in_map_iff. exists (nm, h). auto. }
    apply in_seq in Hi. lia. }
  split; [exact Wg|]. split; [exact Pg|]. do 4 (split; [assumption|]). split; [exact Dg|].
  intros ls. rewrite Lg. unfold sayable, said. split.
  - intros (sq & hs & A & B & C). exists sq. split; [exact A|]. exists hs. split; [|exact C].
    clear - B. induction B; constructor; auto. now apply sget_in.
  - intros (sq & A & hs & B & C). exists sq, hs. split; [exact A|]. split; [|exact C].
    clear - B Nu. induction B; constructor; auto. now apply sget_units.
Qed.

(** ** Paths of the tuned loop *)
Lemma tail_keep g g' : cg_final g' = cg_final g -> (forall i j, cg_trans g i j <> NInf -> cg_trans g' i j <> NInf) ->
  forall ls p s, tail_score g s ls p <> NInf -> tail_score g' s ls p <> NInf.
Proof.
  intros Ef Et. induction ls as [|r ls IH]; intros p s H; destruct p as [|j p]; simpl in *; try congruence.
  apply ladd_fin in H. destruct H as [H1 H2]. apply ladd_fin in H1. destruct H1 as [H1 H3].
  apply ladd_fin. split; [|auto]. apply ladd_fin. auto.
Qed.

Lemma path_keep g g' ls p : cg_init g' = cg_init g -> cg_final g' = cg_final g ->
  (forall i j, cg_trans g i j <> NInf -> cg_trans g' i j <> NInf) ->
  path_score g ls p <> NInf -> path_score g' ls p <> NInf.
Proof.
  intros Ei Ef Et H. destruct ls as [|r ls], p as [|j p]; simpl in *; try congruence.
  apply ladd_fin in H. destruct H as [H1 H2]. apply ladd_fin. rewrite Ei. split; [exact H1|].
  now apply (tail_keep g g').
Qed.

Lemma score_prior g T p : path_score g (repeat (fun _ => Fin 0) T) p <> NInf -> 0 < prior_prob g T p.
Proof.
  intros H. unfold prior_prob. rewrite <- ex_path_score. pose proof (ex_nonneg (path_score g (repeat (fun _ => Fin 0) T) p)).
  destruct (Req_dec (ex (path_score g (repeat (fun _ => Fin 0) T) p)) 0) as [E|E]; [|lra].
  apply ex_zero_iff in E. congruence.
Qed.

Lemma fin_ex a : a <> NInf <-> 0 < ex a.
Proof.
  split; intros H.
  - pose proof (ex_nonneg a). destruct (Req_dec (ex a) 0) as [E|E]; [|lra]. apply ex_zero_iff in E. congruence.
  - intros ->. simpl in H. lra.
Qed.

(** A compiled graph that accepts a sequence of that length *)
Lemma graph_path g c s e ls : Graph_Spec.wf g -> all_positive g -> g_start g = Some s -> g_end g = Some e ->
  non_emitting g s -> non_emitting g e -> compile g = Ok c ->
  (forall i, (i < c_n c)%nat -> Graph_Model.c_trans c i i < 1) -> ls <> [] -> Gb_Spec.accepts g ls ->
  exists p, In p (paths (c_n c) (length ls)) /\ path_score (to_cgraph c) (repeat (fun _ => Fin 0) (length ls)) p <> NInf.
Proof.
  intros W P Es Ee Ns Ne Ec Hd Hne Ha.
  destruct (proj2 (C155_exact g c s e ls W P Es Ee Ns Ne Ec Hd Hne) Ha) as (p & Hp & Hs & _).
  exists p. split; [exact Hp|].
  assert (E : map (fun _ : nat => (fun _ : nat => Fin 0) : row) ls = repeat (fun _ => Fin 0) (length ls)).
  { clear. induction ls as [|a ls IH]; [reflexivity|]. simpl. now rewrite IH. }
  rewrite <- E. exact Hs.
Qed.

Section Data.
  Variables (k : kind) (D : nat) (group : option string) (ul : list (string * string)) (skel : mset)
    (l : ploop) (units : list (string * graph)) (tots : list nat) (c : compiled) (g : graph).
  Hypothesis El : pl_graph l = to_cgraph c.
  Hypothesis Eo : pl_order l = c_map c.
  Hypothesis Ec : compile g = Ok c.
  Hypothesis En : c_n c = list_sum tots.
  Hypothesis Em : c_map c = seq 0 (c_n c).
  Hypothesis Nu : NoDup (map fst units).
  Hypothesis HU : forall n h, In (n, h) units -> usable h /\ all_positive h /\ ranked h /\ exits h /\
       forall p, In p (pdf_id_mapping h) -> (p < list_sum tots)%nat.
  Hypothesis Wg : Graph_Spec.wf g.
  Hypothesis Pg : all_positive g.
  Hypothesis Hs : g_start g = Some 0%nat.
  Hypothesis He : g_end g = Some 1%nat.
  Hypothesis Ns : non_emitting g 0.
  Hypothesis Ne : non_emitting g 1.
  Hypothesis Hd : forall i, (i < c_n c)%nat -> Graph_Model.c_trans c i i < 1.
  Hypothesis HL : forall ls, Gb_Spec.accepts g ls <-> sayable group ul units ls.
  Hypothesis Hsz : size skel = list_sum tots.

  Lemma diag_ex e : ex (cg_trans (pl_graph l) e e) < 1 \/ (c_n c <= e)%nat.
  Proof.
    destruct (Nat.lt_ge_cases e (c_n c)) as [H|H]; [left|now right]. rewrite El. cbn [to_cgraph cg_trans].
    specialize (Hd e H). unfold lnp. destruct (Rlt_dec 0 (Graph_Model.c_trans c e e)); simpl; [|lra]. now rewrite exp_ln.
  Qed.

  Lemma utt_spoken tr x : (forall i j, cg_trans (to_cgraph c) i j <> NInf -> tr i j <> NInf) ->
    spoken k D group ul units x -> utt_ok k D skel (lu_utt l tr x).
  Proof.
    intros Htr (xs & Ex & Fx & Hne & Hx). unfold utt_ok.
    assert (Est : u_stats (lu_utt l tr x) = lu_stats x) by (unfold lu_utt; destruct (lu_ali x) as [[? ?]|]; reflexivity).
    rewrite Est. split.
    { rewrite Ex. destruct xs; [congruence|discriminate]. }
    split; [exists xs; auto|]. unfold lu_utt. destruct (lu_ali x) as [[g' order]|].
    - destruct Hx as (sq & c' & ls & Ecs & -> & -> & (hs & Hsq & Hac) & Hlen). cbn [u_order u_graph u_stats].
      assert (F2 : Forall2 (fun p h => sget p units = Ok h) sq hs).
      { clear - Hsq Nu. induction Hsq; constructor; auto. now apply sget_units. }
      assert (Fh : Forall (fun h => exists n, In (n, h) units) hs).
      { clear - Hsq. induction Hsq; constructor; eauto. }
      assert (Fu : Forall usable hs).
      { eapply Forall_impl; [|exact Fh]. intros h (n & Hn). now apply (HU n h). }
      assert (Fp : Forall all_positive hs).
      { eapply Forall_impl; [|exact Fh]. intros h (n & Hn). now apply (HU n h). }
      assert (Fr : Forall (fun h => ranked h /\ exits h) hs).
      { eapply Forall_impl; [|exact Fh]. intros h (n & Hn). destruct (HU n h Hn) as (_ & _ & A & B & _). auto. }
      destruct (ali_full units sq hs F2 Fu Fp) as (g1 & A1 & W1 & P1 & N1 & (s1 & e1 & S1 & S2 & S3 & S4) & R1).
      destruct (R1 Fr) as (R2 & X2).
      destruct (C66_language units sq hs) as (g2 & c2 & B1 & B2 & B3 & B4 & B5); auto.
      { intros h a Hh Ha. exact (proj1 (Forall_forall _ _) Fp h Hh a Ha). }
      assert (g2 = g1) by congruence. subst g2. assert (c2 = c') by congruence. subst c2.
      assert (Hls : ls <> []) by (intros ->; destruct xs; [congruence|discriminate]).
      destruct (graph_path g1 c' s1 e1 ls W1 P1 S1 S2 S3 S4 B3) as (p & Hp & Hsc); auto.
      { intros i Hi. now apply (diag_lt_one g1). }
      { apply B4. exact Hac. }
      split; [|split; [|exists p]].
      + rewrite B5. intros o Ho. apply in_concat in Ho. destruct Ho as (m & Hm & Ho). apply in_map_iff in Hm.
        destruct Hm as (h & <- & Hh). destruct (proj1 (Forall_forall _ _) Fh h Hh) as (n & Hn). rewrite Hsz. now apply (HU n h Hn).
      + cbn [to_cgraph cg_n]. destruct (compile_map g1 c' B3) as [M1 M2]. rewrite M1. unfold pdf_id_mapping. rewrite map_length. now symmetry.
      + cbn [to_cgraph cg_n]. rewrite Ex, map_length, <- Hlen. split; [exact Hp|]. now apply score_prior.
    - destruct Hx as (ls & Hsay & Hlen). cbn [u_order u_graph u_stats]. rewrite Eo, El. cbn [with_trans to_cgraph cg_n].
      assert (Hls : ls <> []) by (intros ->; destruct xs; [congruence|discriminate]).
      destruct (graph_path g c 0%nat 1%nat ls Wg Pg Hs He Ns Ne Ec Hd Hls (proj2 (HL ls) Hsay)) as (p & Hp & Hsc).
      split; [|split; [|exists p]].
      + rewrite Em, Hsz, <- En. intros o Ho. apply in_seq in Ho. lia.
      + rewrite Em. apply seq_length.
      + rewrite Ex, map_length, <- Hlen. split; [exact Hp|]. apply score_prior.
        apply (path_keep (to_cgraph c)); auto.
  Qed.
End Data.

Lemma tuned_keeps l tr0 tr (w : nat -> nat -> R) : loop_ok l ->
  (forall e, In e (pl_ends l) -> ex (tr0 e e) < 1) ->
  (forall i j, ~ (In i (pl_ends l) /\ In j (pl_starts l)) -> tr i j = tr0 i j) ->
  (forall i q, (i < length (pl_ends l))%nat -> (q < length (pl_starts l))%nat ->
    let e := nth i (pl_ends l) 0%nat in ex (tr e (nth q (pl_starts l) 0%nat)) = (1 - ex (tr e e)) * exp (w i q)) ->
  forall i j, tr0 i j <> NInf -> tr i j <> NInf.
Proof.
  intros (Ns & Ne & Hd & _) Hl Ho Ht i j H.
  destruct (in_dec Nat.eq_dec i (pl_ends l)) as [Hi|Hi]; [|rewrite Ho; tauto].
  destruct (in_dec Nat.eq_dec j (pl_starts l)) as [Hj|Hj]; [|rewrite Ho; tauto].
  destruct (In_nth _ _ 0%nat Hi) as (a & La & Ea). destruct (In_nth _ _ 0%nat Hj) as (b & Lb & Eb).
  specialize (Ht a b La Lb). cbv zeta in Ht. rewrite Ea, Eb in Ht. apply fin_ex. rewrite Ht.
  rewrite (Ho i i) by (intros [_ Hc]; now apply (Hd i)). apply Rmult_lt_0_compat; [|apply exp_pos]. specialize (Hl i Hi). lra.
Qed.
