(** C64-C66, C103: the graph building scripts. *)
From Coq Require Import Reals String List Arith Bool Lra Lia Permutation.
From Verif Require Import Prelude Graph_Model Graph_Spec Graph_Proofs Graph_Eps Graph_Hist
  Graph_Lang Gb_Model Gb_Spec Gb_Lang Gb_Proofs Gb_Loop.
Import ListNotations.
Local Open Scope R_scope.

(** ** C64 *)

(** A topology over 0, ..., n - 1: the first and last states do not emit, state
    i in between has the pdf id k + i - 1, and the arcs are those of the
    topology.  The next unit starts after the n - 2 ids used here. *)
Theorem C64_unit_graph : forall t n k, (2 <= n)%nat -> contiguous t n ->
  exists g, create_unit_graph t k = Ok (g, (k + (n - 2))%nat) /\ wf g /\
    states g = seq 0 n /\ g_start g = Some 0%nat /\ g_end g = Some (n - 1)%nat /\
    In (0%nat, None) (g_states g) /\ In ((n - 1)%nat, None) (g_states g) /\
    (forall i, (0 < i < n - 1)%nat -> In (i, Some (k + (i - 1))%nat) (g_states g)) /\
    pdf_id_mapping g = seq k (n - 2) /\
    (forall s e, (exists w, In (Arc s e w) (g_arcs g)) <-> exists w, In (s, e, w) t) /\
    (forall s e w, In (Arc s e w) (g_arcs g) -> In (s, e, w) t).
Proof.
  intros t n k Hn Hc. exists (unit_of t k n).
  assert (Hst : forall i, (i < n)%nat -> In (i, unit_pdf k n i) (g_states (unit_of t k n))).
  { intros i Hi. simpl. unfold unit_sts. apply in_map_iff. exists i. split; [reflexivity|].
    apply in_seq. lia. }
  assert (Harc : forall s e w, In (Arc s e w) (g_arcs (unit_of t k n)) -> In (s, e, w) t).
  { intros s e w H. simpl in H. apply fold_arc_add_in in H. destruct H as [[]|H].
    apply in_map_iff in H. destruct H as ([[s' e'] w'] & E & H). inversion E. subst. exact H. }
  split; [now apply create_unit_graph_eq|]. split; [now apply unit_of_wf|].
  split; [apply unit_of_states|]. split; [reflexivity|]. split; [reflexivity|].
  split; [|split; [|split; [|split; [|split]]]].
  - specialize (Hst 0%nat). unfold unit_pdf in Hst. simpl in Hst. apply Hst. lia.
  - specialize (Hst (n - 1)%nat). unfold unit_pdf in Hst. rewrite Nat.eqb_refl, orb_true_r in Hst.
    apply Hst. lia.
  - intros i Hi. specialize (Hst i). unfold unit_pdf in Hst.
    destruct (Nat.eqb i 0 || Nat.eqb i (n - 1)) eqn:E.
    + apply orb_true_iff in E. rewrite !Nat.eqb_eq in E. lia.
    + apply Hst. lia.
  - rewrite mapping_pdfs. simpl. now apply unit_sts_pdfs.
  - intros s e. split; [intros (w & H); eauto|]. intros (w & H).
    assert (K : In (s, e) (map key (g_arcs (unit_of t k n)))).
    { simpl. apply fold_arc_add_keys. right. rewrite map_map. apply in_map_iff.
      exists (s, e, w). auto. }
    apply in_map_iff in K. destruct K as ([s' e' w'] & E & K). unfold key in E. simpl in E.
    inversion E. subst. eauto.
  - exact Harc.
Qed.

(** Distinct unit names, regular topologies: reading the units in order, the
    k-th emitting state has pdf id k, and the mixtures created for the groups
    are exactly as many. *)
Theorem C64_inventory_partial : forall conf lines ul units tots,
  (forall g t, In (g, t) conf -> regular t) ->
  mapM unit_line lines = Ok ul -> NoDup (map fst ul) ->
  (forall u, In u ul -> In (snd u) (map fst conf)) ->
  mkphones conf lines = Ok (units, tots) ->
    Permutation (map fst units) (map fst ul) /\
    concat (map (fun u => pdf_id_mapping (snd u)) units) = seq 0 (list_sum tots) /\
    length tots = length (nodup string_dec (map fst conf)) /\
    (forall name h, In (name, h) units ->
       exists gr t k k', In (name, gr) ul /\ In (gr, t) conf /\
         create_unit_graph t k = Ok (h, k')).
Proof.
  intros conf lines ul units tots Hreg Hul Hnd Hg E.
  destruct (mkphones_inv conf lines ul units tots Hreg Hul Hnd Hg E) as (P & M & L & F).
  split; [exact P|]. split; [exact M|]. split.
  - rewrite L. destruct (groups_conf_spec conf) as (G1 & G2 & G3).
    rewrite <- (map_length fst). apply Nat.le_antisymm.
    + apply NoDup_incl_length; [exact G1|]. intros x Hx. apply nodup_In. now apply G3.
    + apply NoDup_incl_length; [apply NoDup_nodup|]. intros x Hx. apply nodup_In in Hx. now apply G3.
  - intros name h Hin. rewrite Forall_forall in F. destruct (F _ Hin) as (gr & t & k & n & B1 & B2 & B3 & B4 & B5).
    simpl in B5. subst h. exists gr, t, k, (k + (n - 2))%nat. split; [exact B1|]. split; [exact B2|].
    now apply create_unit_graph_eq.
Qed.

(** The command succeeds exactly when every group of the configuration has a
    unit and an emitting state. *)
Theorem C64_succeeds : forall conf lines ul,
  NoDup (map fst conf) -> (forall g t, In (g, t) conf -> regular t) ->
  mapM unit_line lines = Ok ul -> NoDup (map fst ul) ->
  (forall u, In u ul -> In (snd u) (map fst conf)) ->
  ((exists r, mkphones conf lines = Ok r) <-> populated conf ul /\ forall g t, In (g, t) conf -> has_emitting t).
Proof.
  intros conf lines ul Hn Hreg Hul Hnd Hg. split.
  - intros ([units tots] & E). exact (mkphones_only conf lines ul units tots Hn Hreg Hul Hg E).
  - intros (Hp & He). destruct (mkphones_spec conf lines ul He Hp Hul Hnd Hg) as (units & tots & E & _). eauto.
Qed.

(** Otherwise the first such group stops it: when it is the first group of the
    configuration and has no unit, the variable [group_conf] is not defined;
    else there is a division by zero. *)
Theorem C64_empty_group_refuted : forall conf a g t n b lines ul,
  conf = a ++ (g, t) :: b -> NoDup (map fst conf) ->
  mapM unit_line lines = Ok ul -> (forall u, In u ul -> In (snd u) (map fst conf)) ->
  (forall g t, In (g, t) a -> (exists n, In (n, g) ul) /\ has_emitting t) ->
  (2 <= n)%nat -> contiguous t n ->
  ((forall m, ~ In (m, g) ul) -> mkphones conf lines = Err (match a with [] => NameError | _ => ZeroDivisionError end)) /\
  (n = 2%nat -> (exists m, In (m, g) ul) -> mkphones conf lines = Err ZeroDivisionError).
Proof.
  intros conf a g t n b lines ul Ec Hn Hm Hg Ha Hn2 Hc. split.
  - intros H. rewrite (mkphones_stops conf lines ul a g t n b) by auto. destruct a as [|p a]; [|reflexivity].
    destruct (existsb (fun u => String.eqb (snd u) g) ul) eqn:E; [|reflexivity]. exfalso.
    apply existsb_exists in E. destruct E as ([m g'] & Hin & E). apply String.eqb_eq in E. cbn [snd] in E. subst g'. exact (H m Hin).
  - intros -> (m & Hin). rewrite (mkphones_stops conf lines ul a g t 2 b) by auto. destruct a as [|p a]; [|reflexivity].
    replace (existsb (fun u => String.eqb (snd u) g) ul) with true; [reflexivity|]. symmetry. apply existsb_exists.
    exists (m, g). split; [exact Hin|apply String.eqb_refl].
Qed.

(** State ids 1, 2, 3: the start state is an emitting one, the end state does
    not exist and two units share a pdf id. *)
Definition shifted : list (nat * nat * R) :=
  [(1%nat, 2%nat, 1); (2%nat, 2%nat, 1/2); (2%nat, 3%nat, 1/2)].

Theorem C64_shifted_ids_refuted :
  exists conf lines units tots, mkphones conf lines = Ok (units, tots) /\
    NoDup (map (hd ""%string) lines) /\
    ~ NoDup (concat (map (fun u => pdf_id_mapping (snd u)) units)) /\
    forall name h, In (name, h) units -> exists e, g_end h = Some e /\ ~ In e (states h).
Proof.
  exists [("g"%string, shifted)], [["a"; "g"]; ["b"; "g"]]%string.
  eexists. eexists. split; [reflexivity|]. split; [|split].
  - simpl. repeat constructor; simpl; intuition discriminate.
  - simpl. intros H. inversion_clear H as [|? ? _ H']. inversion_clear H' as [|? ? H1 _]. apply H1.
    simpl. auto.
  - intros name h [H|[H|[]]]; inversion H; subst; exists 3%nat; (split; [reflexivity|]);
      unfold states; simpl; intuition lia.
Qed.

(** A repeated name: the first unit of that name is lost with its pdf ids. *)
Definition bakis3 : list (nat * nat * R) :=
  [(0%nat, 1%nat, 1); (1%nat, 1%nat, 1/2); (1%nat, 2%nat, 1/2); (2%nat, 2%nat, 1/2); (2%nat, 3%nat, 1/2)].

Theorem C64_repeated_name_refuted :
  exists conf lines units tots, mkphones conf lines = Ok (units, tots) /\
    (forall g t, In (g, t) conf -> regular t) /\
    concat (map (fun u => pdf_id_mapping (snd u)) units) = [2; 3]%nat /\ list_sum tots = 4%nat.
Proof.
  exists [("g"%string, bakis3)], [["a"; "g"]; ["a"; "g"]]%string.
  eexists. eexists. split; [reflexivity|]. split; [|split; reflexivity].
  intros g t [H|[]]. inversion H. subst. exists 4%nat. split; [lia|].
  intros s. unfold bakis3. split.
  - intros Hs. destruct s as [|[|[|[|s]]]]; [| | | |lia].
    + exists (0%nat, 1%nat, 1). simpl. auto.
    + exists (0%nat, 1%nat, 1). simpl. auto.
    + exists (1%nat, 2%nat, 1/2). simpl. auto.
    + exists (2%nat, 3%nat, 1/2). simpl. auto 9.
  - intros (a & Ha & E). simpl in Ha. decompose [or] Ha; try contradiction; subst a; simpl in E; lia.
Qed.

Lemma bakis3_contiguous : contiguous bakis3 4.
Proof.
  intros s. unfold bakis3. split.
  - intros Hs. destruct s as [|[|[|[|s]]]]; [| | | |lia].
    + exists (0%nat, 1%nat, 1). simpl. auto.
    + exists (0%nat, 1%nat, 1). simpl. auto.
    + exists (1%nat, 2%nat, 1/2). simpl. auto.
    + exists (2%nat, 3%nat, 1/2). simpl. auto 9.
  - intros (a & Ha & E). simpl in Ha. decompose [or] Ha; try contradiction; subst a; simpl in E; lia.
Qed.

Definition ex_conf : list (string * list (nat * nat * R)) :=
  [("sil", bakis3); ("speech", [(0%nat, 1%nat, 1); (1%nat, 1%nat, 1/2); (1%nat, 2%nat, 1/2)])]%string.
Definition ex_lines : list (list string) := [["a"; "speech"]; ["sil"; "sil"]; ["b"; "speech"]]%string.

Example ex_C64 : exists units tots, mkphones ex_conf ex_lines = Ok (units, tots) /\
  map fst units = ["sil"; "a"; "b"]%string /\ tots = [2; 2]%nat /\
  map (fun u => pdf_id_mapping (snd u)) units = [[0; 1]; [2]; [3]]%nat.
Proof. eexists. eexists. split; [reflexivity|]. auto. Qed.
Example ex_C64_empty : mkphones ex_conf [["a"; "speech"]]%string = Err NameError /\
  mkphones ex_conf [["sil"; "sil"]]%string = Err ZeroDivisionError.
Proof. split; reflexivity. Qed.

(** ** C65 *)

(** Whatever the phone loop, when the decoding graph of such an inventory
    compiles its states are in the order of the pdf ids. *)
Theorem C65_identity_partial : forall conf lines ul units tots group lines' pl sym g sp ep c,
  (forall g t, In (g, t) conf -> regular t) ->
  mapM unit_line lines = Ok ul -> NoDup (map fst ul) ->
  (forall u, In u ul -> In (snd u) (map fst conf)) ->
  mkphones conf lines = Ok (units, tots) ->
  mkphoneloopgraph group lines' = Ok (pl, sym) ->
  mkdecodegraph pl sym units = Ok (g, sp, ep) ->
  compile g = Ok c ->
  c_map c = seq 0 (c_n c) /\ c_n c = list_sum tots.
Proof.
  intros conf lines ul units tots group lines' pl sym g sp ep c Hreg Hul Hnd Hg Hm Hp Hd Hc.
  destruct (mkphones_inv conf lines ul units tots Hreg Hul Hnd Hg Hm) as (_ & M & _).
  apply compile_map in Hc. destruct Hc as [C1 C2].
  rewrite C1, (decode_mapping _ _ _ _ _ _ _ _ Hp Hd), M.
  assert (En : c_n c = list_sum tots).
  { rewrite C2. transitivity (length (pdf_id_mapping g)).
    - unfold pdf_id_mapping. now rewrite map_length.
    - rewrite (decode_mapping _ _ _ _ _ _ _ _ Hp Hd), M. apply seq_length. }
  now rewrite En.
Qed.

(** Left-to-right like topologies with positive weights and names which are not
    the three special symbols: the three scripts succeed, the graph compiles,
    and start_pdf / end_pdf are the pdf ids of the entry / exit states. *)
Theorem C65_success : forall conf lines ul group,
  (forall g t, In (g, t) conf -> positive t /\ exists n e x, (2 <= n)%nat /\ contiguous t n /\
     single_entry t n e /\ single_exit t n x) -> populated conf ul ->
  mapM unit_line lines = Ok ul -> NoDup (map fst ul) ->
  (forall u, In u ul -> In (snd u) (map fst conf)) ->
  (forall u, In u (map fst ul) -> u <> START_SYM /\ u <> END_SYM /\ u <> PIVOT_SYM) ->
  group <> Some ""%string ->
  exists units tots pl sym g sp ep c,
    mkphones conf lines = Ok (units, tots) /\
    mkphoneloopgraph group lines = Ok (pl, sym) /\
    mkdecodegraph pl sym units = Ok (g, sp, ep) /\
    compile g = Ok c /\ c_map c = seq 0 (c_n c) /\ c_n c = list_sum tots /\
    Forall2 (fun u s => fst s = fst u /\ exists b e p, g_start (snd u) = Some b /\
       step true (snd u) b e /\ In (e, Some p) (g_states (snd u)) /\ snd s = Some p) units sp /\
    Forall2 (fun u s => fst s = fst u /\ exists b e p, g_end (snd u) = Some b /\
       step false (snd u) b e /\ In (e, Some p) (g_states (snd u)) /\ snd s = Some p) units ep.
Proof.
  intros conf lines ul group Hconf Hpop Hul Hnd Hg Hsp Hgr.
  assert (Hem : forall g t, In (g, t) conf -> has_emitting t).
  { intros g t H. destruct (Hconf g t H) as (_ & n & e & x & H1 & H2 & (H3 & _) & _). exists n. split; [lia|exact H2]. }
  assert (Hreg : forall g t, In (g, t) conf -> regular t).
  { intros g t H. destruct (Hconf g t H) as (_ & n & e & x & H1 & H2 & _). exists n. auto. }
  destruct (mkphones_spec conf lines ul Hem Hpop Hul Hnd Hg) as (units & tots & Em & Hperm & M & _ & F).
  rewrite Forall_forall in F.
  assert (Hsp' : forall u, In u (map fst ul) -> ~ special u).
  { intros u Hu. specialize (Hsp u Hu). unfold special. tauto. }
  assert (Hu : forall n h, In (n, h) units -> usable h /\ pos_weights h).
  { intros n h Hin. destruct (F _ Hin) as (gr & t & k & m & B1 & B2 & B3 & B4 & B5). simpl in B5. subst h.
    split; [now apply unit_of_usable|]. apply unit_of_pos. apply (Hconf gr t B2). }
  destruct (decode_ok group lines ul units Hul Hnd Hsp' Hgr Hperm Hu)
    as (pl & sym & Ep & g & Wg & _ & _ & Ed).
  destruct (mapM_ok (fun ph : string * graph => bindr (edge_pdf true (snd ph)) (fun s =>
                         bindr (edge_pdf false (snd ph)) (fun e =>
                         Ok (fst ph, s, e))))
    (fun u x => fst (fst x) = fst u /\
      (exists b e p, g_start (snd u) = Some b /\ step true (snd u) b e /\
         In (e, Some p) (g_states (snd u)) /\ snd (fst x) = Some p) /\
      (exists b e p, g_end (snd u) = Some b /\ step false (snd u) b e /\
         In (e, Some p) (g_states (snd u)) /\ snd x = Some p)) units) as (l & El & Fl).
  { intros [n h] Hin. destruct (F _ Hin) as (gr & t & k & m & B1 & B2 & B3 & B4 & B5).
    simpl in B5. subst h. destruct (Hconf gr t B2) as (_ & n' & e & x & N1 & N2 & N3 & N4).
    assert (n' = m).
    { destruct (Nat.lt_trichotomy n' m) as [H|[H|H]]; [exfalso|exact H|exfalso].
      - apply B4 in H. apply N2 in H. lia.
      - apply N2 in H. apply B4 in H. lia. }
    subst n'. simpl snd. simpl fst. rewrite (unit_entry t k m e), (unit_exit t k m x) by auto.
    eexists. split; [reflexivity|]. cbn [fst snd]. split; [reflexivity|].
    destruct (C64_unit_graph t m k B3 B4) as (g' & Eg' & _ & _ & _ & _ & _ & _ & G1 & _ & G2 & _).
    rewrite (create_unit_graph_eq t k m) in Eg' by auto. inversion Eg'. subst g'. clear Eg'.
    destruct N3 as (He & Hw & _). destruct N4 as (Hx & Hv & _).
    apply G2 in Hw. apply G2 in Hv. destruct Hw as (w & Hw). destruct Hv as (v & Hv). split.
    - exists 0%nat, e, (k + (e - 1))%nat. split; [reflexivity|]. split; [eexists; split; [exact Hw|auto]|].
      split; [now apply G1|reflexivity].
    - exists (m - 1)%nat, x, (k + (x - 1))%nat. split; [reflexivity|].
      split; [eexists; split; [exact Hv|auto]|]. split; [now apply G1|reflexivity]. }
  rewrite El in Ed. cbn [bindr] in Ed.
  destruct (compile_ok g Wg) as (c & Ec).
  destruct (C65_identity_partial _ _ _ _ _ _ _ _ _ _ _ _ _ Hreg Hul Hnd Hg Em Ep Ed Ec) as [I1 I2].
  do 8 eexists. repeat (split; [eassumption|]). clear - Fl. split.
  - induction Fl as [|u x us xs (H1 & H2 & H3) Fl IH]; [constructor|]. constructor; [|exact IH].
    split; [exact H1|exact H2].
  - induction Fl as [|u x us xs (H1 & H2 & H3) Fl IH]; [constructor|]. constructor; [|exact IH].
    split; [exact H1|exact H3].
Qed.

(** A repeated unit name: everything succeeds and the mapping is not the
    identity. *)
Definition dup_raw : graph :=
  Graph 5 (plain 0 5) [Arc 0 2 1; Arc 2 1 1; Arc 2 4 1; Arc 4 2 1] (Some 0%nat) (Some 1%nat).

Lemma dup_raw_wf : wf dup_raw.
Proof.
  constructor.
  - unfold states. simpl. repeat constructor; simpl; intuition lia.
  - intros s Hs. unfold states in Hs. simpl in *. intuition lia.
  - intros a Ha. unfold states. simpl in *. decompose [or] Ha; try contradiction; subst a; simpl; auto 7.
  - unfold key. simpl. repeat constructor; simpl; intuition discriminate.
Qed.

Theorem C65_repeated_name_refuted :
  exists conf lines units tots pl sym g sp ep c,
    (forall g t, In (g, t) conf -> regular t) /\
    mkphones conf lines = Ok (units, tots) /\
    mkphoneloopgraph None lines = Ok (pl, sym) /\
    mkdecodegraph pl sym units = Ok (g, sp, ep) /\
    compile g = Ok c /\ c_map c = [2; 3]%nat.
Proof.
  set (lines := [["a"; "g"]; ["a"; "g"]]%string). set (conf := [("g"%string, bakis3)]).
  set (h := unit_of bakis3 2 4).
  assert (Eu : exists tots, mkphones conf lines = Ok ([("a"%string, h)], tots)).
  { eexists. reflexivity. }
  destruct Eu as (tots & Eu).
  assert (P0 : pos_weights dup_raw).
  { intros a Ha. simpl in Ha. decompose [or] Ha; try contradiction; subst a; simpl; lra. }
  destruct (normalize_pos dup_raw (wf_nodup _ dup_raw_wf) P0) as (pl & Hpl & Ppl).
  pose proof (normalize_wf _ _ dup_raw_wf Hpl) as Wpl.
  destruct (normalize_arcs _ _ (wf_nodup _ dup_raw_wf) Hpl) as (E1 & E2 & E3 & E4 & A1 & A2).
  set (sym := [(0, START_SYM); (1, END_SYM); (2, PIVOT_SYM); (4, "a"%string)]%nat).
  assert (Epl : mkphoneloopgraph None lines = Ok (pl, sym)).
  { transitivity (bindr (normalize dup_raw) (fun g => Ok (g, sym))); [reflexivity|].
    rewrite Hpl. reflexivity. }
  assert (Hh : usable h) by (apply unit_of_usable; [lia|apply bakis3_contiguous]).
  assert (Ph : pos_weights h).
  { apply unit_of_pos. intros a Ha. simpl in Ha. decompose [or] Ha; try contradiction; subst a; simpl; lra. }
  destruct (replace_all_spec [(4%nat, h)] pl nosg Wpl) as (g0 & R1 & R2 & _ & _ & _ & _ & R3 & _ & _).
  { repeat constructor. simpl. tauto. }
  { intros x h' [H|[]]. inversion H. subst x h'. split; [|split; [exact Hh|]].
    - unfold states. rewrite E1. simpl. auto 9.
    - intros a Ha [X1 X2]. apply A2 in Ha. destruct Ha as (v & Ha). rewrite X1, X2 in Ha. simpl in Ha.
      decompose [or] Ha; try contradiction; discriminate. }
  { reflexivity. }
  { reflexivity. }
  assert (P1 : pos_weights g0).
  { apply R3; [exact Ppl|]. intros x h' [H|[]]. inversion H. subst. exact Ph. }
  destruct (normalize_pos g0 (wf_nodup _ R2) P1) as (g & Hg & _).
  assert (Wg : wf g) by (eapply normalize_wf; eauto).
  destruct (compile_ok g Wg) as (c & Ec).
  assert (Ed : exists sp ep, mkdecodegraph pl sym [("a"%string, h)] = Ok (g, sp, ep)).
  { eexists. eexists. unfold mkdecodegraph.
    match goal with |- bindr ?X _ = _ => assert (EX : X = Ok g0) end.
    { rewrite <- R1. unfold replace_all. cbn [foldM fst snd]. reflexivity. }
    rewrite EX. cbn [bindr]. rewrite Hg. cbn [bindr mapM fst snd].
    unfold h. rewrite (unit_entry bakis3 2 4 1), (unit_exit bakis3 2 4 2); cbn [bindr]; try reflexivity;
      try lia; try apply bakis3_contiguous.
    - split; [lia|]. split; [eexists; simpl; auto 9|]. intros a Ha E. simpl in Ha.
      decompose [or] Ha; try contradiction; subst a; simpl in *; lia.
    - split; [lia|]. split; [eexists; simpl; auto 9|]. intros a Ha E. simpl in Ha.
      decompose [or] Ha; try contradiction; subst a; simpl in *; lia. }
  destruct Ed as (sp & ep & Ed).
  exists conf, lines, [("a"%string, h)], tots, pl, sym, g, sp, ep, c.
  split.
  { intros gr t [H|[]]. inversion H. exists 4%nat. split; [lia|apply bakis3_contiguous]. }
  repeat (split; [assumption|]). apply compile_map in Ec. destruct Ec as [-> _].
  rewrite (decode_mapping _ _ _ _ _ _ _ _ Epl Ed). reflexivity.
Qed.

(** A unit called "#1" hides the pivot; without a group of initial units the
    script fails. *)
(** Lines without exactly a name and a group are refused. *)
Theorem C65_malformed_line : forall group lines l, In l lines -> length l <> 2%nat ->
  mkphoneloopgraph group lines = Err ValueError.
Proof.
  intros group lines l Hin Hl. unfold mkphoneloopgraph.
  assert (E : mapM unit_line lines = Err ValueError); [|now rewrite E].
  assert (U : forall l, (exists ng, unit_line l = Ok ng) \/ unit_line l = Err ValueError).
  { intros [|a [|b [|c r]]]; cbn; eauto. }
  assert (Ul : unit_line l = Err ValueError).
  { destruct l as [|a [|b [|c r]]]; try reflexivity. now destruct Hl. }
  clear Hl. induction lines as [|x lines IH]; [contradiction|]. cbn [mapM].
  destruct (U x) as [(ng & E)|E]; rewrite E; [|reflexivity]. cbn [bindr]. destruct Hin as [->|Hin]; [congruence|].
  rewrite IH by auto. reflexivity.
Qed.

Example ex_C65_pivot_name : mkphoneloopgraph None [["#1"; "g"]]%string = Err KeyError.
Proof. reflexivity. Qed.

(** ** C103: the language of the decoding graph *)
Theorem C103_decoding_language : forall group lines ul units,
  mapM unit_line lines = Ok ul -> NoDup (map fst ul) ->
  (forall u, In u (map fst ul) -> u <> START_SYM /\ u <> END_SYM /\ u <> PIVOT_SYM) ->
  group <> Some ""%string ->
  Permutation (map fst units) (map fst ul) ->
  (forall n h, In (n, h) units -> usable h /\ forall a, In a (g_arcs h) -> 0 < a_weight a) ->
  exists pl sym, mkphoneloopgraph group lines = Ok (pl, sym) /\
  forall g sp ep, mkdecodegraph pl sym units = Ok (g, sp, ep) ->
  wf g /\
  forall ls, accepts g ls <->
    exists sq hs, loop_seq group ul sq /\
      Forall2 (fun n h => In (n, h) units) sq hs /\ cat_accepts hs ls.
Proof.
  intros group lines ul units Hul Hnd Hsp Hgr Hperm Hu.
  assert (Hsp' : forall u, In u (map fst ul) -> ~ special u).
  { intros u Hx. specialize (Hsp u Hx). unfold special. tauto. }
  destruct (decode_ok group lines ul units Hul Hnd Hsp' Hgr Hperm Hu)
    as (pl & sym & Ep & g & Wg & _ & L & Ed).
  exists pl, sym. split; [exact Ep|]. intros g' sp ep Hd. rewrite Ed in Hd.
  match type of Hd with bindr ?X _ = _ => destruct X as [l|]; [|discriminate] end.
  cbn [bindr] in Hd. inv Hd. split; [exact Wg|]. intros ls. rewrite L.
  assert (N : NoDup (map fst units)) by
    (eapply Permutation_NoDup; [apply Permutation_sym; exact Hperm|exact Hnd]).
  assert (X : forall sq hs, Forall2 (fun n h => sget n units = Ok h) sq hs <->
                            Forall2 (fun n h => In (n, h) units) sq hs).
  { intros sq hs. split; intros H; induction H; constructor; auto.
    - now apply sget_in.
    - now apply sget_nodup. }
  split; intros (sq & hs & H1 & H2 & H3); exists sq, hs; (split; [exact H1|split; [|exact H3]]);
    now apply X.
Qed.

(** Both kinds of loops over the units a, sil. *)
Example ex_C103_free : loop_seq None [("a", "speech"); ("sil", "sil")]%string ["a"; "a"]%string.
Proof. split; [repeat constructor; simpl; auto|exact I]. Qed.
Example ex_C103_group : ~ loop_seq (Some "sil"%string) [("a", "speech"); ("sil", "sil")]%string
  ["a"; "sil"]%string /\
  loop_seq (Some "sil"%string) [("a", "speech"); ("sil", "sil")]%string ["sil"; "a"; "sil"]%string.
Proof.
  split.
  - intros (_ & a & b & E1 & E2 & Ha & _). simpl in E1. inversion E1. subst a. simpl in Ha.
    destruct Ha as [H|[H|[]]]; discriminate.
  - split; [apply Forall_forall; simpl; intuition|]. cbn. exists "sil"%string, "sil"%string. auto 6.
Qed.

(** ** C66 *)
Lemma ali_ok pg sq hs : Forall2 (fun p h => sget p pg = Ok h) sq hs -> Forall usable hs ->
  (forall h a, In h hs -> In a (g_arcs h) -> 0 < a_weight a) ->
  exists g0 g, replace_phones pg (combine (seq 1 (length sq)) sq) (linear (length sq)) = Ok g0 /\
    normalize g0 = Ok g /\ ali_graph sq pg = Ok g /\ wf g0 /\ wf g /\
    (forall ls w, generates g0 ls w <-> catgen hs ls w) /\
    pdf_id_mapping g = concat (map pdf_id_mapping hs).
Proof.
  intros F U P. destruct (ali_replaced pg sq hs F U) as (g0 & E & W & L & M & Pp).
  destruct (normalize_pos g0 (wf_nodup _ W)) as (g & Hg & _).
  { apply Pp. intros h Hh a Ha. eauto. }
  exists g0, g. split; [exact E|]. split; [exact Hg|]. split.
  { unfold ali_graph. rewrite linear_graph_eq, E. exact Hg. }
  split; [exact W|]. split; [eapply normalize_wf; eauto|]. split; [exact L|].
  apply normalize_states in Hg. rewrite mapping_pdfs. destruct Hg as [-> _]. unfold pdfs. rewrite M.
  simpl. clear. induction hs as [|h hs IH]; [reflexivity|]. simpl. rewrite flat_map_app. f_equal.
  - rewrite mapping_pdfs. reflexivity.
  - exact IH.
Qed.

Theorem C66_language : forall pg sq hs,
  Forall2 (fun p h => sget p pg = Ok h) sq hs -> Forall usable hs ->
  (forall h a, In h hs -> In a (g_arcs h) -> 0 < a_weight a) ->
  exists g c, ali_graph sq pg = Ok g /\ create_graph_from_seq sq pg = Ok c /\ compile g = Ok c /\
    (forall ls, accepts g ls <-> cat_accepts hs ls) /\
    c_map c = concat (map pdf_id_mapping hs).
Proof.
  intros pg sq hs F U P. destruct (ali_ok pg sq hs F U P) as (g0 & g & E & N & A & W0 & W & L & M).
  destruct (compile_ok g W) as (c & Ec). exists g, c. split; [exact A|]. split.
  { unfold create_graph_from_seq. rewrite A. exact Ec. }
  split; [exact Ec|]. split.
  - intros ls. rewrite (normalize_accepts g0 g ls (wf_nodup _ W0) N), <- catgen_accepts.
    unfold accepts. split; intros (w & H); exists w; now apply L.
  - apply compile_map in Ec. destruct Ec as [-> _]. exact M.
Qed.

(** When the units are normalised already and nothing leaves their end state,
    so is the graph, and the weights are the products of the weights of the
    units. *)
Theorem C66_weights : forall pg sq hs,
  Forall2 (fun p h => sget p pg = Ok h) sq hs -> Forall usable hs -> Forall proper_unit hs ->
  exists g, ali_graph sq pg = Ok g /\ forall ls w, generates g ls w <-> catgen hs ls w.
Proof.
  intros pg sq hs F U P. destruct (ali_replaced pg sq hs F U) as (g0 & E & W & L & M & _).
  exists g0. split; [|exact L]. unfold ali_graph. rewrite linear_graph_eq, E. cbn [bindr].
  apply normalised_fixpoint; [apply W|].
  rewrite (replace_phones_eq pg sq hs) in E by (auto; apply seq_length).
  assert (El : length hs = length sq) by (eapply ali_length; eauto). rewrite <- El in E.
  set (n := length hs) in *.
  assert (Ef : map fst (combine (seq 1 n) hs) = seq 1 n) by (apply combine_map_fst; now rewrite seq_length).
  apply (replace_all_normalised (combine (seq 1 n) hs) (linear n)); auto using linear_wf, linear_normalised.
  - rewrite Ef. apply seq_NoDup.
  - intros x h Hx. pose proof (in_combine_l _ _ _ _ Hx) as H1. pose proof (in_combine_r _ _ _ _ Hx) as H2.
    apply in_seq in H1. rewrite Forall_forall in U, P. split; [|split; [auto|split; [|auto]]].
    + unfold states. simpl. rewrite states_plain. apply in_seq. lia.
    + intros a Ha [E1 E2]. simpl in Ha. apply in_chain in Ha. destruct Ha as (i & Hi & ->). simpl in *. lia.
Qed.

Lemma unknown_phone pg : forall pre xs hs p post g,
  length xs = length (pre ++ p :: post) -> Forall2 (fun p h => sget p pg = Ok h) pre hs ->
  ~ In p (map fst pg) ->
  (exists g', replace_all (combine xs hs) g = Ok g') ->
  replace_phones pg (combine xs (pre ++ p :: post)) g = Err KeyError.
Proof.
  induction pre as [|q pre IH]; intros xs hs p post g El F Hp Hok.
  - destruct xs as [|x xs]; [discriminate|]. unfold replace_phones. simpl.
    destruct (sget p pg) as [h|e] eqn:E.
    + apply sget_in in E. exfalso. apply Hp. apply in_map_iff. exists (p, h). auto.
    + apply sget_err in E. destruct E as [-> _]. reflexivity.
  - inversion F as [|? h ? hs' Eq F']. subst. destruct xs as [|x xs]; [discriminate|].
    unfold replace_phones, replace_all in *. simpl in *. rewrite Eq. simpl.
    destruct (replace_state g x h) as [g1|] eqn:E1; simpl in *; [|destruct Hok; discriminate].
    apply (IH xs hs' p post g1); auto.
Qed.

(** A phone without a unit. *)
Theorem C66_unknown_phone : forall pg pre p post hs,
  Forall2 (fun p h => sget p pg = Ok h) pre hs -> Forall usable hs -> ~ In p (map fst pg) ->
  create_graph_from_seq (pre ++ p :: post) pg = Err KeyError.
Proof.
  intros pg pre p post hs F U Hp. unfold create_graph_from_seq, ali_graph. rewrite linear_graph_eq.
  rewrite (unknown_phone pg pre _ hs p post); auto.
  - apply seq_length.
  - assert (El : length hs = length pre) by (eapply ali_length; eauto).
    set (N := length (pre ++ p :: post)).
    assert (HN : (length hs <= N)%nat) by (unfold N; rewrite app_length; simpl; lia).
    set (l := combine (seq 1 N) hs).
    assert (Ef : map fst l = seq 1 (length hs)).
    { unfold l. clear - HN. clearbody N. clear - HN. revert HN. generalize 1%nat. revert N.
      induction hs as [|h hs IH]; intros N k HN; [destruct (seq k N); reflexivity|].
      destruct N; simpl in HN; [lia|]. simpl. f_equal. apply IH. lia. }
    destruct (replace_all_spec l (linear N) nosg (linear_wf N)) as (g & E & _).
    + rewrite Ef. apply seq_NoDup.
    + intros x h Hx.
      assert (Hx1 : In x (map fst l)) by (apply in_map_iff; exists (x, h); auto).
      rewrite Ef in Hx1. apply in_seq in Hx1.
      pose proof (in_combine_r _ _ _ _ Hx) as H2. rewrite Forall_forall in U. split; [|split; [auto|]].
      * unfold states. simpl. rewrite states_plain. apply in_seq. lia.
      * intros a Ha [E1 E2]. simpl in Ha. apply in_chain in Ha. destruct Ha as (i & Hi & ->). simpl in *. lia.
    + reflexivity.
    + reflexivity.
    + eauto.
Qed.

(** The units of [ex_C64] for the transcription "sil a". *)
Example ex_C66 : exists c,
  create_graph_from_seq ["sil"; "a"]%string
    [("sil", unit_of bakis3 0 4); ("a", unit_of [(0%nat, 1%nat, 1); (1%nat, 1%nat, 1/2); (1%nat, 2%nat, 1/2)] 2 3)]%string
    = Ok c /\ c_map c = [0; 1; 2]%nat.
Proof.
  destruct (C66_language
    [("sil", unit_of bakis3 0 4); ("a", unit_of [(0%nat, 1%nat, 1); (1%nat, 1%nat, 1/2); (1%nat, 2%nat, 1/2)] 2 3)]%string
    ["sil"; "a"]%string [unit_of bakis3 0 4; unit_of [(0%nat, 1%nat, 1); (1%nat, 1%nat, 1/2); (1%nat, 2%nat, 1/2)] 2 3])
    as (g & c & _ & E & _ & _ & M).
  - repeat constructor.
  - constructor; [apply unit_of_usable; [lia|apply bakis3_contiguous]|]. constructor; [|constructor].
    apply unit_of_usable; [lia|]. intros s. split.
    + intros Hs. destruct s as [|[|[|s]]]; [| | |lia].
      * exists (0%nat, 1%nat, 1). simpl. auto.
      * exists (0%nat, 1%nat, 1). simpl. auto.
      * exists (1%nat, 2%nat, 1/2). simpl. auto.
    + intros (a & Ha & E). simpl in Ha. decompose [or] Ha; try contradiction; subst a; simpl in E; lia.
  - intros h a Hh Ha. assert (Pp : pos_weights h); [|now apply Pp].
    destruct Hh as [<-|[<-|[]]]; apply unit_of_pos; intros b Hb; simpl in Hb;
      decompose [or] Hb; try contradiction; subst b; simpl; lra.
  - exists c. split; [exact E|]. rewrite M. reflexivity.
Qed.

Print Assumptions C64_unit_graph.
Print Assumptions C64_inventory_partial.
Print Assumptions C64_shifted_ids_refuted.
Print Assumptions C64_repeated_name_refuted.
Print Assumptions C65_identity_partial.
Print Assumptions C65_success.
Print Assumptions C65_repeated_name_refuted.
Print Assumptions C66_language.
Print Assumptions C66_weights.
Print Assumptions C66_unknown_phone.
Print Assumptions C103_decoding_language.
Print Assumptions C65_malformed_line.
