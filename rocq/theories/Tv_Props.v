(** C143-C147: the scripts of the TIMIT recipe. *)
From Coq Require Import Reals String Ascii List Arith Bool Lra Lia Permutation Sorted.
From Verif Require Import Prelude Graph_Model Graph_Spec Graph_Proofs Graph_Hist Graph_Eps
  Gb_Model Gb_Spec Gb_Lang Gb_Proofs Edit_Model Tr_Model Tr_Props Tv_Model Tv_Spec Tv_Proofs.
Import ListNotations.
Local Open Scope string_scope.
Local Open Scope R_scope.

(** ** C143: prepare-decode-graph.py *)
Definition named (arcs : list (string * string * R)) (x : string) : Prop :=
  exists a b w, In (a, b, w) arcs /\ (x = a \/ x = b).
Lemma named_iff arcs x : In x (arc_names arcs) <-> named arcs x.
Proof.
  rewrite arc_names_in. split.
  - intros ([[a b] w] & H & Hx). exists a, b, w. auto.
  - intros (a & b & w & H & Hx). exists (a, b, w). auto.
Qed.
Lemma psym_in arcs x i : In (x, i) (psym arcs) <-> In x (pnames arcs) /\ i = pst arcs x.
Proof.
  assert (N : NoDup (pnames arcs)) by apply sorted_nodup, sort_names_sorted. split.
  - intros H. assert (Hx : In x (pnames arcs)) by (now apply in_combine_l in H). split; [exact Hx|].
    pose proof (psym_get arcs x Hx) as E. apply sget_in in E.
    assert (G : forall (l : list string) k y a b, NoDup l -> In (y, a) (combine l (seq k (List.length l))) ->
      In (y, b) (combine l (seq k (List.length l))) -> a = b).
    { clear. induction l as [|z l IH]; intros k y a b N H1 H2; cbn in *; [tauto|]. inversion N; subst.
      destruct H1 as [H1|H1], H2 as [H2|H2]; try congruence.
      - injection H1 as -> <-. apply in_combine_l in H2. contradiction.
      - injection H2 as -> <-. apply in_combine_l in H1. contradiction.
      - eauto. }
    eapply G; eauto.
  - intros [Hx ->]. now apply sget_in, psym_get.
Qed.

(** The states are the names in alphabetical order, no state emits, and the
    arcs are the lines, weighted by their share of the weight leaving their
    first state; the order in which the set of lines is read does not matter. *)
Theorem C143_graph : forall float lines arcs, mapM (txt_arc float) lines = Ok arcs ->
  functional arcs -> (forall a b w, In (a, b, w) arcs -> 0 < w) -> named arcs "[s]" -> named arcs "[/s]" ->
  exists names, StronglySorted name_lt names /\ (forall x, In x names <-> named arcs x) /\
  forall order, enumerates (order arcs) arcs ->
  let sym := combine names (seq 0 (List.length names)) in
  exists g s e, prepare_graph float order lines = Ok (g, sym) /\
    g_states g = map (fun i => (i, None)) (seq 0 (List.length names)) /\
    In ("[s]", s) sym /\ g_start g = Some s /\ In ("[/s]", e) sym /\ g_end g = Some e /\
    forall l, enumerates l arcs -> forall i j v, In (Arc i j v) (g_arcs g) <->
      exists a b w, In (a, b, w) arcs /\ In (a, i) sym /\ In (b, j) sym /\ v = w / out_total l a.
Proof.
  intros float lines arcs Ha Hf Hp Hs He. exists (pnames arcs). split; [apply sort_names_sorted|].
  split; [intros x; rewrite (pnames_in arcs); apply named_iff|].
  intros order Ho. cbn zeta. fold (psym arcs).
  destruct (prepare_ok float order lines arcs Ha Ho Hf) as (g & E & W & C & S & B & F & A).
  { intros [[a b] w] H. exact (Hp a b w H). }
  { now apply named_iff. } { now apply named_iff. }
  exists g, (pst arcs "[s]"), (pst arcs "[/s]"). split; [exact E|]. split; [exact S|].
  assert (Hn : forall x, named arcs x -> In x (pnames arcs)) by (intros x H; now apply pnames_in, named_iff).
  split; [apply psym_in; auto|]. split; [exact B|]. split; [apply psym_in; auto|]. split; [exact F|].
  intros l Hl i j v. rewrite A. split.
  - intros (a & b & w & H & Ex). injection Ex as -> -> ->. exists a, b, w. split; [exact H|].
    rewrite !psym_in. repeat split; try (apply Hn; exists a, b, w; auto).
    f_equal. apply out_total_perm. eapply enumerates_perm; eauto.
  - intros (a & b & w & H & H1 & H2 & ->). apply psym_in in H1, H2. destruct H1 as [_ ->], H2 as [_ ->].
    exists a, b, w. split; [exact H|]. f_equal. f_equal. apply out_total_perm. eapply enumerates_perm; eauto.
Qed.
(** A graph without one of the two special states is refused. *)
Theorem C143_missing : forall float order lines arcs, mapM (txt_arc float) lines = Ok arcs ->
  ~ named arcs "[s]" \/ ~ named arcs "[/s]" -> prepare_graph float order lines = Err KeyError.
Proof.
  intros float order lines arcs Ha Hm. unfold prepare_graph. rewrite Ha. cbn [bindr]. fold (arc_names arcs). fold (pnames arcs).
  rewrite (sym_states_eq (pnames arcs)) by apply sorted_nodup, sort_names_sorted. fold (psym arcs).
  assert (G : forall x, ~ named arcs x -> sget x (psym arcs) = Err KeyError).
  { intros x Hx. destruct (sget x (psym arcs)) as [i|e] eqn:E.
    - apply sget_in in E. apply psym_in in E. destruct E as [E _]. exfalso. now apply Hx, named_iff, pnames_in.
    - f_equal. eapply Tr_Props.sget_err; eauto. }
  destruct Hm as [Hm|Hm].
  - now rewrite (G _ Hm).
  - destruct (sget "[s]" (psym arcs)) as [i|e] eqn:E; cbn [bindr].
    + now rewrite (G _ Hm).
    + f_equal. eapply Tr_Props.sget_err; eauto.
Qed.
(** Two weights for the same arc: the graph depends on the order of the set. *)
Definition clash : list (string * string * R) := [("[s]", "a", 1); ("[s]", "a", 3); ("[s]", "[/s]", 1); ("a", "[/s]", 1)].
Definition clash_lines : list (list string) := [["[s]"; "a"]; ["[s]"; "a"; "3"]; ["[s]"; "[/s]"]; ["a"; "[/s]"]].
Definition clash_graph (w : R) : graph :=
  Graph 3 [(0, None); (1, None); (2, None)]%nat [Arc 1 2 w; Arc 1 0 1; Arc 2 0 1]%nat (Some 1%nat) (Some 0%nat).
Lemma clash_normal w : 0 < w -> normalize (clash_graph w) =
  Ok (Graph 3 [(0, None); (1, None); (2, None)]%nat [Arc 1 2 (w / (w + 1)); Arc 1 0 (1 / (w + 1)); Arc 2 0 1]%nat (Some 1%nat) (Some 0%nat)).
Proof.
  intros Hw. unfold normalize, clash_graph. cbn [states g_states map fst g_arcs foldM bindr].
  unfold normalize_state at 1. cbn [filter a_start Nat.eqb bindr].
  unfold normalize_state at 1. cbn [filter a_start Nat.eqb bindr].
  assert (E1 : out_sum [Arc 1 2 w; Arc 1 0 1; Arc 2 0 1]%nat 1 = w + 1) by (unfold out_sum; cbn; unfold sumf; cbn; lra).
  rewrite E1. destruct (Req_EM_T (w + 1) 0); [lra|]. cbn [bindr scale_out map a_start a_end a_weight Nat.eqb].
  unfold normalize_state. cbn [filter a_start Nat.eqb bindr].
  match goal with |- context [out_sum ?l 2] => assert (E2 : out_sum l 2 = 1) by (unfold out_sum; cbn; unfold sumf; cbn; lra) end.
  rewrite E2. destruct (Req_EM_T 1 0); [lra|]. cbn [bindr scale_out map a_start a_end a_weight Nat.eqb with_arcs g_states g_count g_start g_end].
  now replace (1 / 1) with 1 by lra.
Qed.
Lemma clash_prepare float o w : float "3" = Ok 3 -> 0 < w ->
  o clash = [("[s]", "a", w); ("[s]", "a", 4 - w); ("[s]", "[/s]", 1); ("a", "[/s]", 1)] ->
  prepare_graph float o clash_lines =
  Ok (Graph 3 [(0, None); (1, None); (2, None)]%nat [Arc 1 2 (w / (w + 1)); Arc 1 0 (1 / (w + 1)); Arc 2 0 1]%nat (Some 1%nat) (Some 0%nat),
      [("[/s]", 0); ("[s]", 1); ("a", 2)]%nat).
Proof.
  intros H3 Hw Ho. unfold prepare_graph.
  replace (mapM (txt_arc float) clash_lines) with (Ok clash) by (cbn; rewrite H3; reflexivity). cbn [bindr].
  rewrite Ho. transitivity (bindr (normalize (clash_graph w)) (fun g => Ok (g, [("[/s]", 0); ("[s]", 1); ("a", 2)]%nat))); [reflexivity|].
  now rewrite (clash_normal w Hw).
Qed.
Theorem C143_two_weights_refuted : forall float, float "3" = Ok 3 ->
  exists o1 o2 g1 g2 sym, enumerates (o1 clash) clash /\ enumerates (o2 clash) clash /\
    prepare_graph float o1 clash_lines = Ok (g1, sym) /\ prepare_graph float o2 clash_lines = Ok (g2, sym) /\
    In (Arc 1 2 (1 / 2)) (g_arcs g1) /\ In (Arc 1 2 (3 / 4)) (g_arcs g2) /\ ~ In (Arc 1 2 (3 / 4)) (g_arcs g1).
Proof.
  intros float H3. 
  set (P w := [("[s]", "a", w); ("[s]", "a", 4 - w); ("[s]", "[/s]", 1); ("a", "[/s]", 1)]).
  assert (N : forall w, w = 1 \/ w = 3 -> enumerates (P w) clash).
  { intros w Hw. split.
    - unfold P. constructor; [|constructor; [|constructor; [|constructor; [intros []|constructor]]]].
      + intros [E|[E|[E|[]]]]; try discriminate. assert (4 - w = w) by congruence. lra.
      + intros [E|[E|[]]]; discriminate.
      + intros [E|[]]; discriminate.
    - intros x. unfold P, clash. cbn. destruct Hw as [-> | ->]; [replace (4 - 1) with 3 by lra|replace (4 - 3) with 1 by lra]; tauto. }
  exists (fun _ => P 1), (fun _ => P 3). do 3 eexists. split; [apply N; auto|]. split; [apply N; auto|].
  split; [apply (clash_prepare float (fun _ => P 1) 1); [exact H3|lra|reflexivity]|].
  split; [apply (clash_prepare float (fun _ => P 3) 3); [exact H3|lra|reflexivity]|].
  cbn [g_arcs]. split; [left; f_equal; lra|]. split; [left; f_equal; lra|].
  intros [X|[X|[X|[]]]]; injection X; intros; try lra; discriminate.
Qed.
(** A line with a fourth token loses its weight. *)
Theorem C143_four_tokens_refuted : forall float a b w t l, txt_arc float (a :: b :: w :: t :: l) = Ok (a, b, 1).
Proof. reflexivity. Qed.
(** The graph of the documentation of the recipe, with two phones *)
Example C143_example : forall float, float "2" = Ok 2 ->
  let lines := [["[s]"; "sil"]; ["sil"; "[/s]"]; ["sil"; "b"; "2"]; ["b"; "sil"]] in
  exists g, prepare_graph float (fun l => l) lines = Ok (g, [("[/s]", 0); ("[s]", 1); ("b", 2); ("sil", 3)]%nat) /\
    In (Arc 3 2 (2 / 3)) (g_arcs g) /\ In (Arc 3 0 (1 / 3)) (g_arcs g).
Proof.
  intros float H2 lines.
  set (arcs := [("[s]", "sil", 1); ("sil", "[/s]", 1); ("sil", "b", 2); ("b", "sil", 1)]).
  assert (Em : mapM (txt_arc float) lines = Ok arcs) by (cbn; rewrite H2; reflexivity).
  assert (En : enumerates arcs arcs).
  { split; [|tauto]. unfold arcs. repeat (constructor; [cbn; intuition discriminate|]). constructor. }
  destruct (prepare_ok float (fun l => l) lines arcs Em En) as (g & E & _ & _ & _ & _ & _ & A).
  { intros a b w w' X Y. unfold arcs in X, Y. cbn in X, Y. destruct X as [X|[X|[X|[X|[]]]]], Y as [Y|[Y|[Y|[Y|[]]]]]; congruence. }
  { intros a X. unfold arcs in X. cbn in X. destruct X as [<-|[<-|[<-|[<-|[]]]]]; cbn; lra. }
  { cbn. auto. } { cbn. auto 10. }
  assert (T : out_total arcs "sil" = 3) by (unfold out_total, arcs; cbn; unfold sumf; cbn; lra).
  exists g. split; [exact E|]. rewrite !A. split.
  - exists "sil", "b", 2. split; [cbn; auto|]. now rewrite T.
  - exists "sil", "[/s]", 1. split; [cbn; auto|]. now rewrite T.
Qed.

(** ** C144: hmm-create-graph-and-emissions.py and hmm-pdf-id-mapping.py *)

(** The first phones of the list receive the units of the groups in order.  The
    units of a group have its states and topology, and their pdfs are those of
    the member of the emissions made for the group. *)
Theorem C144_units : forall conf phones, Forall group_fits conf -> NoDup phones ->
  (list_sum (map n_units conf) <= List.length phones)%nat ->
  exists blocks, tv_units conf phones = Ok (concat blocks, map group_tot conf) /\
    map fst (concat blocks) = firstn (list_sum (map n_units conf)) phones /\
    Forall2 (fun c b => List.length b = n_units c /\ Forall (fun u => group_unit c (snd u)) b) conf blocks /\
    (forall pre c post bpre b bpost, conf = (pre ++ c :: post)%list -> blocks = (bpre ++ b :: bpost)%list -> List.length pre = List.length bpre ->
       block_pdfs b = seq (list_sum (map group_tot pre)) (group_tot c)) /\
    block_pdfs (concat blocks) = seq 0 (list_sum (map group_tot conf)).
Proof. exact tv_units_ok. Qed.
(** One unit: the states, the pdfs and the normalised arcs. *)
Theorem C144_unit : forall n t k, fits n t -> exists h, tv_unit_graph n t k = Ok (h, (k + (n - 2))%nat) /\
  unit_hmm n t k h /\ pdf_id_mapping h = seq k (n - 2).
Proof. intros n t k F. destruct (tv_unit_ok n t k F) as (h & E & U & _ & P). eauto. Qed.
Theorem C144_too_many : forall conf phones, Forall group_fits conf -> NoDup phones ->
  (List.length phones < list_sum (map n_units conf))%nat -> tv_units conf phones = Err IndexError.
Proof. exact tv_units_many. Qed.
(** Each pdf is listed once, with the phone whose HMM has it. *)
Theorem C144_pdf_mapping : forall conf phones units tots, Forall group_fits conf -> NoDup phones ->
  tv_units conf phones = Ok (units, tots) ->
  map fst (pdf_unit_map units) = seq 0 (list_sum tots) /\
  forall p u, In (p, u) (pdf_unit_map units) <-> exists h s, In (u, h) units /\ In (s, Some p) (g_states h).
Proof.
  intros conf phones units tots Fc Np E.
  destruct (le_lt_dec (list_sum (map n_units conf)) (List.length phones)) as [L|L];
    [|rewrite (tv_units_many conf phones Fc Np L) in E; discriminate].
  destruct (tv_units_ok conf phones Fc Np L) as (bs & E' & _ & _ & _ & P). rewrite E' in E. injection E as <- <-.
  rewrite pdf_unit_map_pdfs. split; [exact P|]. intros p u. unfold pdf_unit_map. rewrite in_flat_map. split.
  - intros ([n h] & Hu & H). apply in_flat_map in H. destruct H as ([s o] & Hs & H). cbn in H, Hs.
    destruct o as [q|]; [|destruct H]. destruct H as [H|[]]. injection H as -> ->. eauto.
  - intros (h & s & Hu & Hs). exists (u, h). split; [exact Hu|]. apply in_flat_map. exists (s, Some p). split; [exact Hs|]. now left.
Qed.
(** Nothing is said about the phones left over, which have no HMM. *)
Theorem C144_left_over_refuted : forall conf phones p, Forall group_fits conf -> NoDup phones ->
  In p (skipn (list_sum (map n_units conf)) phones) ->
  exists units tots, tv_units conf phones = Ok (units, tots) /\ ~ In p (map fst units).
Proof.
  intros conf phones p Fc Np Hp.
  assert (L : (list_sum (map n_units conf) <= List.length phones)%nat).
  { destruct (le_lt_dec (list_sum (map n_units conf)) (List.length phones)) as [L|L]; [exact L|]. rewrite skipn_all2 in Hp by lia. destruct Hp. }
  destruct (tv_units_ok conf phones Fc Np L) as (bs & E & N & _). do 2 eexists. split; [exact E|]. rewrite N.
  rewrite <- (firstn_skipn (list_sum (map n_units conf)) phones) in Np. intros H.
  clear - Np Hp H. revert Np H. generalize (firstn (list_sum (map n_units conf)) phones). induction l as [|x l IH]; intros Np H; [destruct H|].
  inversion Np; subst. destruct H as [->|H]; [|auto]. apply H2. apply in_app_iff. auto.
Qed.

Definition ex_topo3 : list (nat * nat * R) := [(0%nat, 1%nat, 1); (1%nat, 1%nat, 3); (1%nat, 2%nat, 1)].
Definition ex_topo4 : list (nat * nat * R) :=
  [(0%nat, 1%nat, 1); (1%nat, 1%nat, 1); (1%nat, 2%nat, 1); (2%nat, 2%nat, 1); (2%nat, 3%nat, 1)].
Definition ex_groups : list tv_group := [Group 1 4 ex_topo4; Group 2 3 ex_topo3].
Lemma ex_groups_fit : Forall group_fits ex_groups.
Proof.
  constructor; [|constructor; [|constructor]]; (split; [cbn; lia|]; split; intros a H; cbn in H).
  - destruct H as [<-|[<-|[<-|[<-|[<-|[]]]]]]; cbn; lra.
  - destruct H as [<-|[<-|[<-|[<-|[<-|[]]]]]]; cbn; lia.
  - destruct H as [<-|[<-|[<-|[]]]]; cbn; lra.
  - destruct H as [<-|[<-|[<-|[]]]]; cbn; lia.
Qed.
Lemma ex_phones_nodup : NoDup ["sil"; "aa"; "b"].
Proof. repeat constructor; cbn; intuition discriminate. Qed.
Example C144_example : exists units, tv_units ex_groups ["sil"; "aa"; "b"] = Ok (units, [2; 2]%nat) /\
  map fst units = ["sil"; "aa"; "b"] /\ pdf_unit_map units = [(0, "sil"); (1, "sil"); (2, "aa"); (3, "b")]%nat.
Proof.
  destruct (C144_units ex_groups ["sil"; "aa"; "b"] ex_groups_fit ex_phones_nodup) as (bs & E & N & F & P & Q); [cbn; lia|].
  exists (concat bs). split; [exact E|]. split; [exact N|].
  inversion F as [|? b1 ? bs' (L1 & G1) F']; subst. inversion F' as [|? b2 ? bs'' (L2 & G2) F'']; subst. inversion F''; subst. clear F F' F''.
  pose proof (P [] (Group 1 4 ex_topo4) [Group 2 3 ex_topo3] [] b1 [b2] eq_refl eq_refl eq_refl) as P1.
  destruct b1 as [|[n1 h1] [|? ?]]; try discriminate. destruct b2 as [|[n2 h2] [|[n3 h3] [|? ?]]]; try discriminate.
  cbn in N. injection N as -> -> ->.
  inversion G1 as [|? ? [(k1 & U1) _] _]; subst. inversion G2 as [|? ? [(k2 & U2) _] G3]; subst. inversion G3 as [|? ? [(k3 & U3) _] _]; subst. cbn [snd] in *.
  assert (S : forall h n t k, unit_hmm n t k h -> List.length (g_states h) = n).
  { intros h n t k U. pose proof (uh_states _ _ _ _ U) as X. apply (f_equal (@List.length nat)) in X. unfold states in X. now rewrite map_length, seq_length in X. }
  assert (K : forall h n t k, unit_hmm n t k h -> (2 <= n)%nat -> g_states h = unit_sts k n n).
  { intros h n t k U Hn. apply nth_ext with (d := (0%nat, None)) (d' := (0%nat, None)).
    - rewrite (S _ _ _ _ U). unfold unit_sts. now rewrite map_length, seq_length.
    - intros i Hi. rewrite (S _ _ _ _ U) in Hi. unfold unit_sts.
      rewrite (nth_indep (map (fun i => (i, unit_pdf k n i)) (seq 0 n)) (0%nat, None) ((fun i => (i, unit_pdf k n i)) 0%nat)) by (rewrite map_length, seq_length; exact Hi).
      rewrite (map_nth (fun i => (i, unit_pdf k n i))), seq_nth by exact Hi. cbn [Nat.add].
      pose proof (uh_states _ _ _ _ U) as X. unfold states in X.
      destruct (nth i (g_states h) (0%nat, None)) as [j o] eqn:Ej.
      assert (j = i). { apply (f_equal (fun l => nth i l 0%nat)) in X. rewrite seq_nth in X by exact Hi.
        change 0%nat with (fst (0%nat, @None nat)) in X at 1. rewrite map_nth, Ej in X. exact X. } subst j.
      assert (Hin : In (i, o) (g_states h)). { rewrite <- Ej. apply nth_In. now rewrite (S _ _ _ _ U). }
      assert (Nd : NoDup (map fst (g_states h))) by (rewrite X; apply seq_NoDup).
      assert (Fun : forall o', In (i, o') (g_states h) -> o = o').
      { intros o' H'. clear - Nd Hin H'. induction (g_states h) as [|[a b] l IH]; [destruct Hin|]. cbn in Nd. inversion Nd; subst.
        destruct Hin as [Y|Y], H' as [Z|Z]; try congruence.
        - injection Y as -> ->. exfalso. apply H1. apply (in_map fst) in Z. exact Z.
        - injection Z as -> ->. exfalso. apply H1. apply (in_map fst) in Y. exact Y.
        - auto. }
      f_equal. apply Fun. unfold unit_pdf. destruct (Nat.eqb_spec i 0) as [->|N0]; [apply (uh_entry _ _ _ _ U)|].
      destruct (Nat.eqb_spec i (n - 1)) as [->|N1]; [apply (uh_exit _ _ _ _ U)|]. apply (uh_pdf _ _ _ _ U). lia. }
  apply K in U1; [|cbn; lia]. apply K in U2; [|cbn; lia]. apply K in U3; [|cbn; lia].
  unfold block_pdfs in P1, Q. cbn [concat app map snd] in P1, Q. rewrite !mapping_pdfs, U1, U2, U3 in Q. rewrite !mapping_pdfs, U1 in P1.
  cbn in P1, Q. injection Q as Q1 Q2 Q3 Q4. unfold pdf_unit_map. cbn [concat app flat_map snd fst]. rewrite U1, U2, U3. cbn.
  repeat f_equal; lia.
Qed.

(** ** C145: create-decode-graph.py to hmm-create.py *)
Lemma units_all conf (phones : list string) : list_sum (map n_units conf) = List.length phones -> firstn (list_sum (map n_units conf)) phones = phones.
Proof. intros ->. apply firstn_all. Qed.
Lemma units_usable conf (blocks : list (list (string * graph))) : Forall2 (fun c b => List.length b = n_units c /\ Forall (fun u => group_unit c (snd u)) b) conf blocks ->
  forall p h, In (p, h) (concat blocks) -> usable h.
Proof.
  induction 1 as [|c b conf blocks (_ & G) F IH]; intros p h H; [destruct H|]. cbn in H. apply in_app_iff in H. destruct H as [H|H]; [|eauto].
  rewrite Forall_forall in G. apply G in H. apply H.
Qed.

Section Chain.
  Variables (show : R -> string) (float : string -> result R) (order : list (string * string * R) -> list (string * string * R)).
  Variables (phones : list string) (pw : string -> R) (conf : list tv_group).
  Hypothesis Hfloat : forall p, In p phones -> float (show (pw p)) = Ok (pw p).
  Hypothesis Horder : forall l, enumerates (order l) l.
  Hypothesis Nphones : NoDup phones.
  Hypothesis Hres : forall p, In p phones -> p <> "[s]" /\ p <> "[/s]" /\ p <> "_1".
  Hypothesis Hpw : forall p, In p phones -> 0 < pw p.
  Hypothesis Hconf : Forall group_fits conf.
  Hypothesis Hall : list_sum (map n_units conf) = List.length phones.

  Lemma chain (sil : bool) (spec : list string -> R -> Prop) :
    (forall units, Permutation (map fst units) phones -> (forall p h, In (p, h) units -> usable h) ->
       exists ls D sym G, decode_txt show phones (map pw phones) sil = Ok ls /\ prepare_graph float order ls = Ok (D, sym) /\
         hmm_graph D sym units = Ok G /\ wf G /\ pdf_id_mapping G = concat (map (fun u => pdf_id_mapping (snd u)) units) /\
         forall l w, generates G l w <-> produced units spec l w) ->
    exists ls D sym units tots G c, decode_txt show phones (map pw phones) sil = Ok ls /\
      prepare_graph float order ls = Ok (D, sym) /\ tv_units conf phones = Ok (units, tots) /\
      map fst units = phones /\ hmm_graph D sym units = Ok G /\ compile G = Ok c /\
      c_map c = seq 0 (c_n c) /\ c_n c = list_sum tots /\ forall l w, generates G l w <-> produced units spec l w.
  Proof.
    intros H. destruct (tv_units_ok conf phones Hconf Nphones) as (bs & E & N & F & _ & Q); [lia|].
    rewrite (units_all conf phones Hall) in N.
    destruct (H (concat bs)) as (ls & D & sym & G & E1 & E2 & E3 & W & M & L).
    { rewrite N. apply Permutation_refl. } { eapply units_usable; eauto. }
    destruct (compile_ok G W) as (c & Ec). destruct (compile_map G c Ec) as [C1 C2].
    exists ls, D, sym, (concat bs), (map group_tot conf), G, c. repeat (split; [assumption|]).
    fold (block_pdfs (concat bs)) in M. rewrite Q in M.
    assert (Cn : c_n c = list_sum (map group_tot conf)).
    { rewrite C2. replace (List.length (emitting G)) with (List.length (pdf_id_mapping G)); [now rewrite M, seq_length|].
      unfold pdf_id_mapping. apply map_length. }
    rewrite C1, Cn, M. auto.
  Qed.
End Chain.

(** Without silence: any sequence of phones, each weighted by its share. *)
Theorem C145_free : forall show float order phones pw conf,
  (forall p, In p phones -> float (show (pw p)) = Ok (pw p)) -> (forall l, enumerates (order l) l) -> NoDup phones ->
  (forall p, In p phones -> p <> "[s]" /\ p <> "[/s]" /\ p <> "_1") -> (forall p, In p phones -> 0 < pw p) ->
  Forall group_fits conf -> list_sum (map n_units conf) = List.length phones ->
  exists ls D sym units tots G c, decode_txt show phones (map pw phones) false = Ok ls /\
    prepare_graph float order ls = Ok (D, sym) /\ tv_units conf phones = Ok (units, tots) /\
    map fst units = phones /\ hmm_graph D sym units = Ok G /\ compile G = Ok c /\
    c_map c = seq 0 (c_n c) /\ c_n c = list_sum tots /\
    forall l w, generates G l w <-> produced units (free phones pw) l w.
Proof.
  intros show float order phones pw conf H1 H2 H3 H4 H5 H6 H7.
  apply chain; auto. intros units Pu Us.
  assert (Hr : forall p, In p phones -> ~ reserved p) by (intros p Hp; destruct (H4 p Hp) as (? & ? & ?); unfold reserved; tauto).
  destruct (free_language show float phones pw H1 H3 Hr H5 units Pu Us order H2) as (ls & D & G & X). exists ls, D. eexists. exists G. exact X.
Qed.
(** With silence: the sequences of phones beginning and ending with it. *)
Theorem C145_silence : forall show float order sil rest pw conf, let phones := sil :: rest in
  (forall p, In p phones -> float (show (pw p)) = Ok (pw p)) -> (forall l, enumerates (order l) l) -> NoDup phones ->
  (forall p, In p phones -> p <> "[s]" /\ p <> "[/s]" /\ p <> "_1") -> (forall p, In p phones -> 0 < pw p) ->
  Forall group_fits conf -> list_sum (map n_units conf) = List.length phones ->
  exists ls D sym units tots G c, decode_txt show phones (map pw phones) true = Ok ls /\
    prepare_graph float order ls = Ok (D, sym) /\ tv_units conf phones = Ok (units, tots) /\
    map fst units = phones /\ hmm_graph D sym units = Ok G /\ compile G = Ok c /\
    c_map c = seq 0 (c_n c) /\ c_n c = list_sum tots /\
    forall l w, generates G l w <-> produced units (fun sq p => exists sq', sq = sil :: sq' /\ after phones pw sil sil sq' p) l w.
Proof.
  intros show float order sil rest pw conf phones H1 H2 H3 H4 H5 H6 H7.
  apply chain; auto. intros units Pu Us.
  assert (Hr : forall p, In p phones -> ~ reserved p) by (intros p Hp; destruct (H4 p Hp) as (? & ? & ?); unfold reserved; tauto).
  destruct (sil_language show float phones pw H1 H3 Hr H5 units Pu Us order H2 sil rest eq_refl) as (ls & D & G & X). exists ls, D. eexists. exists G. exact X.
Qed.
(** The sequences of the two languages; the weights of the silence and of the
    phones that can follow a phone sum to one. *)
Theorem C145_free_sequences : forall phones pw sq, (exists w, free phones pw sq w) <-> Forall (fun p => In p phones) sq.
Proof.
  intros phones pw sq. split.
  - intros (w & H). induction H; constructor; auto.
  - induction 1 as [|p sq Hp H (w & IH)]; eexists; [apply free_end|apply free_cons; eauto].
Qed.
Theorem C145_silence_sequences : forall phones pw sil sq, In sil phones ->
  (exists w, after phones pw sil sil sq w) <-> Forall (fun p => In p phones) sq /\ List.last (sil :: sq) "" = sil.
Proof.
  intros phones pw sil sq Hs.
  assert (G : forall sq q, (exists w, after phones pw sil q sq w) <-> Forall (fun p => In p phones) sq /\ List.last (q :: sq) "" = sil).
  { clear sq. induction sq as [|p sq IH]; intros q.
    - split.
      + intros (w & H). inversion H; subst. split; [constructor|reflexivity].
      + intros (_ & E). cbn in E. subst q. eexists. constructor.
    - assert (El : List.last (q :: p :: sq) "" = List.last (p :: sq) "") by reflexivity. rewrite El. split.
      + intros (w & H). inversion H; subst; (destruct (proj1 (IH p)) as [F L]; [eauto|]; split; [constructor; auto|exact L]).
      + intros (F & L). apply Forall_cons_iff in F. destruct F as [F1 F2]. destruct (proj2 (IH p)) as (w & H); [auto|].
        destruct (string_dec q sil) as [E|N]; [rewrite E; eexists; now apply after_sil; eauto|eexists; now apply after_other; eauto]. }
  apply G.
Qed.
(** A language model made for fewer phones is refused. *)
Lemma phone_arcs_short show weights : forall phones i, (i <= List.length weights)%nat -> (List.length weights < i + List.length phones)%nat ->
  phone_arcs show phones weights i = Err IndexError.
Proof.
  induction phones as [|p phones IH]; intros i Hi Hl; cbn in Hl; [lia|]. cbn. destruct (nth_error weights i) as [w|] eqn:E; [|reflexivity].
  assert (i < List.length weights)%nat by (apply nth_error_Some; congruence). rewrite IH; [reflexivity|lia|lia].
Qed.
Theorem C145_short_weights : forall show phones weights sil, (List.length weights < List.length phones)%nat ->
  decode_txt show phones weights sil = Err IndexError.
Proof.
  intros show phones weights [|] H; unfold decode_txt.
  - destruct phones as [|p phones]; [reflexivity|]. destruct weights as [|w weights]; [reflexivity|].
    rewrite phone_arcs_short; [reflexivity|cbn; lia|cbn in *; lia].
  - rewrite phone_arcs_short; [reflexivity|lia|lia].
Qed.
Theorem C145_no_phones : forall show weights, decode_txt show [] weights true = Err IndexError.
Proof. reflexivity. Qed.

Example C145_example_text : forall show,
  decode_txt show ["sil"; "aa"] [1 / 4; 3 / 4] true =
  Ok [["[s]"; "sil"]; ["sil"; "[/s]"]; ["sil"; "_1"]; ["_1"; "sil"; show (1 / 4)]; ["_1"; "aa"; show (3 / 4)]; ["aa"; "_1"]].
Proof. reflexivity. Qed.
(** sil aa sil, with probabilities 1/4 and 3/4 *)
Example C145_example : let pw p := if String.eqb p "sil" then 1 / 4 else 3 / 4 in
  after ["sil"; "aa"] pw "sil" "sil" ["aa"; "sil"] (3 / 64) /\ free ["sil"; "aa"] pw ["aa"] (3 / 16).
Proof.
  intros pw. assert (S : sumf pw ["sil"; "aa"] = 1) by (unfold sumf, pw; cbn; lra). split.
  - replace (3 / 64) with (1 / 2 * (pw "aa" / sumf pw ["sil"; "aa"] * (pw "sil" / sumf pw ["sil"; "aa"] * (1 / 2)))) by (rewrite S; unfold pw; cbn; lra).
    apply after_sil; [cbn; auto|]. apply after_other; [discriminate|cbn; auto|]. constructor.
  - replace (3 / 16) with (pw "aa" / (1 + sumf pw ["sil"; "aa"]) * (1 / (1 + sumf pw ["sil"; "aa"]))) by (rewrite S; unfold pw; cbn; lra).
    apply free_cons; [cbn; auto|constructor].
Qed.

(** ** C146: timit_lang_prep.py and prepare_trans.py *)

(** The lines read by the script and the phones of the 48 they map to the 39 *)
Definition lang_lines (lines : list (list string)) : Prop := forall l, In l lines ->
  (exists r, l = "q" :: r) \/ (exists a r, l = a :: "sil" :: r) \/ (exists a b c r, l = a :: b :: c :: r).
Definition maps_to (lines : list (list string)) (b c : string) : Prop :=
  exists a r, In (a :: b :: c :: r) lines /\ a <> "q" /\ b <> "sil".

Lemma lang_fold lines : lang_lines lines -> (forall b c c', maps_to lines b c -> maps_to lines b c' -> c = c') ->
  exists d, foldM lang_line lines [] = Ok d /\ NoDup (map fst d) /\ (forall b c, sget b d = Ok c <-> maps_to lines b c).
Proof.
  intros Hl Hf.
  assert (G : forall ls pre d, lines = (pre ++ ls)%list -> NoDup (map fst d) -> (forall b c, sget b d = Ok c <-> maps_to pre b c) ->
    exists d', foldM lang_line ls d = Ok d' /\ NoDup (map fst d') /\ (forall b c, sget b d' = Ok c <-> maps_to lines b c)).
  { induction ls as [|l ls IH]; intros pre d E Nd Hd.
    - rewrite app_nil_r in E. subst pre. exists d. auto.
    - assert (In l lines) as Hin by (rewrite E; apply in_app_iff; right; now left).
      assert (E' : lines = ((pre ++ [l]) ++ ls)%list) by (now rewrite <- app_assoc).
      assert (Skip : (forall a b c r, l = a :: b :: c :: r -> a = "q" \/ b = "sil") -> forall b c, sget b d = Ok c <-> maps_to (pre ++ [l]) b c).
      { intros S b c. rewrite Hd. split; intros (a & r & H & N1 & N2); exists a, r; (split; [|auto]).
        - apply in_app_iff. auto.
        - apply in_app_iff in H. destruct H as [H|[H|[]]]; [exact H|]. destruct (S _ _ _ _ H); contradiction. }
      cbn [foldM]. destruct l as [|t0 rest].
      { destruct (Hl [] Hin) as [(r & X)|[(a & r & X)|(a & b & c & r & X)]]; discriminate. }
      unfold lang_line at 1. destruct (String.eqb_spec t0 "q") as [->|N0].
      { cbn [bindr]. apply (IH (pre ++ ["q" :: rest])%list); auto. apply Skip. intros a b c r X. injection X as <- _. auto. }
      destruct rest as [|t1 rest].
      { destruct (Hl [t0] Hin) as [(r & X)|[(a & r & X)|(a & b & c & r & X)]]; try discriminate. congruence. }
      destruct (String.eqb_spec t1 "sil") as [->|N1].
      { cbn [bindr]. apply (IH (pre ++ [t0 :: "sil" :: rest])%list); auto. apply Skip. intros a b c r X. injection X as _ <- _. auto. }
      destruct rest as [|t2 rest].
      { destruct (Hl [t0; t1] Hin) as [(r & X)|[(a & r & X)|(a & b & c & r & X)]]; try discriminate; injection X; intros; congruence. }
      cbn [bindr]. apply (IH (pre ++ [t0 :: t1 :: t2 :: rest])%list); auto.
      + clear - Nd. induction d as [|[k v] d IH]; cbn; [repeat constructor; intros []|]. cbn in Nd. inversion Nd; subst.
        destruct (String.eqb_spec t1 k) as [->|N]; cbn; constructor; auto.
        intros X. apply H1. assert (Y : forall x, In x (map fst (sset t1 t2 d)) -> x = t1 \/ In x (map fst d)).
        { clear. induction d as [|[k v] d IH]; cbn; [intuition|]. intros x. destruct (String.eqb_spec t1 k) as [->|N]; cbn; [intuition|]. intros [->|H]; auto. apply IH in H. intuition. }
        apply Y in X. destruct X as [->|X]; [congruence|exact X].
      + assert (M0 : maps_to lines t1 t2) by (exists t0, rest; auto).
        intros b c. destruct (string_dec b t1) as [->|N].
        * rewrite sget_sset_eq. split.
          -- intros X. injection X as ->. exists t0, rest. split; [|auto]. apply in_app_iff. right. now left.
          -- intros (a & r & H & X1 & X2). f_equal. apply (Hf t1); [exact M0|]. exists a, r. split; [|auto]. rewrite E'. apply in_app_iff. auto.
        * rewrite sget_sset_neq by auto. rewrite Hd. split; intros (a & r & H & X1 & X2); exists a, r; (split; [|auto]).
          -- apply in_app_iff. auto.
          -- apply in_app_iff in H. destruct H as [H|[H|[]]]; [exact H|]. injection H as _ X _ _. congruence. }
  apply (G lines []); auto.
  - constructor.
  - intros b c. cbn. split; [discriminate|]. intros (a & r & [] & _).
Qed.

Lemma list_remove_ok s l : In s l -> NoDup l -> exists r, list_remove s l = Ok r /\ (forall x, In x r <-> In x l /\ x <> s) /\
  (forall P : string -> string -> Prop, StronglySorted P l -> StronglySorted P r).
Proof.
  induction l as [|x l IH]; intros Hs Nd; [destruct Hs|]. inversion Nd as [|? ? N1 N2]; subst. cbn. destruct (String.eqb_spec s x) as [->|N].
  - exists l. split; [reflexivity|]. split.
    + intros y. split; [intros H; split; [now right|congruence]|]. intros ([->|H] & N); [congruence|exact H].
    + intros P H. now inversion H.
  - destruct Hs as [->|Hs]; [congruence|]. destruct (IH Hs N2) as (r & E & H1 & H2). rewrite E. exists (x :: r). split; [reflexivity|]. split.
    + intros y. cbn. rewrite H1. split; [intros [->|[A B]]; auto|]. intros ([->|A] & B); auto.
    + intros P H. inversion H; subst. constructor; auto. apply Forall_forall. intros y Hy. apply H1 in Hy. rewrite Forall_forall in H5. now apply H5.
Qed.
Lemma list_remove_err s l : ~ In s l -> list_remove s l = Err ValueError.
Proof.
  induction l as [|x l IH]; intros H; [reflexivity|]. cbn. destruct (String.eqb_spec s x) as [->|N]; [exfalso; apply H; now left|].
  rewrite IH; [reflexivity|]. intros X. apply H. now right.
Qed.

(** phones.txt numbers the silence 0 and the other phones in alphabetical
    order, the map takes each of them to one of the 39 phones, which are numbered
    in the same way. *)
Theorem C146_lang : forall lines, lang_lines lines -> (forall b c c', maps_to lines b c -> maps_to lines b c' -> c = c') ->
  (exists b, maps_to lines b "sil") ->
  exists L names names39 m, lang_prep lines = Ok L /\
    StronglySorted name_lt names /\ (forall b, In b names <-> exists c, maps_to lines b c) /\
    StronglySorted name_lt names39 /\ (forall c, In c names39 <-> c <> "sil" /\ exists b, maps_to lines b c) /\
    phones_txt L = ("sil", 0%nat) :: combine names (seq 1 (List.length names)) /\
    map_txt L = ("sil", "sil") :: m /\ map fst m = names /\ (forall b c, In (b, c) m <-> maps_to lines b c) /\
    phones39_txt L = ("sil", 0%nat) :: combine names39 (seq 1 (List.length names39)).
Proof.
  intros lines Hl Hf (b0 & Hb0). destruct (lang_fold lines Hl Hf) as (d & E & Nd & Hd). unfold lang_prep. rewrite E. cbn [bindr].
  assert (Kd : forall b, In b (map fst d) <-> exists c, maps_to lines b c).
  { intros b. split.
    - intros H. destruct (sget_ok b d H) as (c & Ec). exists c. now apply Hd.
    - intros (c & H). apply Hd in H. apply sget_in in H. apply (in_map fst) in H. exact H. }
  assert (In_get : forall b c, In (b, c) d -> sget b d = Ok c).
  { clear - Nd. induction d as [|[k v] d IH]; intros b c H; [destruct H|]. cbn in Nd. inversion Nd as [|? ? Q1 Q2]; subst. cbn. destruct H as [H|H].
    - injection H as -> ->. now rewrite String.eqb_refl.
    - destruct (String.eqb_spec b k) as [->|N]; [|auto]. exfalso. apply Q1. apply (in_map fst) in H. exact H. }
  assert (Vd : forall c, In c (map snd d) <-> exists b, maps_to lines b c).
  { intros c. split.
    - intros H. apply in_map_iff in H. destruct H as ([b c'] & Ec & H). cbn in Ec. subst c'. exists b. now apply Hd, In_get.
    - intros (b & H). apply Hd in H. apply sget_in in H. apply (in_map snd) in H. exact H. }
  destruct (list_remove_ok "sil" (sort_names (map snd d))) as (r & Er & Hr & Sr).
  { apply sort_names_in, Vd. eauto. } { apply sorted_nodup, sort_names_sorted. }
  rewrite Er. cbn [bindr].
  assert (Em : exists m, mapM (fun k => bindr (sget k d) (fun v => Ok (k, v))) (sort_names (map fst d)) = Ok m /\
    map fst m = sort_names (map fst d) /\ forall b c, In (b, c) m <-> In b (sort_names (map fst d)) /\ sget b d = Ok c).
  { assert (Q : forall l, (forall b, In b l -> In b (map fst d)) -> exists m : list (string * string), mapM (fun k => bindr (sget k d) (fun v => Ok (k, v))) l = Ok m /\
      map fst m = l /\ forall b c, In (b, c) m <-> In b l /\ sget b d = Ok c).
    { induction l as [|x l IH]; intros H; [exists []; split; [reflexivity|]; split; [reflexivity|]; cbn; intros b c; tauto|]. cbn [mapM].
      destruct (sget_ok x d (H x (or_introl eq_refl))) as (v & Ev). rewrite Ev. cbn [bindr].
      destruct IH as (m & M1 & M2 & M3); [intros b Hb; apply H; now right|]. rewrite M1. cbn [bindr].
      exists ((x, v) :: m). split; [reflexivity|]. split; [cbn; now rewrite M2|]. intros b c. cbn. rewrite M3. split.
      - intros [X|[X Y]]; [injection X as <- <-; auto|auto].
      - intros ([<-|X] & Y); [left; congruence|auto]. }
    apply Q. intros b Hb. apply (proj1 (sort_names_in _ _)) in Hb. exact Hb. }
  destruct Em as (m & M1 & M2 & M3). rewrite M1. cbn [bindr].
  eexists. exists (sort_names (map fst d)), r, m. split; [reflexivity|]. cbn [phones_txt map_txt phones39_txt].
  split; [apply sort_names_sorted|]. split; [intros b; rewrite sort_names_in; apply Kd|].
  split; [apply Sr, sort_names_sorted|]. split; [intros c; rewrite Hr, sort_names_in, Vd; tauto|].
  split; [reflexivity|]. split; [reflexivity|]. split; [exact M2|]. split; [|reflexivity].
  intros b c. rewrite M3, sort_names_in, Kd, Hd. split; [tauto|]. intros H. split; eauto.
Qed.
(** No phone mapped to the silence: refused. *)
Theorem C146_no_silence : forall lines, lang_lines lines -> (forall b c c', maps_to lines b c -> maps_to lines b c' -> c = c') ->
  (forall b, ~ maps_to lines b "sil") -> lang_prep lines = Err ValueError.
Proof.
  intros lines Hl Hf Hn. destruct (lang_fold lines Hl Hf) as (d & E & Nd & Hd). unfold lang_prep. rewrite E. cbn [bindr].
  rewrite list_remove_err; [reflexivity|]. intros H. apply (Hn (fst (hd ("", "") (filter (fun x => String.eqb (snd x) "sil") d)))).
  apply (proj1 (sort_names_in _ _)) in H. apply Hd. clear - H Nd.
  induction d as [|[k v] d IH]; [destruct H|]. cbn in *. inversion Nd as [|? ? Q1 Q2]; subst. destruct (String.eqb_spec v "sil") as [->|N].
  - cbn. now rewrite String.eqb_refl.
  - destruct H as [->|H]; [congruence|]. specialize (IH Q2 H). 
    destruct (String.eqb_spec (fst (hd ("", "") (filter (fun x => String.eqb (snd x) "sil") d))) k) as [X|X]; [|exact IH].
    exfalso. apply Q1. rewrite <- X. apply sget_in in IH. apply (in_map fst) in IH. exact IH.
Qed.
(** A phone alone on its line, other than q, or mapped to the 48 only. *)
Theorem C146_short_line : forall l1 l l2, lang_lines l1 -> l = [] \/ (exists a, a <> "q" /\ (l = [a] \/ exists b, b <> "sil" /\ l = [a; b])) ->
  lang_prep (l1 ++ l :: l2)%list = Err IndexError.
Proof.
  intros l1 l l2 H1 Hl. unfold lang_prep.
  assert (G : forall d, foldM lang_line (l1 ++ l :: l2)%list d = Err IndexError).
  { induction l1 as [|x l1 IH]; intros d.
    - cbn. destruct Hl as [->|(a & Na & [->|(b & Nb & ->)])]; cbn; [reflexivity| |].
      + destruct (String.eqb_spec a "q"); [congruence|reflexivity].
      + destruct (String.eqb_spec a "q"); [congruence|]. destruct (String.eqb_spec b "sil"); [congruence|reflexivity].
    - cbn [app foldM]. assert (X : exists d', lang_line d x = Ok d').
      { destruct (H1 x (or_introl eq_refl)) as [(r & ->)|[(a & r & ->)|(a & b & c & r & ->)]]; cbn; [eauto| |].
        - destruct (String.eqb a "q"); eauto.
        - destruct (String.eqb a "q"), (String.eqb b "sil"); eauto. }
      destruct X as (d' & ->). cbn [bindr]. apply IH. intros y Hy. apply H1. now right. }
  now rewrite G.
Qed.

(** prepare_trans.py: the identifiers of the phones, on the last line of each
    utterance. *)
Theorem C146_trans : forall ids u toks, (forall t, In t toks -> In t (map fst ids)) -> NoDup (map fst ids) ->
  exists l, int_trans ids [u :: toks] = Ok [(u, l)] /\ Forall2 (fun t i => In (t, i) ids) toks l.
Proof.
  intros ids u toks H Nd. unfold int_trans. cbn [foldM].
  assert (G : exists l, mapM (fun p => sget p ids) toks = Ok l /\ Forall2 (fun t i => In (t, i) ids) toks l).
  { induction toks as [|t toks IH]; [exists []; split; [reflexivity|constructor]|]. cbn [mapM].
    destruct (sget_ok t ids (H t (or_introl eq_refl))) as (i & Ei). rewrite Ei. cbn [bindr].
    destruct IH as (l & El & Fl); [intros x Hx; apply H; now right|]. rewrite El. cbn. exists (i :: l). split; [reflexivity|].
    constructor; [now apply sget_in|exact Fl]. }
  destruct G as (l & -> & F). cbn. exists l. auto.
Qed.
Theorem C146_trans_unknown : forall ids u toks t, In t toks -> ~ In t (map fst ids) -> int_trans ids [u :: toks] = Err KeyError.
Proof.
  intros ids u toks t H Hn. unfold int_trans. cbn [foldM]. rewrite (mapM_fail (fun p => sget p ids) toks); [reflexivity| |].
  - intros a e _. apply Tr_Props.sget_err.
  - destruct (sget t ids) as [i|e] eqn:E; [|eauto]. exfalso. apply Hn. apply sget_in in E. apply (in_map fst) in E. exact E.
Qed.
(** Together with the mapping from 60 to 48 phones (C139): every phone left in
    a transcription has an identifier. *)
Theorem C146_recipe : forall lines u toks, well_formed lines ->
  (forall a, In [a] lines -> a = "q") -> (forall a b c, row lines a b c -> a <> "q" /\ b <> "q") ->
  (forall x, In x toks -> ~ In [x] lines -> exists b c, row lines x b c) -> (exists b, maps_to lines b "sil") ->
  exists t48 L ids, norm_main true lines [u :: toks] = Ok [(u, t48)] /\ lang_prep lines = Ok L /\
    int_trans (phones_txt L) [u :: t48] = Ok [(u, ids)] /\ Forall2 (fun t i => In (t, i) (phones_txt L)) t48 ids.
Proof.
  intros lines u toks Hw H1 Hq Ht Hs.
  destruct (C139_two_steps lines u toks Hw) as (t48 & t39 & E1 & _ & F48 & _); auto.
  { intros a b c R X. apply H1 in X. destruct (Hq a b c R). congruence. }
  pose proof Hw as (W1 & W2 & W3).
  assert (Hl : lang_lines lines).
  { intros l Hin. destruct (W1 l Hin) as [L|L].
    - left. destruct l as [|a [|b l]]; try discriminate. apply H1 in Hin. subst a. now exists [].
    - right. right. destruct l as [|a [|b [|c l]]]; cbn in L; try lia. eauto. }
  assert (Hf : forall b c c', maps_to lines b c -> maps_to lines b c' -> c = c').
  { intros b c c' (a & r & X & _) (a' & r' & X' & _). apply (W3 a a' b); [exists r|exists r']; assumption. }
  destruct (C146_lang lines Hl Hf Hs) as (L & names & n39 & m & EL & Sn & Hn & _ & _ & Ep & _).
  destruct (C146_trans (phones_txt L) u t48) as (ids & Ei & Fi).
  - intros t Hin. rewrite Ep. cbn [map fst]. rewrite combine_map_fst by (now rewrite seq_length).
    assert (X : exists a c, row lines a t c). { clear - F48 Hin. induction F48 as [|x b l l' (c & R) F IH]; [destruct Hin|]. destruct Hin as [->|Hin]; eauto. }
    destruct X as (a & c & R). destruct (string_dec t "sil") as [->|N]; [now left|]. right. apply Hn. exists c.
    destruct (Hq a t c R) as [Na _]. destruct R as (r & R). exists a, r. auto.
  - rewrite Ep. cbn [map fst]. rewrite combine_map_fst by (now rewrite seq_length). constructor; [|now apply sorted_nodup].
    intros X. apply Hn in X. destruct X as (c & a & r & _ & _ & X). congruence.
  - exists t48, L, ids. auto.
Qed.
Example C146_example :
  let f := [["aa"; "aa"; "aa"]; ["ao"; "ao"; "aa"]; ["q"]; ["h#"; "sil"; "sil"]; ["epi"; "epi"; "sil"]; ["b"; "b"; "b"]] in
  lang_prep f = Ok (Lang [("sil", 0); ("aa", 1); ("ao", 2); ("b", 3); ("epi", 4)]%nat
    [("sil", "sil"); ("aa", "aa"); ("ao", "aa"); ("b", "b"); ("epi", "sil")] [("sil", 0); ("aa", 1); ("b", 2)]%nat) /\
  int_trans [("sil", 0); ("aa", 1); ("ao", 2)]%nat [["u"; "sil"; "ao"]; ["v"; "aa"]] = Ok [("u", [0; 2]); ("v", [1])]%nat /\
  lang_prep [["aa"; "aa"; "aa"]; ["h#"; "sil"; "sil"]] = Err ValueError.
Proof. repeat split; reflexivity. Qed.

(** ** C147: features-stats.py *)
Lemma stats_fold feats : forall s s2 n,
  fold_left (fun st utt => let '(s, s2, n) := st in
    (s + sumf (fun x => x) utt, s2 + sumf (fun x => x * x) utt, (n + List.length utt)%nat)) feats (s, s2, n) =
  (s + sumf (fun x => x) (concat feats), s2 + sumf (fun x => x * x) (concat feats), (n + List.length (concat feats))%nat).
Proof.
  induction feats as [|u feats IH]; intros s s2 n; cbn [fold_left concat].
  - unfold sumf. cbn. rewrite Nat.add_0_r. f_equal. f_equal; lra.
  - rewrite IH, !sumf_app, app_length, Nat.add_assoc. f_equal. f_equal; lra.
Qed.
Lemma sumf_sq l m : sumf (fun x => (x - m) * (x - m)) l = sumf (fun x => x * x) l - 2 * m * sumf (fun x => x) l + INR (List.length l) * (m * m).
Proof.
  induction l as [|x l IH]; [unfold sumf; cbn; lra|]. rewrite !sumf_cons, IH. cbn [List.length]. rewrite S_INR. lra.
Qed.
(** The mean, the variance and the number of all the frames. *)
Theorem C147_statistics : forall feats, concat feats <> [] ->
  exists mean var n, stats_accumulate feats = Ok (mean, var, n) /\ n = List.length (concat feats) /\
    mean = sumf (fun x => x) (concat feats) / INR n /\
    var = sumf (fun x => (x - mean) * (x - mean)) (concat feats) / INR n /\ 0 <= var.
Proof.
  intros feats H. unfold stats_accumulate. destruct feats as [|u feats]; [contradiction H; reflexivity|].
  rewrite stats_fold. cbn [Nat.add]. remember (concat (u :: feats)) as l eqn:El. clear El.
  assert (Hn : (0 < List.length l)%nat) by (destruct l; cbn; [contradiction|lia]).
  destruct (Nat.eqb_spec (List.length l) 0) as [E|_]; [lia|].
  assert (Hi : 0 < INR (List.length l)) by (now apply lt_0_INR).
  do 3 eexists. split; [reflexivity|]. split; [reflexivity|]. rewrite !Rplus_0_l.
  split; [reflexivity|].
  assert (Ev : sumf (fun x => x * x) l / INR (List.length l) - sumf (fun x => x) l / INR (List.length l) * (sumf (fun x => x) l / INR (List.length l)) =
    sumf (fun x => (x - sumf (fun x => x) l / INR (List.length l)) * (x - sumf (fun x => x) l / INR (List.length l))) l / INR (List.length l)).
  { rewrite sumf_sq. field. lra. }
  split; [exact Ev|]. rewrite Ev. apply Rmult_le_pos; [|left; now apply Rinv_0_lt_compat].
  generalize (sumf (fun x => x) l / INR (List.length l)). intros m. clear. induction l as [|x l IH]; [unfold sumf; cbn; lra|].
  rewrite sumf_cons. pose proof (Rle_0_sqr (x - m)) as Q. unfold Rsqr in Q. lra.
Qed.
(** Only the frames matter: neither their order nor the utterances they are in. *)
Theorem C147_order : forall feats feats', Permutation (concat feats) (concat feats') -> concat feats <> [] ->
  stats_accumulate feats = stats_accumulate feats'.
Proof.
  intros feats feats' P H.
  assert (H' : concat feats' <> []) by (intros X; rewrite X in P; apply Permutation_sym, Permutation_nil in P; contradiction).
  unfold stats_accumulate. destruct feats as [|u feats]; [contradiction H; reflexivity|]. destruct feats' as [|u' feats']; [contradiction H'; reflexivity|].
  rewrite !stats_fold. cbn [Nat.add]. rewrite (Permutation_length P).
  now rewrite (sumf_perm _ _ _ P), (sumf_perm (fun x => x * x) _ _ P).
Qed.
Theorem C147_empty : stats_accumulate [] = Err IndexError.
Proof. reflexivity. Qed.
Example C147_example : stats_accumulate [[1; 2]; [6]] = Ok (3, 14 / 3, 3%nat).
Proof.
  unfold stats_accumulate. cbn [fold_left List.length Nat.add Nat.eqb]. rewrite !sumf_cons. replace (INR 3) with 3 by (cbn; lra).
  change (sumf (fun x : R => x) []) with 0. change (sumf (fun x : R => x * x) []) with 0.
  apply f_equal. apply f_equal2; [apply f_equal2|reflexivity]; lra.
Qed.

Print Assumptions C143_graph.
Print Assumptions C143_missing.
Print Assumptions C143_two_weights_refuted.
Print Assumptions C144_units.
Print Assumptions C144_pdf_mapping.
Print Assumptions C144_too_many.
Print Assumptions C145_free.
Print Assumptions C145_silence.
Print Assumptions C145_silence_sequences.
Print Assumptions C146_lang.
Print Assumptions C146_recipe.
Print Assumptions C147_statistics.
Print Assumptions C147_order.
