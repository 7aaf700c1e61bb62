(** C160: prepare_lang_aud.py and the graphs made from its output;
    C161: timit_lang_prep.py. *)
From Coq Require Import Reals String Ascii List Arith NArith Bool Lia Lra Permutation Sorted FinFun.
From Verif Require Import Prelude Graph_Model Graph_Spec Gb_Model Gb_Spec Gb_Proofs Gb_Props Fe_Model Fe_Proofs Ar_Model Ar_Props Tr_Model Tr_Props La_Model.
Import ListNotations.
Local Open Scope string_scope.
Local Open Scope nat_scope.

(** ** C160 *)
Lemma dec_inj i j : dec i = dec j -> i = j.
Proof. intros E. rewrite <- (dec_value_dec i), <- (dec_value_dec j). now rewrite E. Qed.
Lemma au_inj i j : au i = au j -> i = j.
Proof.
  unfold au. cbn [append]. intros E. injection E as E. apply dec_inj.
  rewrite <- (list_ascii_of_string_of_list_ascii (dec i)), <- (list_ascii_of_string_of_list_ascii (dec j)). now rewrite E.
Qed.

(** The list: as many lines as units, each with a name of its own and the group. *)
Theorem C160_list : forall sil n, exists names,
  lang_aud sil n = map (fun u => [fst u; snd u]) names /\ NoDup (map fst names) /\
  length names = n + (if sil then 1 else 0) /\
  (forall name group, In (name, group) names <->
     (sil = true /\ name = "sil" /\ group = "non-speech-unit") \/
     (exists i, 1 <= i <= n /\ name = au i /\ group = "speech-unit")).
Proof.
  intros sil n.
  exists ((if sil then [("sil", "non-speech-unit")] else []) ++ map (fun i => (au i, "speech-unit")) (seq 1 n))%list.
  unfold lang_aud. split; [|split; [|split] ].
  - rewrite map_app, map_map. destruct sil; reflexivity.
  - rewrite map_app, map_map. cbn [fst]. assert (ND : NoDup (map au (seq 1 n))).
    { apply FinFun.Injective_map_NoDup; [|apply seq_NoDup]. intros i j. apply au_inj. }
    destruct sil; cbn [map app]; [|exact ND]. constructor; [|exact ND]. intros H. apply in_map_iff in H. destruct H as (i & H & _).
    unfold au in H. cbn in H. discriminate.
  - rewrite app_length, map_length, seq_length. destruct sil; simpl; lia.
  - intros name group. rewrite in_app_iff, in_map_iff. split.
    + intros [H|(i & H & Hi)].
      * destruct sil; [|destruct H]. destruct H as [H|[] ]. injection H as <- <-. now left.
      * injection H as <- <-. apply in_seq in Hi. right. exists i. split; [lia|auto].
    + intros [(-> & -> & ->)|(i & Hi & -> & ->)]; [left; now left|]. right. exists i. split; [reflexivity|]. apply in_seq. lia.
Qed.

(** A topology with an entry and an exit state around [k] emitting states *)
Definition hmm_topology (t : list (nat * nat * R)) (k : nat) : Prop :=
  positive t /\ contiguous t (k + 2) /\ exists e x, single_entry t (k + 2) e /\ single_exit t (k + 2) x.

(** The whole chain: the list is accepted by mkphones, mkphoneloopgraph and
    mkdecodegraph, and the compiled graph has one state per emitting state of the
    [n] units and of the silence. *)
Theorem C160_decoding_graph : forall n ts tu ks ku group, (1 <= n)%nat ->
  hmm_topology ts ks -> hmm_topology tu ku -> group <> Some "" ->
  exists units tots pl sym g sp ep c,
    mkphones [("non-speech-unit", ts); ("speech-unit", tu)] (lang_aud true n) = Ok (units, tots) /\
    mkphoneloopgraph group (lang_aud true n) = Ok (pl, sym) /\
    mkdecodegraph pl sym units = Ok (g, sp, ep) /\ compile g = Ok c /\
    Permutation (map fst units) ("sil" :: map au (seq 1 n)) /\
    c_n c = n * ku + ks /\ c_map c = seq 0 (c_n c).
Proof.
  intros n ts tu ks ku group Hn1 Hs Hu Hg.
  destruct (C160_list true n) as (names & El & Nd & Ln & Hn).
  set (conf := [("non-speech-unit", ts); ("speech-unit", tu)]).
  assert (Hul : mapM unit_line (lang_aud true n) = Ok names).
  { rewrite El. clear. induction names as [|[a b] l IH]; [reflexivity|]. cbn. now rewrite IH. }
  assert (Hgr : forall u, In u names -> In (snd u) (map fst conf)).
  { intros [a b] H. apply Hn in H. cbn. destruct H as [(_ & _ & ->)|(i & _ & _ & ->)]; auto. }
  assert (Hc : forall g t, In (g, t) conf -> positive t /\ exists n e x, 2 <= n /\ contiguous t n /\ single_entry t n e /\ single_exit t n x).
  { intros gr t [H|[H|[] ] ]; injection H as <- <-.
    - destruct Hs as (P & C & e & x & A & B). split; [exact P|]. exists (ks + 2), e, x. repeat split; auto; try lia; apply A || apply B || apply C.
    - destruct Hu as (P & C & e & x & A & B). split; [exact P|]. exists (ku + 2), e, x. repeat split; auto; try lia; apply A || apply B || apply C. }
  assert (Hsym : forall u, In u (map fst names) -> u <> START_SYM /\ u <> END_SYM /\ u <> PIVOT_SYM).
  { intros u H. apply in_map_iff in H. destruct H as ([a b] & <- & H). apply Hn in H. cbn [fst].
    destruct H as [(_ & -> & _)|(i & _ & -> & _)]; repeat split; discriminate. }
  assert (Hpop : populated conf names).
  { intros gr [<-|[<-|[] ] ]; [exists "sil"|exists (au 1)]; apply Hn; [now left|]. right. exists 1. auto. }
  destruct (C65_success conf (lang_aud true n) names group Hc Hpop Hul Nd Hgr Hsym Hg)
    as (units & tots & pl & sym & g & sp & ep & c & E1 & E2 & E3 & E4 & E5 & E6 & _).
  exists units, tots, pl, sym, g, sp, ep, c. repeat (split; [assumption|]).
  assert (Hr : forall g t, In (g, t) conf -> regular t).
  { intros gr t H. destruct (Hc gr t H) as (_ & m & _ & _ & Hm & C & _). now exists m. }
  destruct (C64_inventory_partial conf (lang_aud true n) names units tots Hr Hul Nd Hgr E1) as (P & M & _ & B).
  assert (Nm : map fst names = ("sil" :: map au (seq 1 n))%list).
  { assert (X : map (hd "") (lang_aud true n) = map fst names) by (rewrite El, map_map; reflexivity). rewrite <- X. unfold lang_aud.
    rewrite map_app, map_map. reflexivity. }
  rewrite <- Nm. split; [exact P|]. split; [|exact E5].
  set (f := fun name => if String.eqb name "sil" then ks else ku).
  assert (Fa : forall i, f (au i) = ku) by reflexivity. assert (Fs : f "sil" = ks) by reflexivity.
  assert (Su : forall name h, In (name, h) units -> length (pdf_id_mapping h) = f name).
  { intros name h H. destruct (B name h H) as (gr & t & k & k' & H1 & H2 & H3). apply Hn in H1.
    destruct H1 as [(_ & -> & ->)|(i & _ & -> & ->)].
    - destruct H2 as [H2|[H2|[] ] ]; [|discriminate]. injection H2 as <-. destruct Hs as (_ & C & _).
      destruct (C64_unit_graph ts (ks + 2) k ltac:(lia) C) as (g' & Eg & _ & _ & _ & _ & _ & _ & _ & Mg & _).
      rewrite H3 in Eg. injection Eg as -> _. rewrite Mg, seq_length, Fs. lia.
    - destruct H2 as [H2|[H2|[] ] ]; [discriminate|]. injection H2 as <-. destruct Hu as (_ & C & _).
      destruct (C64_unit_graph tu (ku + 2) k ltac:(lia) C) as (g' & Eg & _ & _ & _ & _ & _ & _ & _ & Mg & _).
      rewrite H3 in Eg. injection Eg as -> _. rewrite Mg, seq_length, Fa. lia. }
  assert (Len : length (concat (map (fun u => pdf_id_mapping (snd u)) units)) = list_sum (map f (map fst units))).
  { clear - Su. induction units as [|[a h] l IH]; [reflexivity|]. cbn [map concat fst snd list_sum fold_right]. rewrite app_length.
    rewrite (Su a h) by now left. rewrite IH by (intros; apply Su; now right). reflexivity. }
  rewrite M, seq_length in Len. rewrite E6, Len.
  assert (LP : forall l l' : list nat, Permutation l l' -> list_sum l = list_sum l').
  { clear. unfold list_sum. induction 1; cbn [fold_right]; lia. }
  rewrite (LP _ _ (Permutation_map f P)), Nm. cbn [map list_sum fold_right]. change (fold_right Nat.add 0) with list_sum. rewrite map_map.
  assert (LA : forall m s, list_sum (map (fun x => f (au x)) (seq s m)) = m * ku).
  { clear - Fa. induction m as [|m IH]; intros s; [reflexivity|]. cbn [seq map list_sum fold_right Nat.mul].
    change (fold_right Nat.add 0) with list_sum. rewrite IH, Fa. reflexivity. }
  rewrite LA, Fs. lia.
Qed.

(** Without the silence unit, or with no other unit, mkphones fails on the
    configurations of the recipe. *)
Theorem C160_missing_group_refuted : forall n ts tu ks ku, hmm_topology ts ks -> hmm_topology tu ku ->
  mkphones [("non-speech-unit", ts); ("speech-unit", tu)] (lang_aud false n) = Err NameError /\
  mkphones [("non-speech-unit", ts); ("speech-unit", tu)] (lang_aud true 0) = Err ZeroDivisionError.
Proof.
  intros n ts tu ks ku Hs Hu.
  assert (Hul : forall sil n, exists names, mapM unit_line (lang_aud sil n) = Ok names /\ forall name group, In (name, group) names <->
     (sil = true /\ name = "sil" /\ group = "non-speech-unit") \/
     (exists i, 1 <= i <= n /\ name = au i /\ group = "speech-unit")).
  { intros sil m. destruct (C160_list sil m) as (names & El & _ & _ & Hn). exists names. split; [|exact Hn]. rewrite El. clear.
    induction names as [|[a b] l IH]; [reflexivity|]. cbn. now rewrite IH. }
  assert (Hk : forall sil m names, (forall name group, In (name, group) names <->
     (sil = true /\ name = "sil" /\ group = "non-speech-unit") \/
     (exists i, 1 <= i <= m /\ name = au i /\ group = "speech-unit")) ->
     forall u, In u names -> In (snd u) (map fst [("non-speech-unit", ts); ("speech-unit", tu)])).
  { intros sil m names Hn [a b] H. apply Hn in H. cbn. destruct H as [(_ & _ & ->)|(i & _ & _ & ->)]; auto. }
  assert (Nd : NoDup (map fst [("non-speech-unit", ts); ("speech-unit", tu)])).
  { constructor; [intros [H|[] ]; discriminate|]. constructor; [intros []|constructor]. }
  destruct Hs as (_ & Cs & es & xs & (He & _) & _). destruct Hu as (_ & Cu & _ & _ & _ & _). split.
  - destruct (Hul false n) as (names & El & Hn).
    destruct (C64_empty_group_refuted _ [] "non-speech-unit" ts (ks + 2) [("speech-unit", tu)] _ names eq_refl Nd El (Hk _ _ _ Hn)) as (H & _);
      [intros ? ? []|lia|exact Cs|]. apply H. intros m Hm. apply Hn in Hm. destruct Hm as [(X & _)|(i & _ & _ & X)]; discriminate.
  - destruct (Hul true 0) as (names & El & Hn).
    destruct (C64_empty_group_refuted _ [("non-speech-unit", ts)] "speech-unit" tu (ku + 2) [] _ names eq_refl Nd El (Hk _ _ _ Hn)) as (H & _).
    + intros g t [Hg|[] ]. injection Hg as <- <-. split; [exists "sil"; apply Hn; now left|]. exists (ks + 2). split; [lia|exact Cs].
    + lia.
    + exact Cu.
    + apply H. intros m Hm. apply Hn in Hm. destruct Hm as [(_ & _ & X)|(i & X & _)]; [discriminate|lia].
Qed.

Example ex_C160 : lang_aud true 11 =
  [["sil"; "non-speech-unit"]; ["au1"; "speech-unit"]; ["au2"; "speech-unit"]; ["au3"; "speech-unit"]; ["au4"; "speech-unit"];
   ["au5"; "speech-unit"]; ["au6"; "speech-unit"]; ["au7"; "speech-unit"]; ["au8"; "speech-unit"]; ["au9"; "speech-unit"];
   ["au10"; "speech-unit"]; ["au11"; "speech-unit"]].
Proof. reflexivity. Qed.
Example ex_C160_topology : hmm_topology [(0, 1, 1%R); (1, 1, (3/4)%R); (1, 2, (1/4)%R)] 1.
Proof.
  split; [|split].
  - intros a Ha. cbn in Ha. decompose [or] Ha; try contradiction; subst a; cbn; lra.
  - intros s. split.
    + intros H. destruct s as [|[|[|s] ] ]; [exists (0, 1, 1%R)|exists (0, 1, 1%R)|exists (1, 2, (1/4)%R)|lia]; cbn; auto.
    + intros (a & Ha & E). cbn in Ha. decompose [or] Ha; try contradiction; subst a; cbn in E; lia.
  - exists 1, 1. split; (split; [lia|]; split; [eexists; cbn; eauto|]); intros a Ha E; cbn in Ha;
      decompose [or] Ha; try contradiction; subst a; cbn in *; try lia; discriminate.
Qed.

(** ** C161 *)
(** A line that gives the phone [b] of the 48 and its phone [c] of the 39 *)
Definition gives (l : list string) (b c : string) : Prop :=
  exists a rest, l = (a :: b :: c :: rest)%list /\ a <> "q" /\ b <> "sil".
(** The last such line counts. *)
Definition finally (lines : list (list string)) (b c : string) : Prop :=
  exists l1 l l2, lines = (l1 ++ l :: l2)%list /\ gives l b c /\ forall l' c', In l' l2 -> ~ gives l' b c'.
(** A line the script can read: the glottal stop, a silence, or three tokens *)
Definition readable (l : list string) : Prop :=
  (exists rest, l = ("q" :: rest)%list) \/ (exists a rest, l = (a :: "sil" :: rest)%list) \/ exists a b c rest, l = (a :: b :: c :: rest)%list.
Definition in_order (l : list string) : Prop := LocallySorted (fun a b => String.leb a b = true) l.

Lemma str_leb_string a b : str_leb (list_ascii_of_string a) (list_ascii_of_string b) = true -> String.leb a b = true.
Proof.
  revert b. induction a as [|x a IH]; intros [|y b]; try reflexivity; try discriminate. cbn [list_ascii_of_string str_leb]. unfold String.leb. cbn [String.compare].
  unfold nat_of_ascii. unfold Ascii.compare.
  destruct (Nat.ltb_spec (N.to_nat (N_of_ascii x)) (N.to_nat (N_of_ascii y))) as [H|H].
  - intros _. replace (N.compare (N_of_ascii x) (N_of_ascii y)) with Lt; [reflexivity|]. symmetry. apply N.compare_lt_iff. lia.
  - destruct (Nat.ltb_spec (N.to_nat (N_of_ascii y)) (N.to_nat (N_of_ascii x))) as [H'|H']; [discriminate|].
    intros E. replace (N.compare (N_of_ascii x) (N_of_ascii y)) with Eq; [|symmetry; apply N.compare_eq_iff; lia]. apply (IH b E).
Qed.
Lemma sort_str_perm l : Permutation l (sort_str l).
Proof.
  unfold sort_str. transitivity (map string_of_list_ascii (map list_ascii_of_string l)).
  - rewrite map_map, (map_ext _ (fun x => x)) by apply string_of_list_ascii_of_string. now rewrite map_id.
  - apply Permutation_map, sorted_perm.
Qed.
Lemma sort_str_sorted l : in_order (sort_str l).
Proof.
  unfold sort_str, in_order. assert (H := sorted_sorted (map list_ascii_of_string l)).
  revert H. generalize (sorted (map list_ascii_of_string l)). clear l. intros l H.
  induction H as [|a|a b l H IH Hab]; cbn [map]; constructor; auto. apply str_leb_string.
  now rewrite !list_ascii_of_string_of_list_ascii.
Qed.

Lemma remove_in_order x l : in_order l -> in_order (remove string_dec x l).
Proof.
  assert (Tr : forall a b c, String.leb a b = true -> String.leb b c = true -> String.leb a c = true).
  { assert (E : forall a b, String.leb a b = true <-> String.compare a b <> Gt).
    { intros a b. unfold String.leb. destruct (String.compare a b); split; congruence || auto. }
    intros a b c. rewrite !E. revert b c. induction a as [|x' a IH]; intros [|y b] [|z c]; cbn [String.compare]; try congruence.
    unfold Ascii.compare. destruct (N.compare_spec (N_of_ascii x') (N_of_ascii y)) as [Q|Q|Q];
      destruct (N.compare_spec (N_of_ascii y) (N_of_ascii z)) as [R|R|R]; try congruence;
      destruct (N.compare_spec (N_of_ascii x') (N_of_ascii z)) as [T|T|T]; try congruence; try lia.
    apply IH. }
  intros H. apply Sorted_LocallySorted_iff in H. apply Sorted_LocallySorted_iff.
  apply Sorted_StronglySorted in H; [|intros a b c; apply Tr]. apply StronglySorted_Sorted.
  induction H as [|a l H IH F]; cbn; [constructor|]. destruct (string_dec x a); [exact IH|]. constructor; [exact IH|].
  rewrite Forall_forall in *. intros y Hy. apply F. now apply in_remove in Hy.
Qed.

Lemma prep_line_gives d l : readable l ->
  exists d', prep_line d l = Ok d' /\ ((exists b c, gives l b c /\ d' = sset b c d) \/ ((forall b c, ~ gives l b c) /\ d' = d)).
Proof.
  intros H. unfold prep_line. destruct l as [|a l]; [exfalso; destruct H as [(r & H)|[(x & r & H)|(x & y & z & r & H)] ]; discriminate|].
  destruct (String.eqb_spec a "q") as [->|Na].
  { exists d. split; [reflexivity|]. right. split; [|reflexivity]. intros b c (a & r & E & N & _). injection E as <- _. congruence. }
  destruct l as [|b l]; [exfalso; destruct H as [(r & H)|[(x & r & H)|(x & y & z & r & H)] ]; congruence|].
  destruct (String.eqb_spec b "sil") as [->|Nb].
  { exists d. split; [reflexivity|]. right. split; [|reflexivity]. intros b c (a' & r & E & _ & N). injection E as _ <- _. congruence. }
  destruct l as [|c l]; [exfalso; destruct H as [(r & H)|[(x & r & H)|(x & y & z & r & H)] ]; congruence|].
  exists (sset b c d). split; [reflexivity|]. left. exists b, c. split; [|reflexivity]. now exists a, l.
Qed.

Lemma prep_fold lines : Forall readable lines -> exists d, foldM prep_line lines [] = Ok d /\ NoDup (map fst d) /\
  forall b c, sget b d = Ok c <-> finally lines b c.
Proof.
  intros H. induction lines as [|l lines IH] using rev_ind.
  - exists []. split; [reflexivity|]. split; [constructor|]. intros b c. cbn. split; [discriminate|].
    intros (l1 & l & l2 & E & _). destruct l1; discriminate.
  - apply Forall_app in H. destruct H as (H1 & H2). inversion_clear H2 as [|? ? Hl _].
    destruct (IH H1) as (d & E & Nd & Hd). clear IH.
    assert (Fa : forall l1 l2 st, foldM prep_line (l1 ++ l2) st = bindr (foldM prep_line l1 st) (fun s => foldM prep_line l2 s)).
    { clear. induction l1 as [|a l1 IHl]; intros l2 st; [reflexivity|]. cbn. destruct (prep_line st a); cbn; auto. }
    rewrite Fa, E. cbn [bindr foldM]. destruct (prep_line_gives d l Hl) as (d' & Ep & D). rewrite Ep. cbn [bindr].
    exists d'. split; [reflexivity|].
    assert (Old : forall b c, (forall c', ~ gives l b c') -> finally (lines ++ [l]) b c <-> finally lines b c).
    { intros b c Hn. split.
      - intros (l1 & x & l2 & Ex & Hg & Hl2). destruct l2 as [|y l2 _] using rev_ind.
        + apply app_inj_tail in Ex. destruct Ex as [_ <-]. now destruct (Hn c).
        + rewrite app_comm_cons, app_assoc in Ex. apply app_inj_tail in Ex. destruct Ex as [-> _].
          exists l1, x, l2. repeat split; auto. intros l' c' H'. apply Hl2. apply in_app_iff. now left.
      - intros (l1 & x & l2 & -> & Hg & Hl2). exists l1, x, (l2 ++ [l])%list. split; [now rewrite <- app_assoc|]. split; [exact Hg|].
        intros l' c' H'. apply in_app_iff in H'. destruct H' as [H'|[<-|[] ] ]; [now apply Hl2|apply Hn]. }
    destruct D as [(b & c & Hg & ->)|(Hn & ->)].
    + split; [now apply sset_nodup|]. intros b' c'. destruct (string_dec b' b) as [->|Nb].
      * rewrite sget_sset_eq. split.
        -- intros Q. injection Q as <-. exists lines, l, []. repeat split; auto.
        -- intros (l1 & x & l2 & Ex & Hg' & Hl2). destruct l2 as [|y l2 _] using rev_ind.
           ++ apply app_inj_tail in Ex. destruct Ex as [_ <-]. destruct Hg as (a & r & -> & _), Hg' as (a' & r' & Q & _).
              injection Q as _ -> _. reflexivity.
           ++ rewrite app_comm_cons, app_assoc in Ex. apply app_inj_tail in Ex. destruct Ex as [_ <-].
              exfalso. apply (Hl2 l c); [apply in_app_iff; right; now left|exact Hg].
      * rewrite sget_sset_neq by auto. rewrite Hd. symmetry. apply Old. intros c'' Hg'. destruct Hg as (a & r & -> & _), Hg' as (a' & r' & Q & _).
        injection Q as _ Q _. congruence.
    + split; [exact Nd|]. intros b c. rewrite Hd. symmetry. apply Old. intros c'. apply Hn.
Qed.

Theorem C161_files : forall lines k0, Forall readable lines -> finally lines k0 "sil" ->
  exists p keys rows others, lang_prep lines = Ok p /\
    (* the units *)
    p_units p = (["sil"; "non-speech-unit"] :: map (fun k => [k; if string_dec k "epi" then "non-speech-unit" else "speech-unit"]) keys)%list /\
    p_ids p = combine ("sil" :: keys) (seq 0 (S (length keys))) /\
    NoDup keys /\ in_order keys /\ (forall k, In k keys <-> exists c, finally lines k c) /\ ~ In "sil" keys /\
    (* their phones among the 39 *)
    p_map p = (["sil"; "sil"] :: rows)%list /\ Forall2 (fun k r => exists c, r = [k; c] /\ finally lines k c) keys rows /\
    (* which are numbered *)
    p_39 p = combine ("sil" :: others) (seq 0 (S (length others))) /\
    NoDup ("sil" :: others) /\ in_order others /\ (forall c, In c ("sil" :: others) <-> exists k, finally lines k c).
Proof.
  intros lines k0 Hr H0. destruct (prep_fold lines Hr) as (d & E & Nd & Hd).
  assert (Vals : forall c, In c (map snd d) <-> exists k, finally lines k c).
  { intros c. rewrite in_map_iff. split.
    - intros ([k c'] & <- & H). exists k. apply Hd. now apply sget_in_iff.
    - intros (k & H). apply Hd in H. apply sget_in_iff in H; [|exact Nd]. now exists (k, c). }
  assert (Keys : forall k, In k (map fst d) <-> exists c, finally lines k c).
  { intros k. rewrite in_map_iff. split.
    - intros ([k' c] & <- & H). exists c. apply Hd. now apply sget_in_iff.
    - intros (c & H). apply Hd in H. apply sget_in_iff in H; [|exact Nd]. now exists (k, c). }
  set (targets := sort_str (set_of (map snd d))). set (keys := sort_str (map fst d)).
  assert (Tin : forall c, In c targets <-> exists k, finally lines k c).
  { intros c. rewrite <- Vals. unfold targets. split; intros H.
    - apply (Permutation_in _ (Permutation_sym (sort_str_perm _))) in H. unfold set_of in H. now apply nodup_In in H.
    - apply (Permutation_in _ (sort_str_perm _)). unfold set_of. now apply nodup_In. }
  assert (Tnd : NoDup targets) by (apply (Permutation_NoDup (sort_str_perm _)), NoDup_nodup).
  assert (Kin : forall k, In k keys <-> exists c, finally lines k c).
  { intros k. rewrite <- Keys. unfold keys. split; apply Permutation_in; [apply Permutation_sym|]; apply sort_str_perm. }
  assert (Rows : exists rows, mapM (fun k => bindr (sget k d) (fun v => Ok [k; v])) keys = Ok rows /\
    Forall2 (fun k r => exists c, r = [k; c] /\ finally lines k c) keys rows).
  { clear - Kin Hd. induction keys as [|k keys IH]; [exists []; split; [reflexivity|constructor]|].
    assert (Hk : exists c, sget k d = Ok c).
    { destruct (sget k d) as [c|e] eqn:Ek; [eauto|]. exfalso. destruct (proj1 (Kin k)) as (c & Hc); [now left|]. apply Hd in Hc. congruence. }
    destruct Hk as (c & Hk).
    assert (G : forall ks, (forall k, In k ks -> exists c, sget k d = Ok c) ->
      exists rows, mapM (fun k => bindr (sget k d) (fun v => Ok [k; v])) ks = Ok rows /\ Forall2 (fun k r => exists c, r = [k; c] /\ sget k d = Ok c) ks rows).
    { clear. induction ks as [|k ks IH]; intros H; [exists []; split; [reflexivity|constructor]|].
      destruct (H k (or_introl eq_refl)) as (c & Hc). destruct IH as (rows & E & F); [intros; apply H; now right|].
      exists ([k; c] :: rows)%list. cbn. rewrite Hc. cbn. rewrite E. split; [reflexivity|]. constructor; eauto. }
    destruct (G (k :: keys)) as (rows & E & F).
    - intros k' Hk'. destruct (proj1 (Kin k') Hk') as (c' & Hc'). exists c'. now apply Hd.
    - exists rows. split; [exact E|]. clear - F Hd. induction F as [|a r l l' (c & -> & H) F IH]; constructor; auto.
      exists c. split; [reflexivity|]. now apply Hd. }
  destruct Rows as (rows & Er & Fr).
  assert (Sil : existsb (String.eqb "sil") targets = true).
  { apply existsb_exists. exists "sil". split; [|reflexivity]. apply Tin. now exists k0. }
  set (others := remove string_dec "sil" targets).
  exists {| p_units := (["sil"; "non-speech-unit"] :: map (fun k => [k; if String.eqb k "epi" then "non-speech-unit" else "speech-unit"]) keys)%list;
            p_ids := combine ("sil" :: keys) (seq 0 (S (length keys)));
            p_map := (["sil"; "sil"] :: rows)%list; p_39 := combine ("sil" :: others) (seq 0 (S (length others))) |}, keys, rows, others.
  split; [unfold lang_prep; rewrite E; cbn [bindr]; fold targets; rewrite Sil; fold keys; rewrite Er; reflexivity|].
  cbn [p_units p_ids p_map p_39]. split.
  { f_equal. apply map_ext. intros k. destruct (string_dec k "epi") as [->|N]; [reflexivity|]. apply String.eqb_neq in N. now rewrite N. }
  split; [reflexivity|]. split; [apply (Permutation_NoDup (sort_str_perm _)), Nd|]. split; [apply sort_str_sorted|]. split; [exact Kin|]. split.
  { intros H. apply Kin in H. destruct H as (c & l1 & l & l2 & _ & (a & r & _ & _ & N) & _). congruence. }
  split; [reflexivity|]. split; [exact Fr|]. split; [reflexivity|].
  assert (Oin : forall c, In c ("sil" :: others) <-> In c targets).
  { intros c. cbn. unfold others. split.
    - intros [<-|H]; [apply Tin; now exists k0|]. now apply in_remove in H.
    - intros H. destruct (string_dec c "sil") as [->|N]; [now left|]. right. now apply in_in_remove. }
  split.
  { constructor; [apply remove_In|]. unfold others. clear - Tnd. induction targets as [|x l IH]; [constructor|].
    apply NoDup_cons_iff in Tnd. destruct Tnd as (H1 & H2). cbn [remove]. destruct (string_dec "sil" x); [auto|]. constructor; [|auto].
    intros H. apply in_remove in H. tauto. }
  split; [apply remove_in_order, sort_str_sorted|]. intros c. rewrite Oin. apply Tin.
Qed.

(** Without any phone reduced to the silence the script fails. *)
Theorem C161_no_silence : forall lines, Forall readable lines -> (forall k, ~ finally lines k "sil") ->
  lang_prep lines = Err ValueError.
Proof.
  intros lines Hr Hn. destruct (prep_fold lines Hr) as (d & E & Nd & Hd). unfold lang_prep. rewrite E. cbn [bindr].
  destruct (existsb _ _) eqn:X; [|reflexivity]. exfalso. apply existsb_exists in X. destruct X as (c & Hc & Ec). apply String.eqb_eq in Ec. subst c.
  apply (Permutation_in _ (Permutation_sym (sort_str_perm _))) in Hc. unfold set_of in Hc. apply nodup_In in Hc.
  apply in_map_iff in Hc. destruct Hc as ([k c] & Ec & Hc). cbn in Ec. subst c. apply sget_in_iff in Hc; [|exact Nd]. apply Hd in Hc. now apply (Hn k).
Qed.

Theorem C161_unreadable : forall lines, Exists (fun l => ~ readable l) lines -> lang_prep lines = Err IndexError.
Proof.
  intros lines H. unfold lang_prep. enough (X : forall d, foldM prep_line lines d = Err IndexError) by (now rewrite X).
  induction H as [l lines H|l lines H IH]; intros d; cbn.
  - assert (E : prep_line d l = Err IndexError); [|now rewrite E]. unfold prep_line. destruct l as [|a l]; [reflexivity|].
    destruct (String.eqb_spec a "q") as [->|Na]; [exfalso; apply H; left; eauto|]. destruct l as [|b l]; [reflexivity|].
    destruct (String.eqb_spec b "sil") as [->|Nb]; [exfalso; apply H; right; left; eauto|]. destruct l as [|c l]; [reflexivity|].
    exfalso. apply H. right. right. eauto.
  - assert (E : (exists d', prep_line d l = Ok d') \/ prep_line d l = Err IndexError).
    { unfold prep_line. destruct l as [|a [|b [|c l] ] ]; auto; destruct (String.eqb a "q"); eauto; destruct (String.eqb b "sil"); eauto. }
    destruct E as [(d' & ->)|E]; [cbn; apply IH|now rewrite E].
Qed.

(** The map agrees with timit-norm-trans.py (C139) on a well formed file where
    the silence is mapped to itself. *)
Theorem C161_agrees : forall lines p a b c, Forall readable lines -> lang_prep lines = Ok p -> well_formed lines ->
  (forall x z, row lines x "sil" z -> z = "sil") -> (forall y z, ~ row lines "q" y z) -> row lines a b c ->
  In [b; c] (p_map p) /\ (forall c', In [b; c'] (p_map p) -> c' = c).
Proof.
  intros lines p a b c Hr Hp (_ & _ & W) Hs Hq R.
  assert (S0 : exists k0, finally lines k0 "sil").
  { destruct (prep_fold lines Hr) as (d & E & Nd & Hd). unfold lang_prep in Hp. rewrite E in Hp. cbn [bindr] in Hp.
    destruct (existsb _ _) eqn:X; [|discriminate]. apply existsb_exists in X. destruct X as (x & Hc & Ec). apply String.eqb_eq in Ec. subst x.
    apply (Permutation_in _ (Permutation_sym (sort_str_perm _))) in Hc. unfold set_of in Hc. apply nodup_In in Hc.
    apply in_map_iff in Hc. destruct Hc as ([k x] & Ec & Hc). cbn in Ec. subst x. exists k. apply Hd. now apply sget_in_iff. }
  destruct S0 as (k0 & S0).
  destruct (C161_files lines k0 Hr S0) as (p' & keys & rows & others & Ep & _ & _ & _ & _ & Kin & Nsil & Em & Fr & _).
  rewrite Hp in Ep. injection Ep as <-. rewrite Em.
  assert (Fin : forall k z, finally lines k z -> exists x, row lines x k z).
  { intros k z (l1 & l & l2 & -> & (x & r & -> & _) & _). exists x, r. apply in_app_iff. right. now left. }
  destruct (string_dec b "sil") as [->|Nb].
  - assert (c = "sil") by (apply (Hs a c R)). subst c. split; [now left|]. intros c' [H|H]; [now injection H as <-|].
    exfalso. apply Nsil. clear - Fr H. induction Fr as [|k r l l' (z & -> & _) Fr IH]; [destruct H|].
    destruct H as [H|H]; [injection H as -> _; now left|right; auto].
  - assert (Hk : In b keys).
    { apply Kin. destruct R as (r & Hin).
      assert (G : exists l1 l l2 z, lines = (l1 ++ l :: l2)%list /\ gives l b z /\ forall l' c', In l' l2 -> ~ gives l' b c').
      { assert (Hg : gives (a :: b :: c :: r) b c).
        { exists a, r. repeat split; auto. intros ->. apply (Hq b c). now exists r. }
        clear - Hin Hg. induction lines as [|l lines IH] using rev_ind; [destruct Hin|].
        destruct l as [|x [|y [|z t] ] ];
          try (apply in_app_iff in Hin; destruct Hin as [Hin|[Hin|[] ] ]; [|discriminate]; destruct (IH Hin) as (l1 & m & l2 & z0 & -> & G1 & G2);
               exists l1, m; eexists (l2 ++ [_])%list, z0; split; [rewrite <- app_assoc; reflexivity|]; split; [exact G1|];
               intros l' c' H'; apply in_app_iff in H'; destruct H' as [H'|[<-|[] ] ]; [now apply G2|intros (? & ? & Q & _); discriminate]).
        destruct (string_dec x "q") as [->|Nx]; [|destruct (string_dec y b) as [->|Ny] ].
        - apply in_app_iff in Hin. destruct Hin as [Hin|[Hin|[] ] ].
          + destruct (IH Hin) as (l1 & m & l2 & z0 & -> & G1 & G2). exists l1, m. eexists (l2 ++ [_])%list, z0.
            split; [rewrite <- app_assoc; reflexivity|]. split; [exact G1|].
            intros l' c' H'; apply in_app_iff in H'; destruct H' as [H'|[<-|[] ] ]; [now apply G2|]. intros (? & ? & Q & N & _). injection Q as <- _. congruence.
          + rewrite Hin in *. destruct Hg as (? & ? & Q & N & _). rewrite <- Hin in Q. injection Q as Q _. congruence.
        - exists lines, (x :: b :: z :: t)%list, [], z. split; [reflexivity|]. split; [|intros ? ? []].
          exists x, t. repeat split; auto. destruct Hg as (? & ? & _ & _ & N). exact N.
        - apply in_app_iff in Hin. destruct Hin as [Hin|[Hin|[] ] ].
          + destruct (IH Hin) as (l1 & m & l2 & z0 & -> & G1 & G2). exists l1, m. eexists (l2 ++ [_])%list, z0.
            split; [rewrite <- app_assoc; reflexivity|]. split; [exact G1|].
            intros l' c' H'; apply in_app_iff in H'; destruct H' as [H'|[<-|[] ] ]; [now apply G2|]. intros (? & ? & Q & _). injection Q as _ Q _. congruence.
          + injection Hin as _ Q _ _. congruence. }
      destruct G as (l1 & l & l2 & z & G). exists z, l1, l, l2. exact G. }
    assert (U : forall k r0, In r0 rows -> (exists z, r0 = [k; z]) -> exists z, r0 = [k; z] /\ finally lines k z).
    { clear - Fr. intros k r0 H (z & ->). induction Fr as [|k' r l l' (z' & -> & Hz) Fr IH]; [destruct H|].
      destruct H as [H|H]; [injection H as -> ->; eauto|auto]. }
    split.
    + right. clear - Hk Fr Fin W R. induction Fr as [|k r l l' (z & -> & Hz) Fr IH]; [destruct Hk|].
      destruct Hk as [->|Hk]; [left|right; auto]. destruct (Fin b z Hz) as (x & Hx). now rewrite (W x a b z c Hx R).
    + intros c' [H|H]; [congruence|]. destruct (U b [b; c'] H) as (z & Q & Hz); [eauto|]. injection Q as <-.
      destruct (Fin b c' Hz) as (x & Hx). exact (W x a b c' c Hx R).
Qed.

Example ex_C161 :
  lang_prep [["aa"; "aa"; "aa"]; ["ax-h"; "ax"; "ah"]; ["q"]; ["epi"; "epi"; "sil"]; ["h#"; "sil"; "sil"]; ["bcl"; "vcl"; "sil"]; ["ao"; "ao"; "aa"]] =
  Ok {| p_units := [["sil"; "non-speech-unit"]; ["aa"; "speech-unit"]; ["ao"; "speech-unit"]; ["ax"; "speech-unit"]; ["epi"; "non-speech-unit"]; ["vcl"; "speech-unit"] ];
        p_ids := [("sil", 0); ("aa", 1); ("ao", 2); ("ax", 3); ("epi", 4); ("vcl", 5)];
        p_map := [["sil"; "sil"]; ["aa"; "aa"]; ["ao"; "aa"]; ["ax"; "ah"]; ["epi"; "sil"]; ["vcl"; "sil"] ];
        p_39 := [("sil", 0); ("aa", 1); ("ah", 2)] |}.
Proof. vm_compute. reflexivity. Qed.

Print Assumptions C160_list.
Print Assumptions C160_decoding_graph.
Print Assumptions C161_files.
Print Assumptions C161_no_silence.
Print Assumptions C161_unreadable.
Print Assumptions C161_agrees.
