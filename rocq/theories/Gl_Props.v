(** C148-C150: transcription of text by letters (google_lr recipe). *)
From Coq Require Import Ascii String List Arith Bool Lia Permutation DecimalString DecimalNat.
From Verif Require Import Prelude Gl_Model Gl_Spec Gl_Proofs.
Import ListNotations.

(** ** C148: the letters of a word are grouped into phones *)

Theorem C148_cut : forall combining w ps, split_word combining w = ps <-> cut combining w ps.
Proof. intros. rewrite cut_iff. split; congruence. Qed.

(** In particular there is exactly one way to cut a word. *)
Theorem C148_unique : forall combining w, exists! ps, cut combining w ps.
Proof.
  intros combining w. exists (split_word combining w). split; [now apply cut_iff|].
  intros ps H. symmetry. now apply cut_iff.
Qed.

(** g, b, U+0301, a: "gb" with its accent and "a"; g, b, b: "gb" and "b". *)
Example C148_example : let comb c := c =? 769 in
  split_word comb [103; 98; 769; 97] = [[103; 98; 769]; [97]] /\
  split_word comb [103; 98; 98] = [[103; 98]; [98]] /\
  split_word comb [103; 769; 98] = [[103; 769]; [98]] /\
  cut comb [103; 98; 769; 97] [[103; 98; 769]; [97]].
Proof. intros comb. repeat (split; [reflexivity|]). now apply C148_cut. Qed.

(** ** C149: units of phones *)

Section Main.
  Variables (isalnum combining : nat -> bool) (lower : nat -> list nat) (lang : string) (diacritics add_sil : bool).
  Notation main := (google_main isalnum combining lower lang diacritics add_sil).
  Notation reads := (reads isalnum combining lower diacritics).
  Notation occurs := (occurs isalnum combining lower diacritics).

  Lemma clean_cleaned w : clean isalnum combining lower diacritics w = cleaned isalnum combining lower diacritics w.
  Proof.
    unfold clean, cleaned, kept. destruct diacritics; cbn [negb andb].
    - reflexivity.
    - f_equal. apply filter_ext. intros c. now rewrite orb_false_r.
  Qed.

  Lemma reads_iff w e : reads w e <-> e = ev_of isalnum combining lower diacritics w.
  Proof.
    unfold ev_of. rewrite clean_cleaned. destruct w as [|c w].
    - destruct e as [|ps]; cbn [Gl_Spec.reads].
      + split; [intros (u & H); discriminate|discriminate].
      + rewrite cut_iff. split; [intros [_ ->]; reflexivity|]. intros [= ->]. split; [discriminate|reflexivity].
    - destruct (Nat.eqb_spec c ch_bracket) as [->|N]; destruct e as [|ps]; cbn [Gl_Spec.reads].
      + split; [reflexivity|]. intros _. now exists w.
      + split; [intros [H _]; now elim (H w)|discriminate].
      + split; [|discriminate]. intros (u & [= -> _]). now elim N.
      + rewrite cut_iff. split; [intros [_ ->]; reflexivity|]. intros [= ->]. split; [|reflexivity]. intros u [= -> _]. now elim N.
  Qed.

  Lemma reads_all sent ev : Forall2 reads sent ev <-> ev = map (ev_of isalnum combining lower diacritics) sent.
  Proof.
    split.
    - induction 1 as [|w e sent ev H _ IH]; [reflexivity|]. cbn [map]. rewrite IH. f_equal. now apply reads_iff.
    - intros ->. induction sent as [|w sent IH]; constructor; [now apply reads_iff|exact IH].
  Qed.

  Lemma occurs_iff lines td p : trans_dict lines = Ok td ->
    (occurs lines p <-> In p (all_phones isalnum combining lower diacritics td)).
  Proof.
    intros H. destruct (trans_dict_ok lines td H) as [_ L]. unfold all_phones, Gl_Spec.occurs. rewrite in_flat_map. split.
    - intros (utt & sent & w & ps & Hl & Hw & Hr & Hp). exists (utt, sent). split; [now apply L|]. cbn [snd].
      apply in_flat_map. exists (Phones ps). split; [|exact Hp]. apply reads_iff in Hr. rewrite Hr. now apply in_map.
    - intros ([utt sent] & Hu & Hp). cbn [snd] in Hp. apply in_flat_map in Hp. destruct Hp as (e & He & Hp).
      apply in_map_iff in He. destruct He as (w & <- & Hw). exists utt, sent, w.
      destruct (ev_of isalnum combining lower diacritics w) as [|ps] eqn:E; [contradiction|].
      exists ps. split; [now apply L|]. split; [exact Hw|]. split; [now apply reads_iff|exact Hp].
  Qed.

  Lemma main_ok lines table out : main lines = Ok (table, out) -> exists td, trans_dict lines = Ok td /\
    out = map (out_of isalnum combining lower diacritics add_sil table) td /\
    table_ok lang table /\
    (forall p, occurs lines p -> In (sort_chars p) (map fst table)) /\
    (forall k, In k (map fst table) -> k = w_sil \/ exists p, occurs lines p /\ k = sort_chars p).
  Proof.
    unfold google_main. destruct (trans_dict lines) as [td|] eqn:E; [|discriminate]. cbn [bindr]. intros H.
    destruct (do_utts_ok lang isalnum combining lower diacritics add_sil td [(w_sil, "sil"%string)] [] (table_start lang))
      as (e & F & T & H1 & H2).
    rewrite F in H. injection H as <- <-. exists td. split; [reflexivity|]. split; [reflexivity|]. split; [exact T|]. split.
    - intros p Hp. apply H1. now apply (occurs_iff lines td p E).
    - intros k Hk. cbn [app map fst In] in Hk. destruct Hk as [<-|Hk]; [now left|right].
      destruct (H2 k Hk) as (p & Hp & ->). exists p. split; [now apply (occurs_iff lines td p E)|reflexivity].
  Qed.

  (** The script stops exactly on an empty line. *)
  Theorem C149_fails_iff : forall lines, (exists e, main lines = Err e) <-> In [] lines.
  Proof.
    intros lines. rewrite <- trans_dict_fail. unfold google_main. destruct (trans_dict lines) as [td|e] eqn:E; cbn [bindr].
    - destruct (do_utts_ok lang isalnum combining lower diacritics add_sil td [(w_sil, "sil"%string)] [] (table_start lang))
        as (f & F & _). rewrite F. split; intros (x & H); discriminate.
    - split; intros _; eauto.
  Qed.

  (** The file of phones: the silence, then one entry per phone of the text (up
      to the order of the characters), numbered from 2. *)
  Theorem C149_table : forall lines table out, main lines = Ok (table, out) ->
    (exists d, table = ([115; 105; 108], "sil"%string) :: d /\
       map snd d = map (fun n => (lang ++ "_" ++ NilEmpty.string_of_uint (Nat.to_uint n))%string) (seq 2 (length d))) /\
    NoDup (map fst table) /\ NoDup (map snd table) /\
    (forall k s, In (k, s) table -> s = "sil"%string \/ exists p, occurs lines p /\ Permutation k p) /\
    (forall p, occurs lines p -> exists k s, In (k, s) table /\ s <> "sil"%string /\ Permutation k p).
  Proof.
    intros lines table out H. destruct (main_ok lines table out H) as (td & _ & _ & T & H1 & H2).
    assert (NS : NoDup (map snd table)).
    { destruct T as [_ _ _ ->]. constructor.
      - intros Hi. apply in_map_iff in Hi. destruct Hi as (n & E & _). now apply unit_name_not_sil in E.
      - apply FinFun.Injective_map_NoDup; [intros n m; apply unit_name_inj|apply seq_NoDup]. }
    split.
    { destruct T as [(d & ->) _ _ N]. exists d. split; [reflexivity|]. cbn [map snd length] in N. injection N as N.
      rewrite Nat.sub_0_r in N. exact N. }
    split; [apply T|]. split; [exact NS|]. split.
    - intros k s Hk. destruct (H2 k) as [->|(p & Hp & ->)]; [now apply (in_map fst) in Hk| |].
      + left. destruct T as [(d & ->) K _ _]. cbn [map fst] in K. inversion K as [|? ? N1 N2]; subst.
        destruct Hk as [[= <-]|Hk]; [reflexivity|]. exfalso. apply N1. now apply (in_map fst) in Hk.
      + right. exists p. split; [exact Hp|apply sort_perm].
    - intros p Hp. destruct (name_in_spec lang table p T (H1 p Hp)) as [_ Hi].
      exists (sort_chars p), (name_in table p). split; [exact Hi|]. split; [|apply sort_perm].
      apply (name_not_sil lang); auto.
  Qed.

  (** The transcriptions: one per utterance (its last line), where every phone is
      written with its unit; two phones have the same unit exactly when they
      have the same characters. *)
  Theorem C149_transcriptions : forall lines table out, main lines = Ok (table, out) ->
    exists name : list nat -> string,
      (forall p, occurs lines p -> exists k, In (k, name p) table /\ Permutation k p) /\
      (forall p q, occurs lines p -> occurs lines q -> (name p = name q <-> Permutation p q)) /\
      NoDup (map fst out) /\
      forall utt toks, In (utt, toks) out <->
        exists sent ev, last_line lines utt sent /\ Forall2 reads sent ev /\
          toks = (if add_sil then "sil"%string :: render false name ev ++ ["sil"%string] else render false name ev).
  Proof.
    intros lines table out H. destruct (main_ok lines table out H) as (td & E & -> & T & H1 & H2).
    destruct (trans_dict_ok lines td E) as [ND L].
    exists (name_in table). split; [|split; [|split]].
    - intros p Hp. exists (sort_chars p). split; [|apply sort_perm]. now apply (name_in_spec lang), H1.
    - intros p q Hp Hq. split; intros Hpq.
      + apply sort_iff. destruct (name_in_spec lang table p T (H1 p Hp)) as [_ I1].
        destruct (name_in_spec lang table q T (H1 q Hq)) as [_ I2]. rewrite <- Hpq in I2.
        exact (table_inj lang table _ _ _ T I1 I2).
      + unfold name_in. now rewrite (sort_eq p q Hpq).
    - rewrite map_map. erewrite map_ext; [exact ND|]. reflexivity.
    - intros utt toks. rewrite in_map_iff. split.
      + intros ([u s] & O & Hi). unfold out_of in O. cbn [fst snd] in O. injection O as <- <-.
        exists s, (map (ev_of isalnum combining lower diacritics) s). split; [now apply L|]. split; [now apply reads_all|].
        reflexivity.
      + intros (sent & ev & Hl & Hr & ->). exists (utt, sent). split; [|now apply L]. apply reads_all in Hr. subst ev.
        reflexivity.
  Qed.

  (** ** C150: silences *)

  Lemma render_first b name ev x t : (forall p, name p <> "sil"%string) -> render b name ev = x :: t -> x = "sil"%string ->
    b = true.
  Proof.
    intros Hn. revert b. induction ev as [|[|[|p ps]] ev IH]; intros b; cbn [render]; try discriminate.
    - destruct b; [reflexivity|]. apply IH.
    - apply IH.
    - intros [= <- _] E. now elim (Hn p).
  Qed.

  Lemma nds_cons x t : no_double_sil t -> (x = "sil"%string -> forall y t', t = y :: t' -> y <> "sil"%string) ->
    no_double_sil (x :: t).
  Proof.
    intros H Hx u v E. destruct u as [|u0 u]; cbn [app] in E; injection E as -> E.
    - now apply (Hx eq_refl "sil"%string v).
    - now apply (H u v).
  Qed.

  Lemma render_nds name : (forall p, name p <> "sil"%string) -> forall ev b, no_double_sil (render b name ev).
  Proof.
    intros Hn. induction ev as [|[|[|p ps]] ev IH]; intros b; cbn [render].
    - intros u v E. destruct u; discriminate.
    - destruct b; [|apply IH]. apply nds_cons; [apply IH|]. intros _ y t' E ->. now apply render_first in E.
    - apply IH.
    - generalize (p :: ps) as l. intros l. induction l as [|q l IHl]; [apply IH|]. cbn [map app].
      apply nds_cons; [exact IHl|]. intros E. now elim (Hn q).
  Qed.

  (** With names that are not "sil" (the real names may differ on strings that
      are not phones of the text). *)
  Definition safe (name : list nat -> string) (p : list nat) : string :=
    if string_dec (name p) "sil" then EmptyString else name p.
  Lemma safe_not_sil name p : safe name p <> "sil"%string.
  Proof. unfold safe. now destruct (string_dec (name p) "sil"). Qed.

  Lemma main_render lines table out utt toks : main lines = Ok (table, out) -> In (utt, toks) out ->
    exists name sent ev, (forall p, name p <> "sil"%string) /\ last_line lines utt sent /\ Forall2 reads sent ev /\
      toks = (if add_sil then "sil"%string :: render false name ev ++ ["sil"%string] else render false name ev).
  Proof.
    intros H Hi. destruct (main_ok lines table out H) as (td & E & -> & T & H1 & H2).
    destruct (trans_dict_ok lines td E) as [ND L]. apply in_map_iff in Hi. destruct Hi as ([u s] & O & Hi).
    unfold out_of in O. cbn [fst snd] in O. injection O as <- <-.
    exists (safe (name_in table)), s, (map (ev_of isalnum combining lower diacritics) s).
    split; [apply safe_not_sil|]. split; [now apply L|]. split; [now apply reads_all|].
    rewrite (render_ext (safe (name_in table)) (name_in table)); [destruct add_sil; reflexivity|].
    intros p Hp. unfold safe. destruct (string_dec (name_in table p) "sil") as [Es|]; [|reflexivity].
    exfalso. apply (name_not_sil lang table p T) in Es; [exact Es|]. apply H1, (occurs_iff lines td p E).
    unfold all_phones. apply in_flat_map. exists (u, s). split; [exact Hi|exact Hp].
  Qed.
End Main.

(** Without --add-sil, no transcription starts with a silence and no two
    silences follow each other. *)
Theorem C150_silences : forall isalnum combining lower lang diacritics lines table out utt toks,
  google_main isalnum combining lower lang diacritics false lines = Ok (table, out) -> In (utt, toks) out ->
  no_double_sil toks /\ (forall t, toks <> "sil"%string :: t).
Proof.
  intros isalnum combining lower lang diacritics lines table out utt toks H Hi.
  destruct (main_render _ _ _ _ _ _ _ _ _ _ _ H Hi) as (name & sent & ev & Hn & _ & _ & ->). split.
  - now apply render_nds.
  - intros t E. apply render_first in E; auto. discriminate.
Qed.

Lemma render_app_word name b ev p ps ev' :
  render b name (ev ++ Phones (p :: ps) :: ev') = render b name ev ++ map name (p :: ps) ++ render true name ev'.
Proof.
  revert b. induction ev as [|[|[|q qs]] ev IH]; intros b; cbn [app render].
  - reflexivity.
  - destruct b; [cbn [app]; now rewrite IH|apply IH].
  - apply IH.
  - rewrite IH. now rewrite <- app_assoc.
Qed.

Lemma render_pause name b ev : (forall e, In e ev -> e = Marker \/ e = Phones []) ->
  render b name ev = if b && existsb (fun e => match e with Marker => true | _ => false end) ev then ["sil"%string] else [].
Proof.
  revert b. induction ev as [|e ev IH]; intros b H; [now destruct b|].
  destruct (H e (or_introl eq_refl)) as [->| ->]; cbn [render existsb orb].
  - destruct b; cbn [andb]; rewrite IH by (intros; apply H; now right); reflexivity.
  - rewrite IH by (intros; apply H; now right). reflexivity.
Qed.

Lemma render_pauses : forall name before p ps pause q qs after,
  (forall e, In e pause -> e = Marker \/ e = Phones []) ->
  render false name (before ++ Phones (p :: ps) :: pause ++ Phones (q :: qs) :: after) =
    render false name before ++ map name (p :: ps) ++
    (if existsb (fun e => match e with Marker => true | _ => false end) pause then ["sil"%string] else []) ++
    map name (q :: qs) ++ render true name after.
Proof.
  intros name before p ps pause q qs after H. rewrite render_app_word. f_equal. f_equal.
  rewrite render_app_word, render_pause by exact H. cbn [andb]. reflexivity.
Qed.

(** The silence written for the markers: exactly one between two words with
    markers in between, none without. *)
Theorem C150_pauses : forall isalnum combining lower lang diacritics add_sil lines table out utt toks sent before w pause w' after p ps q qs,
  let reads := reads isalnum combining lower diacritics in
  google_main isalnum combining lower lang diacritics add_sil lines = Ok (table, out) -> In (utt, toks) out ->
  last_line lines utt sent -> sent = before ++ w :: pause ++ w' :: after ->
  reads w (Phones (p :: ps)) -> reads w' (Phones (q :: qs)) ->
  (forall x, In x pause -> reads x Marker \/ reads x (Phones [])) ->
  exists (name : list nat -> string) l r, (forall c, name c <> "sil"%string) /\
    ((exists x, In x pause /\ reads x Marker) -> toks = l ++ map name (p :: ps) ++ "sil"%string :: map name (q :: qs) ++ r) /\
    ((forall x, In x pause -> ~ reads x Marker) -> toks = l ++ map name (p :: ps) ++ map name (q :: qs) ++ r).
Proof.
  intros isalnum combining lower lang diacritics add_sil lines table out utt toks sent before w pause w' after p ps q qs
    rd H Hi Hl Es Hw Hw' Hp.
  destruct (main_render _ _ _ _ _ _ _ _ _ _ _ H Hi) as (name & sent2 & ev & Hn & Hl2 & Hr & ->).
  assert (E2 : sent2 = sent).
  { unfold google_main in H. destruct (trans_dict lines) as [td|] eqn:E; [|discriminate].
    destruct (trans_dict_ok lines td E) as [ND L]. apply L in Hl, Hl2.
    apply (kget_ok utt _ td ND) in Hl. apply (kget_ok utt _ td ND) in Hl2. congruence. }
  subst sent2. apply reads_all in Hr. rewrite Es in Hr.
  rewrite map_app in Hr. cbn [map] in Hr. rewrite map_app in Hr. cbn [map] in Hr.
  apply reads_iff in Hw, Hw'. rewrite <- Hw, <- Hw' in Hr.
  set (evp := map (ev_of isalnum combining lower diacritics) pause) in *.
  assert (Hq : forall e, In e evp -> e = Marker \/ e = Phones []).
  { intros e He. apply in_map_iff in He. destruct He as (x & <- & Hx).
    destruct (Hp x Hx) as [R|R]; apply reads_iff in R; rewrite <- R; auto. }
  assert (Hm : forall x, In x pause -> rd x Marker <-> ev_of isalnum combining lower diacritics x = Marker).
  { intros x _. unfold rd. rewrite reads_iff. split; congruence. }
  rewrite Hr, render_pauses by exact Hq.
  exists name.
  exists ((if add_sil then ["sil"%string] else []) ++ render false name (map (ev_of isalnum combining lower diacritics) before)).
  exists (render true name (map (ev_of isalnum combining lower diacritics) after) ++ (if add_sil then ["sil"%string] else [])).
  split; [exact Hn|]. split.
  - intros (x & Hx & R). replace (existsb _ evp) with true.
    + destruct add_sil; rewrite <- ?app_assoc; cbn [app]; rewrite <- ?app_assoc; cbn [app]; rewrite <- ?app_assoc; rewrite ?app_nil_r; reflexivity.
    + symmetry. apply existsb_exists. exists Marker. split; [|reflexivity]. apply (Hm x Hx) in R. rewrite <- R. now apply in_map.
  - intros Hno. replace (existsb _ evp) with false.
    + destruct add_sil; rewrite <- ?app_assoc; cbn [app]; rewrite <- ?app_assoc; cbn [app]; rewrite <- ?app_assoc; rewrite ?app_nil_r; reflexivity.
    + symmetry. apply not_true_is_false. intros Hex. apply existsb_exists in Hex. destruct Hex as (e & He & Ee).
      apply in_map_iff in He. destruct He as (x & <- & Hx). apply (Hno x Hx), (Hm x Hx).
      now destruct (ev_of isalnum combining lower diacritics x).
Qed.

(** With --add-sil every transcription starts and ends with a silence, and two
    silences can only follow each other at its end ... *)
Theorem C150_add_sil_partial : forall isalnum combining lower lang diacritics lines table out utt toks,
  google_main isalnum combining lower lang diacritics true lines = Ok (table, out) -> In (utt, toks) out ->
  exists t, toks = "sil"%string :: t ++ ["sil"%string] /\ no_double_sil ("sil"%string :: t).
Proof.
  intros isalnum combining lower lang diacritics lines table out utt toks H Hi.
  destruct (main_render _ _ _ _ _ _ _ _ _ _ _ H Hi) as (name & sent & ev & Hn & _ & _ & ->).
  eexists. split; [reflexivity|]. apply nds_cons; [now apply render_nds|].
  intros _ y t' E ->. apply render_first in E; auto. discriminate.
Qed.

(** ... which happens after a final marker, and for an utterance without words. *)
Theorem C150_double_silence_refuted : exists isalnum combining lower lang lines table out t1 t2,
  google_main isalnum combining lower lang false true lines = Ok (table, out) /\
  In ([49], t1) out /\ In ([50], t2) out /\
  t1 = ["sil"; "yo_2"; "sil"; "sil"]%string /\ t2 = ["sil"; "sil"]%string.
Proof.
  exists (fun c => (97 <=? c) && (c <=? 122)), (fun _ => false), (fun c => [c]), "yo"%string,
    [[[49]; [97]; [91; 120; 93]]; [[50]; [46]]].
  do 4 eexists. split; [vm_compute; reflexivity|]. split; [left; reflexivity|]. split; [right; left; reflexivity|].
  split; reflexivity.
Qed.

(** "u1 Gba [noise] ab a" then "u2 b": units, silences and the table. *)
Example C149_example :
  google_main (fun c => (65 <=? c) && (c <=? 122) && negb (c =? 91) && negb (c =? 93)) (fun c => c =? 769)
    (fun c => if c =? 71 then [103] else [c]) "yo" true false
    [[[117; 49]; [71; 98; 97]; [91; 110; 93]; [97; 98]; [97; 769]]; [[117; 50]; [98; 46]]] =
  Ok ([(w_sil, "sil"); ([98; 103], "yo_2"); ([97], "yo_3"); ([98], "yo_4"); ([97; 769], "yo_5")]%string,
      [([117; 49], ["yo_2"; "yo_3"; "sil"; "yo_3"; "yo_4"; "yo_5"]%string); ([117; 50], ["yo_4"%string])]).
Proof. vm_compute. reflexivity. Qed.

Print Assumptions C148_cut.
Print Assumptions C149_table.
Print Assumptions C149_transcriptions.
Print Assumptions C150_silences.
Print Assumptions C150_add_sil_partial.
