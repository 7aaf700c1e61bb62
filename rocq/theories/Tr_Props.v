(** Scripts rewriting transcriptions: C138-C142. *)
From Coq Require Import String Ascii List Arith Bool Lia Permutation.
From Verif Require Import Prelude Gb_Model Edit_Model Tr_Model.
Import ListNotations.
Local Open Scope string_scope.

(** ** Lemmas *)
Lemma sget_sset_eq {A} k (v : A) d : sget k (sset k v d) = Ok v.
Proof.
  induction d as [|[k' v'] d IH]; cbn; [now rewrite String.eqb_refl|].
  destruct (String.eqb k k') eqn:E; cbn; rewrite E; auto.
Qed.
Lemma sget_sset_neq {A} k k1 (v : A) d : k1 <> k -> sget k1 (sset k v d) = sget k1 d.
Proof.
  intros H. induction d as [|[k' v'] d IH]; cbn.
  - destruct (String.eqb_spec k1 k); [congruence|reflexivity].
  - destruct (String.eqb_spec k k') as [->|Hn]; cbn; [|now rewrite IH].
    destruct (String.eqb_spec k1 k'); [congruence|reflexivity].
Qed.
Lemma sget_err {A} k (d : list (string * A)) e : sget k d = Err e -> e = KeyError.
Proof. induction d as [|[k' v'] d IH]; cbn; [congruence|]. destruct (String.eqb k k'); [discriminate|auto]. Qed.
Lemma mem_str_spec s l : mem_str s l = true <-> In s l.
Proof.
  unfold mem_str. rewrite existsb_exists. split.
  - intros (x & Hx & E). apply String.eqb_eq in E. now subst.
  - intros H. exists s. split; [exact H|apply String.eqb_refl].
Qed.
Lemma mapM_Forall2 {A B} (f : A -> result B) l l' : mapM f l = Ok l' <-> Forall2 (fun a b => f a = Ok b) l l'.
Proof.
  split.
  - revert l'. induction l as [|a l IH]; cbn; intros l' H.
    + injection H as <-. constructor.
    + destruct (f a) as [b|] eqn:E; cbn in H; [|discriminate]. destruct (mapM f l) as [bs|]; cbn in H; [|discriminate].
      injection H as <-. constructor; auto.
  - induction 1 as [|a b l l' H Hl IH]; [reflexivity|]. cbn. now rewrite H, IH.
Qed.
Lemma Forall2_iff {A B} (P Q : A -> B -> Prop) l l' : (forall a b, P a b <-> Q a b) -> Forall2 P l l' <-> Forall2 Q l l'.
Proof. intros H. split; induction 1; constructor; auto; now apply H. Qed.
Lemma mapM_fail {A B} (f : A -> result B) l : (forall a e, In a l -> f a = Err e -> e = KeyError) ->
  (exists a e, In a l /\ f a = Err e) -> mapM f l = Err KeyError.
Proof.
  induction l as [|a l IH]; intros He (x & e & Hx & Hf); [destruct Hx|]. cbn.
  destruct (f a) as [b|e'] eqn:E; cbn.
  - rewrite IH; [reflexivity| |].
    + intros y ey Hy. apply He. now right.
    + destruct Hx as [->|Hx]; [congruence|]. eauto.
  - f_equal. apply (He a); auto. now left.
Qed.

(** ** C138: maptrans.py *)
(** A token is mapped by the last line made of it and another token. *)
Theorem C138_mapping : forall lines k v, sget k (load_mapping lines) = Ok v <->
  exists l1 l2, lines = (l1 ++ [k; v] :: l2)%list /\ forall v', ~ In [k; v'] l2.
Proof.
  intros lines k v. unfold load_mapping.
  induction lines as [|l lines IH] using rev_ind.
  - cbn. split; [discriminate|]. intros (l1 & l2 & E & _). destruct l1; discriminate.
  - rewrite fold_left_app. cbn [fold_left]. set (d := fold_left _ lines []) in *.
    assert (Skip : (forall v', l <> [k; v']) -> sget k d = Ok v <->
      exists l1 l2, (lines ++ [l] = l1 ++ [k; v] :: l2)%list /\ forall v', ~ In [k; v'] l2).
    { intros Hl. rewrite IH. split.
      - intros (l1 & l2 & -> & H). exists l1, (l2 ++ [l])%list. split; [now rewrite <- app_assoc|].
        intros v' Hv. apply in_app_iff in Hv. destruct Hv as [Hv|[Hv|[]]]; [now apply H in Hv|now apply (Hl v')].
      - intros (l1 & l2 & E & H). destruct l2 as [|x l2] using rev_ind.
        + apply app_inj_tail in E. destruct E as [_ E]. now apply Hl in E.
        + exists l1, l2. clear IHl2. rewrite app_comm_cons, app_assoc in E. apply app_inj_tail in E. destruct E as [-> ->].
          split; [reflexivity|]. intros v' Hv. apply (H v'). apply in_app_iff. now left. }
    destruct l as [|p1 [|p2 [|p3 l]]]; try (apply Skip; discriminate).
    destruct (String.eqb_spec k p1) as [->|Hn].
    + rewrite sget_sset_eq. split.
      * intros E. injection E as ->. exists lines, []. split; [reflexivity|]. intros v' [].
      * intros (l1 & l2 & E & H). destruct l2 as [|x l2] using rev_ind.
        -- apply app_inj_tail in E. destruct E as [_ E]. injection E as ->. reflexivity.
        -- clear IHl2. rewrite app_comm_cons, app_assoc in E. apply app_inj_tail in E. destruct E as [_ <-].
           exfalso. apply (H p2). apply in_app_iff. right. now left.
    + rewrite sget_sset_neq by auto. apply Skip. intros v' E. injection E as E1 E2. congruence.
Qed.

Theorem C138_map_trans : forall mapping unk trans out, map_trans mapping unk trans = Ok out <->
  Forall2 (fun ut ut' => fst ut' = fst ut /\
    Forall2 (fun t t' => sget t mapping = Ok t' \/ ((forall v, sget t mapping <> Ok v) /\ unk <> "" /\ t' = unk))
            (snd ut) (snd ut')) trans out.
Proof.
  intros mapping unk trans out. unfold map_trans. rewrite mapM_Forall2. apply Forall2_iff. intros [u t] [u' t']. cbn [fst snd].
  assert (T : forall a b, map_token mapping unk a = Ok b <->
    (sget a mapping = Ok b \/ ((forall v, sget a mapping <> Ok v) /\ unk <> "" /\ b = unk))).
  { intros a b. unfold map_token. destruct (sget a mapping) as [v|e].
    - split; [intros E; injection E as ->; now left|]. intros [E|(H & _)]; [exact E|]. now destruct (H v).
    - destruct (String.eqb_spec unk "") as [->|Hu]; split.
      + discriminate.
      + intros [E|(_ & H & _)]; congruence.
      + intros E. injection E as <-. right. repeat split; [discriminate|exact Hu].
      + intros [E|(_ & _ & ->)]; congruence. }
  split.
  - intros H. destruct (mapM (map_token mapping unk) t) as [ts|] eqn:E; [|discriminate]. cbn in H. injection H as <- <-.
    split; [reflexivity|]. apply mapM_Forall2 in E. eapply Forall2_iff; [|exact E]. intros; symmetry; apply T.
  - intros [-> H]. rewrite (proj2 (mapM_Forall2 _ t t')); [reflexivity|]. eapply Forall2_iff; [|exact H]. intros; apply T.
Qed.
(** Without replacement a token that is not mapped is a KeyError. *)
Theorem C138_unmapped : forall mapping trans ut t, In ut trans -> In t (snd ut) -> (forall v, sget t mapping <> Ok v) ->
  map_trans mapping "" trans = Err KeyError.
Proof.
  intros mapping trans ut t Hu Ht Hm.
  assert (K : forall a e, map_token mapping "" a = Err e -> e = KeyError).
  { intros a e. unfold map_token. destruct (sget a mapping) eqn:E; [discriminate|]. cbn. intros X. injection X as <-. eapply sget_err; eauto. }
  assert (F : mapM (map_token mapping "") (snd ut) = Err KeyError).
  { apply mapM_fail; [intros a e _; apply K|]. exists t. unfold map_token. destruct (sget t mapping) as [v|e] eqn:E; [now destruct (Hm v)|].
    exists e. split; auto. }
  unfold map_trans. apply mapM_fail.
  - intros a e _ E. destruct (mapM (map_token mapping "") (snd a)) as [ts|e'] eqn:E'; cbn in E; [discriminate|]. injection E as ->.
    clear - E' K. revert E'. generalize (snd a). induction l as [|x l IH]; cbn; [discriminate|].
    destruct (map_token mapping "" x) eqn:Ex; cbn; [|intros X; injection X as ->; eauto].
    destruct (mapM (map_token mapping "") l); cbn; [discriminate|auto].
  - exists ut, KeyError. split; auto. now rewrite F.
Qed.
(** The utterances of the file, in order when their names are distinct. *)
Lemma sset_new {A} k (v : A) d : ~ In k (map fst d) -> sset k v d = (d ++ [(k, v)])%list.
Proof.
  induction d as [|[k' v'] d IH]; intros H; [reflexivity|]. cbn in *. destruct (String.eqb_spec k k') as [->|]; [tauto|].
  rewrite IH by tauto. reflexivity.
Qed.
Theorem C138_transcript : forall d : list (string * list string), NoDup (map fst d) ->
  load_transcript (map (fun ut => fst ut :: snd ut) d) = Ok d.
Proof.
  intros d Hd. unfold load_transcript.
  assert (G : forall d d0 : list (string * list string), NoDup (map fst d0 ++ map fst d) ->
    foldM (fun d toks => match toks with [] => Err IndexError | utt :: t => Ok (sset utt t d) end)
      (map (fun ut => fst ut :: snd ut) d) d0 = Ok (d0 ++ d)%list).
  { clear. induction d as [|[u t] d IH]; intros d0 H; cbn; [now rewrite app_nil_r|]. cbn in H.
    rewrite sset_new.
    - rewrite IH; [now rewrite <- app_assoc|]. rewrite map_app, <- app_assoc. exact H.
    - intros Hin. apply NoDup_remove in H. destruct H as [_ H]. apply H. apply in_app_iff. now left. }
  now rewrite G.
Qed.
Example C138_example :
  maptrans_main [["a"; "x"]; ["b"]; ["c"; "y"; "z"]; ["a"; "w"]] [["u1"; "a"; "b"]; ["u2"; "c"]] "UNK" =
    Ok [("u1", ["w"; "UNK"]); ("u2", ["UNK"])] /\
  maptrans_main [["a"; "x"]] [["u1"; "a"; "b"]] "" = Err KeyError.
Proof. split; reflexivity. Qed.

(** ** C139: timit-norm-trans.py *)
Definition row (lines : list (list string)) (a b c : string) : Prop := exists rest, In (a :: b :: c :: rest) lines.
Definition well_formed (lines : list (list string)) : Prop :=
  (forall l, In l lines -> List.length l = 1 \/ 3 <= List.length l) /\
  (forall a b c b' c', row lines a b c -> row lines a b' c' -> b = b') /\
  (forall a a' b c c', row lines a b c -> row lines a' b c' -> c = c').

Lemma norm_load_ok lines : (forall l, In l lines -> List.length l = 1 \/ 3 <= List.length l) ->
  (forall a b c b' c', row lines a b c -> row lines a b' c' -> b = b') ->
  (forall a a' b c c', row lines a b c -> row lines a' b c' -> c = c') ->
  exists pm, norm_load lines = Ok pm /\
    (forall a b c, row lines a b c -> sget a (m60 pm) = Ok b /\ sget b (m48 pm) = Ok c) /\
    (forall a, In a (removed pm) <-> In [a] lines).
Proof.
  intros H1 H2 H3. unfold norm_load.
  assert (G : forall ls pre pm, lines = (pre ++ ls)%list ->
    (forall a b c, row pre a b c -> sget a (m60 pm) = Ok b /\ sget b (m48 pm) = Ok c) ->
    (forall a, In a (removed pm) <-> In [a] pre) ->
    exists pm', foldM norm_load_line ls pm = Ok pm' /\
    (forall a b c, row lines a b c -> sget a (m60 pm') = Ok b /\ sget b (m48 pm') = Ok c) /\
    (forall a, In a (removed pm') <-> In [a] lines)).
  { induction ls as [|l ls IH]; intros pre pm E Hr Hm.
    - rewrite app_nil_r in E. subst pre. exists pm. auto.
    - assert (Hl : In l lines) by (rewrite E; apply in_app_iff; right; now left).
      assert (E' : lines = ((pre ++ [l]) ++ ls)%list) by (rewrite <- app_assoc; exact E).
      destruct (H1 l Hl) as [L|L].
      + destruct l as [|a [|b l]]; cbn in L; try discriminate. cbn [foldM norm_load_line bindr].
        apply (IH (pre ++ [[a]])%list); auto.
        * intros x y z (rest & Hx). apply Hr. exists rest. apply in_app_iff in Hx. destruct Hx as [Hx|[Hx|[]]]; [exact Hx|discriminate].
        * intros x. cbn [removed]. rewrite !in_app_iff, Hm. cbn. split.
          -- intros [Hx|[->|[]]]; auto.
          -- intros [Hx|[Hx|[]]]; auto. injection Hx as ->. auto.
      + destruct l as [|a [|b [|c rest]]]; cbn in L; try lia. cbn [foldM norm_load_line bindr].
        apply (IH (pre ++ [a :: b :: c :: rest])%list); auto.
        * assert (R0 : row lines a b c) by (exists rest; exact Hl).
          intros x y z (rest' & Hx).
          assert (R1 : row lines x y z) by (exists rest'; rewrite E'; apply in_app_iff; left; exact Hx).
          apply in_app_iff in Hx. destruct Hx as [Hx|[Hx|[]]].
          -- destruct (Hr x y z) as [A B]; [now exists rest'|]. cbn [m60 m48]. split.
             ++ destruct (string_dec x a) as [->|N]; [rewrite sget_sset_eq; f_equal; eapply H2; eauto|now rewrite sget_sset_neq].
             ++ destruct (string_dec y b) as [->|N]; [rewrite sget_sset_eq; f_equal; eapply H3; eauto|now rewrite sget_sset_neq].
          -- injection Hx as -> -> -> ->. cbn [m60 m48]. now rewrite !sget_sset_eq.
        * intros x. cbn [removed]. rewrite in_app_iff, Hm. cbn. split; [tauto|]. intros [Hx|[Hx|[]]]; [exact Hx|discriminate]. }
  apply (G lines []); auto.
  - intros a b c (r & []).
  - intros a. cbn. tauto.
Qed.

Definition kept (lines : list (list string)) (toks : list string) : list string :=
  filter (fun p => if in_dec (list_eq_dec string_dec) [p] lines then false else true) toks.

Lemma norm_line_ok mapping rem lines u toks (R : string -> string -> Prop) :
  (forall a, In a rem <-> In [a] lines) ->
  (forall x, In x toks -> ~ In [x] lines -> exists b, R x b) -> (forall x b, R x b -> sget x mapping = Ok b) ->
  exists t', norm_line mapping rem (u :: toks) = Ok (u, t') /\ Forall2 R (kept lines toks) t'.
Proof.
  intros Hm Hr Hs. unfold norm_line.
  assert (E : filter (fun p => negb (mem_str p rem)) toks = kept lines toks).
  { apply filter_ext. intros p. destruct (in_dec (list_eq_dec string_dec) [p] lines) as [I|I].
    - rewrite (proj2 (mem_str_spec p rem)); [reflexivity|]. now apply Hm.
    - destruct (mem_str p rem) eqn:M; [|reflexivity]. apply mem_str_spec in M. apply Hm in M. contradiction. }
  rewrite E.
  assert (X : exists t', Forall2 R (kept lines toks) t').
  { assert (Q : forall x, In x (kept lines toks) -> exists b, R x b).
    { intros x Hx. apply filter_In in Hx. destruct Hx as [Hx D]. apply Hr; auto.
      destruct (in_dec (list_eq_dec string_dec) [x] lines); [discriminate|auto]. }
    revert Q. generalize (kept lines toks). clear. induction l as [|x l IH]; intros Q; [exists []; constructor|].
    destruct (Q x (or_introl eq_refl)) as [b Hb]. destruct IH as [t Ht]; [intros y Hy; apply Q; now right|].
    exists (b :: t). now constructor. }
  destruct X as [t' Ht]. exists t'. split; [|exact Ht].
  rewrite (proj2 (mapM_Forall2 _ _ t')); [reflexivity|].
  clear - Ht Hs. induction Ht; constructor; auto.
Qed.

(** Mapping to 48 and then to 39 phones takes every phone of the file to its
    third column and removes the phones alone on their line. *)
Theorem C139_two_steps : forall lines u toks, well_formed lines ->
  (forall a b c, row lines a b c -> ~ In [b] lines) ->
  (forall x, In x toks -> ~ In [x] lines -> exists b c, row lines x b c) ->
  exists t48 t39, norm_main true lines [u :: toks] = Ok [(u, t48)] /\ norm_main false lines [u :: t48] = Ok [(u, t39)] /\
    Forall2 (fun x b => exists c, row lines x b c) (kept lines toks) t48 /\
    Forall2 (fun x c => exists b, row lines x b c) (kept lines toks) t39.
Proof.
  intros lines u toks (H1 & H2 & H3) H4 H5. destruct (norm_load_ok lines H1 H2 H3) as (pm & E & Hr & Hm).
  destruct (norm_line_ok (m60 pm) (removed pm) lines u toks (fun x b => exists c, row lines x b c) Hm) as (t48 & E48 & F48).
  { intros x Hx Hn. destruct (H5 x Hx Hn) as (b & c & R). eauto. }
  { intros x b (c & R). now apply (Hr x b c). }
  assert (K48 : kept lines t48 = t48).
  { assert (forall b, In b t48 -> exists a c, row lines a b c).
    { clear - F48. induction F48 as [|x b l l' (c & R) F IH]; intros y Hy; [destruct Hy|]. destruct Hy as [->|Hy]; eauto. }
    clear - H H4. unfold kept. induction t48 as [|b t IH]; [reflexivity|]. cbn.
    destruct (in_dec (list_eq_dec string_dec) [b] lines) as [I|I].
    - destruct (H b (or_introl eq_refl)) as (a & c & R). now apply H4 in R.
    - rewrite IH; [reflexivity|]. intros y Hy. apply H. now right. }
  destruct (norm_line_ok (m48 pm) (removed pm) lines u t48 (fun b c => exists a, row lines a b c) Hm) as (t39 & E39 & F39).
  { intros b Hb _. clear - F48 Hb. induction F48 as [|x b' l l' (c & R) F IH]; [destruct Hb|]. destruct Hb as [->|Hb]; eauto. }
  { intros b c (a & R). now apply (Hr a b c). }
  rewrite K48 in F39. exists t48, t39. unfold norm_main. rewrite E. cbn [bindr mapM]. rewrite E48, E39. cbn.
  repeat split; auto. clear - F48 F39 H3. revert t39 F39.
  induction F48 as [|x b l l' (c & R) F IH]; intros t39 F39; inversion F39 as [|? c' ? ? (a & R') F']; subst; constructor; auto.
  exists b. replace c' with c; [exact R|]. eapply H3; eauto.
Qed.
(** A phone with a mapping to 48 phones and none to 39 is removed by both. *)
Theorem C139_two_tokens_refuted : forall a b u, norm_main true [[a; b]] [[u; a]] = Ok [(u, [])].
Proof. intros a b u. cbn. rewrite String.eqb_refl. reflexivity. Qed.
(** A phone of the 48 with the name of a removed phone of the 60 is removed. *)
Theorem C139_name_clash_refuted : forall q a c u, norm_main false [[q]; [a; q; c]] [[u; q]] = Ok [(u, [])].
Proof. intros q a c u. cbn. rewrite String.eqb_refl. reflexivity. Qed.
Example C139_example :
  let f := [["aa"; "aa"; "aa"]; ["ao"; "ao"; "aa"]; ["q"]; ["ax-h"; "ax"; "ah"]] in
  norm_main true f [["u"; "ao"; "q"; "ax-h"]] = Ok [("u", ["ao"; "ax"])] /\
  norm_main false f [["u"; "ao"; "ax"]] = Ok [("u", ["aa"; "ah"])] /\
  norm_main true f [["u"; "zz"]] = Err KeyError.
Proof. repeat split; reflexivity. Qed.

(** ** C140: prepare_phone_trans.py and add_prefix.py *)
(** The pronunciation of a word is on its last line. *)
Definition pron (lex : list (list string)) (w : string) (p : list string) : Prop :=
  exists l1 l2, lex = (l1 ++ (w :: p) :: l2)%list /\ forall p', ~ In (w :: p') l2.
Inductive transcribed (lex : list (list string)) (sil : bool) : list (list string) -> list (list string) -> Prop :=
| tr_nil : transcribed lex sil [] []
| tr_skip u ws w t o : In w ws -> (forall p, ~ In (w :: p) lex) -> transcribed lex sil t o -> transcribed lex sil ((u :: ws) :: t) o
| tr_keep u ws ps t o : Forall2 (pron lex) ws ps -> transcribed lex sil t o ->
    transcribed lex sil ((u :: ws) :: t)
      ((if sil then u :: "sil" :: concat ps ++ ["sil"] else u :: concat ps)%list :: o).

Lemma load_transcript_spec lines d : load_transcript lines = Ok d -> forall w p, sget w d = Ok p <-> pron lines w p.
Proof.
  unfold load_transcript. revert d. induction lines as [|l lines IH] using rev_ind; intros d H w p.
  - cbn in H. injection H as <-. cbn. split; [discriminate|]. intros (l1 & l2 & E & _). destruct l1; discriminate.
  - assert (Fa : forall l1 l2 st, foldM (fun d (toks : list string) => match toks with [] => Err IndexError | utt :: t => Ok (sset utt t d) end) (l1 ++ l2) st =
      bindr (foldM (fun d (toks : list string) => match toks with [] => Err IndexError | utt :: t => Ok (sset utt t d) end) l1 st)
        (fun s => foldM (fun d (toks : list string) => match toks with [] => Err IndexError | utt :: t => Ok (sset utt t d) end) l2 s)).
    { clear. induction l1 as [|a l1 IHl]; intros l2 st; [reflexivity|]. cbn. destruct a; cbn; auto. }
    rewrite Fa in H. destruct (foldM _ lines []) as [d0|] eqn:E0; cbn in H; [|discriminate].
    destruct l as [|u t]; cbn in H; [discriminate|]. injection H as <-. specialize (IH d0 eq_refl).
    destruct (string_dec w u) as [->|N].
    + rewrite sget_sset_eq. split.
      * intros X. injection X as ->. exists lines, []. split; [reflexivity|]. intros p' [].
      * intros (l1 & l2 & E & Hn). destruct l2 as [|x l2 _] using rev_ind.
        -- apply app_inj_tail in E. destruct E as [_ E]. injection E as ->. reflexivity.
        -- rewrite app_comm_cons, app_assoc in E. apply app_inj_tail in E. destruct E as [_ <-].
           exfalso. apply (Hn t). apply in_app_iff. right. now left.
    + rewrite sget_sset_neq by auto. rewrite IH. split.
      * intros (l1 & l2 & -> & Hn). exists l1, (l2 ++ [u :: t])%list. split; [now rewrite <- app_assoc|].
        intros p' Hp. apply in_app_iff in Hp. destruct Hp as [Hp|[Hp|[]]]; [now apply Hn in Hp|congruence].
      * intros (l1 & l2 & E & Hn). destruct l2 as [|x l2 _] using rev_ind.
        -- apply app_inj_tail in E. destruct E as [_ E]. congruence.
        -- exists l1, l2. rewrite app_comm_cons, app_assoc in E. apply app_inj_tail in E. destruct E as [-> _].
           split; [reflexivity|]. intros p' Hp. apply (Hn p'). apply in_app_iff. now left.
Qed.
Lemma pron_exists lex w : (exists p, In (w :: p) lex) -> exists p, pron lex w p.
Proof.
  induction lex as [|l lex IH]; intros (p & Hp); [destruct Hp|].
  destruct (List.existsb (fun l => match l with [] => false | x :: _ => String.eqb w x end) lex) eqn:E.
  - apply existsb_exists in E. destruct E as ([|x q] & Hx & Ex); [discriminate|]. apply String.eqb_eq in Ex. subst x.
    destruct IH as (p' & l1 & l2 & -> & Hn); [eauto|]. exists p', (l :: l1)%list, l2. split; [reflexivity|exact Hn].
  - destruct Hp as [->|Hp].
    + exists p, [], lex. split; [reflexivity|]. intros p' H. apply not_true_iff_false in E. apply E. apply existsb_exists.
      exists (w :: p'). split; [exact H|apply String.eqb_refl].
    + exfalso. apply not_true_iff_false in E. apply E. apply existsb_exists. exists (w :: p). split; [exact Hp|apply String.eqb_refl].
Qed.
(** For every lexicon and text without empty line *)
Theorem C140_phone_trans : forall lex text sil, Forall (fun l => l <> []) lex -> Forall (fun l => l <> []) text ->
  exists out, phone_trans_main lex text sil = Ok out /\ transcribed lex sil text out.
Proof.
  intros lex text sil Hl Ht. unfold phone_trans_main, load_lexicon.
  assert (D : exists d, load_transcript lex = Ok d).
  { unfold load_transcript. generalize (@nil (string * list string)). clear Ht. induction Hl as [|l lex Hn Hl IH]; intros d0; cbn; eauto.
    destruct l as [|u t]; [congruence|]. cbn. apply IH. }
  destruct D as [d Ed]. rewrite Ed. cbn [bindr]. assert (S := load_transcript_spec lex d Ed).
  induction Ht as [|l text Hn Ht IH].
  - exists []. split; [reflexivity|constructor].
  - destruct IH as (out & Eo & To). destruct l as [|u ws]; [congruence|].
    destruct (mapM (phone_trans_line d sil) text) as [ls|] eqn:Els; cbn in Eo; [|discriminate]. injection Eo as <-.
    cbn [mapM phone_trans_line]. destruct (mapM (fun w => sget w d) ws) as [ps|e] eqn:Ew; cbn [bindr].
    + rewrite Els. cbn. eexists. split; [reflexivity|]. apply tr_keep; [|exact To]. apply mapM_Forall2 in Ew.
      eapply Forall2_iff; [|exact Ew]. intros; symmetry; apply S.
    + rewrite Els. cbn. eexists. split; [reflexivity|].
      assert (W : exists w, In w ws /\ forall p, sget w d <> Ok p).
      { clear - Ew. induction ws as [|w ws IH]; [discriminate|]. cbn in Ew. destruct (sget w d) as [p|e'] eqn:E.
        - destruct (mapM (fun w => sget w d) ws) eqn:E2; cbn in Ew; [discriminate|].
          destruct IH as (w' & Hw & Hp); [now injection Ew as ->|]. exists w'. split; [now right|exact Hp].
        - exists w. split; [now left|]. congruence. }
      destruct W as (w & Hw & Hp). apply (tr_skip _ _ u ws w); auto.
      intros p Hin. destruct (pron_exists lex w) as [p' Hp']; [eauto|]. apply S in Hp'. now apply Hp in Hp'.
Qed.

Lemma append_inj p a b : (p ++ a)%string = (p ++ b)%string -> a = b.
Proof. induction p as [|c p IH]; cbn; intros H; [exact H|]. injection H as H. auto. Qed.
(** Distinct tokens stay distinct unless a token left unchanged begins with the prefix. *)
Theorem C140_prefix_partial : forall prefix excl a b, (forall t s, In t excl -> t <> (prefix ++ s)%string) ->
  prefix_token prefix excl a = prefix_token prefix excl b -> a = b.
Proof.
  intros prefix excl a b He H. unfold prefix_token in H.
  destruct (mem_str a excl) eqn:Ea, (mem_str b excl) eqn:Eb; auto.
  - apply mem_str_spec in Ea. now destruct (He a b Ea).
  - apply mem_str_spec in Eb. now destruct (He b a Eb).
  - eapply append_inj; eauto.
Qed.
Theorem C140_prefix_refuted : forall prefix s, prefix <> ""%string -> 
  mem_str s [(prefix ++ s)%string] = false ->
  (prefix ++ s)%string <> s /\ prefix_token prefix [(prefix ++ s)%string] (prefix ++ s) = prefix_token prefix [(prefix ++ s)%string] s.
Proof.
  intros prefix s Hp Hs. unfold prefix_token. rewrite Hs, (proj2 (mem_str_spec _ _)) by (now left). split; [|reflexivity].
  intros E. cbn in Hs. rewrite E, String.eqb_refl in Hs. discriminate.
Qed.
Example C140_example :
  phone_trans_main [["the"; "dh"; "ah"]; ["cat"; "k"]; ["the"; "dh"; "iy"]] [["u1"; "the"; "cat"]; ["u2"; "the"; "dog"]; ["u3"]] true =
    Ok [["u1"; "sil"; "dh"; "iy"; "k"; "sil"]; ["u3"; "sil"; "sil"]] /\
  add_prefix "fr_" ["sil"] [["u1"; "sil"; "a"]; ["u2"]] = Ok [["u1"; "sil"; "fr_a"]; ["u2"]].
Proof. split; reflexivity. Qed.

(** ** C141: alffa/prepare_transcripts.py *)
(** The phones numbered from 1 in the order of their first appearance. *)
Fixpoint first_seen (seen l : list string) : list string :=
  match l with
  | [] => seen
  | x :: t => if in_dec string_dec x seen then first_seen seen t else first_seen (seen ++ [x])%list t
  end.
Lemma first_seen_in l seen x : In x (first_seen seen l) <-> In x seen \/ In x l.
Proof.
  revert seen. induction l as [|y l IH]; intros seen; cbn; [tauto|].
  destruct (in_dec string_dec y seen) as [I|I]; rewrite IH; [|rewrite in_app_iff; cbn; tauto].
  split; [tauto|]. intros [H|[->|H]]; auto.
Qed.
Lemma first_seen_nodup l seen : NoDup seen -> NoDup (first_seen seen l).
Proof.
  revert seen. induction l as [|y l IH]; intros seen H; cbn; [exact H|].
  destruct (in_dec string_dec y seen) as [I|I]; apply IH; auto.
  rewrite NoDup_nth_error in *. apply NoDup_nth_error. apply Permutation_NoDup with (y :: seen).
  - apply Permutation_cons_append.
  - constructor; [exact I|]. now apply NoDup_nth_error.
Qed.
Lemma phone_ids_seen name lex :
  phone_ids name lex = combine (first_seen [] (concat (map snd lex)))
    (map name (seq 1 (List.length (first_seen [] (concat (map snd lex)))))).
Proof.
  unfold phone_ids. generalize (concat (map snd lex)). intros l.
  assert (G : forall l seen,
    fold_left (fun d phone => if mem_str phone (map fst d) then d else (d ++ [(phone, name (S (List.length d)))])%list) l
      (combine seen (map name (seq 1 (List.length seen)))) =
    combine (first_seen seen l) (map name (seq 1 (List.length (first_seen seen l))))).
  { clear. induction l as [|x l IH]; intros seen; cbn [fold_left first_seen]; [reflexivity|].
    assert (Hf : map fst (combine seen (map name (seq 1 (List.length seen)))) = seen).
    { assert (forall (A B : Type) (a : list A) (b : list B), List.length b = List.length a -> map fst (combine a b) = a) as X.
      { clear. induction a as [|x a IH]; intros [|y b] H; cbn in *; try discriminate; auto. rewrite IH; auto. }
      apply X. now rewrite map_length, seq_length. }
    rewrite Hf, combine_length, map_length, seq_length, Nat.min_id.
    destruct (in_dec string_dec x seen) as [I|I].
    - rewrite (proj2 (mem_str_spec x seen)) by auto. apply IH.
    - destruct (mem_str x seen) eqn:M; [now apply mem_str_spec in M|]. rewrite <- IH. f_equal.
      rewrite app_length, Nat.add_comm. cbn [List.length Nat.add]. 
      replace (seq 1 (S (List.length seen))) with (seq 1 (List.length seen) ++ [S (List.length seen)])%list
        by (rewrite seq_S; reflexivity).
      rewrite map_app. cbn.
      assert (X : forall (A B : Type) (a : list A) (b : list B) x y, List.length b = List.length a ->
        (combine (a ++ [x]) (b ++ [y]) = combine a b ++ [(x, y)])%list).
      { clear. induction a as [|x a IH]; intros [|y b] u v H; cbn in *; try discriminate; auto. now rewrite IH by lia. }
      rewrite X; [reflexivity|]. now rewrite map_length, seq_length. }
  apply (G l []).
Qed.
Lemma sget_combine {A} (ks : list string) (vs : list A) i k v : NoDup ks -> nth_error ks i = Some k -> nth_error vs i = Some v ->
  sget k (combine ks vs) = Ok v.
Proof.
  revert vs i. induction ks as [|x ks IH]; intros [|y vs] [|i] Hn Hk Hv; cbn in *; try discriminate.
  - injection Hk as ->. injection Hv as ->. now rewrite String.eqb_refl.
  - inversion Hn as [|? ? Hx Hn']; subst. destruct (String.eqb_spec k x) as [->|N].
    + exfalso. apply Hx. eapply nth_error_In; eauto.
    + eauto.
Qed.
Lemma nth_error_seq s n i : i < n -> nth_error (seq s n) i = Some (s + i).
Proof. revert s i. induction n as [|n IH]; intros s i H; [lia|]. destruct i; cbn; [f_equal; lia|]. rewrite IH by lia. f_equal; lia. Qed.

(** The i-th phone to appear in the lexicon is named i + 1 and no other phone has a name. *)
Theorem C141_ids : forall name lex, exists order : list string,
  NoDup order /\ (forall p, In p order <-> exists w pr, In (w, pr) lex /\ In p pr) /\
  (forall i p, nth_error order i = Some p -> sget p (phone_ids name lex) = Ok (name (S i))) /\
  (forall p v, sget p (phone_ids name lex) = Ok v -> In p order) /\
  map fst (phone_ids name lex) = order.
Proof.
  intros name lex. exists (first_seen [] (concat (map snd lex))). rewrite phone_ids_seen.
  set (o := first_seen [] _). assert (No : NoDup o) by (apply first_seen_nodup; constructor). repeat split; auto.
  - intros H. apply first_seen_in in H. destruct H as [[]|H]. apply in_concat in H. destruct H as (l & Hl & Hp).
    apply in_map_iff in Hl. destruct Hl as ([w pr] & <- & Hl). now exists w, pr.
  - intros (w & pr & H & Hp). apply first_seen_in. right. apply in_concat. exists pr. split; auto. apply in_map_iff. now exists (w, pr).
  - intros i p Hi. eapply sget_combine; eauto. rewrite nth_error_map, nth_error_seq; [reflexivity|].
    apply nth_error_Some. congruence.
  - intros p v Hs. assert (G : forall (ks : list string) (vs : list string), sget p (combine ks vs) = Ok v -> In p ks).
    { clear. induction ks as [|x ks IH]; intros [|y vs]; cbn; try discriminate. destruct (String.eqb_spec p x) as [->|]; eauto. }
    eapply G; eauto.
  - assert (X : forall (a : list string) (b : list string), List.length b = List.length a -> map fst (combine a b) = a).
    { clear. induction a as [|x a IH]; intros [|y b] H; cbn in *; try discriminate; auto. rewrite IH; auto. }
    apply X. now rewrite map_length, seq_length.
Qed.
(** Distinct phones get distinct names. *)
Theorem C141_ids_injective : forall name lex p q v, (forall i j, name i = name j -> i = j) ->
  sget p (phone_ids name lex) = Ok v -> sget q (phone_ids name lex) = Ok v -> p = q.
Proof.
  intros name lex p q v Hn Hp Hq. destruct (C141_ids name lex) as (o & No & _ & Hi & Hin & _).
  pose proof (Hin p v Hp) as Ip. pose proof (Hin q v Hq) as Iq.
  apply In_nth_error in Ip, Iq. destruct Ip as [i Ei], Iq as [j Ej].
  rewrite (Hi i p Ei) in Hp. rewrite (Hi j q Ej) in Hq. rewrite <- Hq in Hp. injection Hp as Hp. apply Hn in Hp.
  injection Hp as ->. congruence.
Qed.
(** An utterance of known words is written with the names of the phones of its
    words, in order, between two silences, whatever the options. *)
Theorem C141_known : forall name lex keep u ws ps, 
  Forall2 (fun w p => sget w lex = Ok p) ws ps ->
  exists ns, alffa_line name lex keep (map fst (phone_ids name lex)) (phone_ids name lex) (u, ws) =
    Some (u :: "sil" :: ns ++ ["sil"])%list /\
    Forall2 (fun p n => sget p (phone_ids name lex) = Ok n) (concat ps) ns.
Proof.
  intros name lex keep u ws ps H. destruct (C141_ids name lex) as (o & No & Ho & Hi & Hin & Hf).
  assert (Hl : forall w p, sget w lex = Ok p -> In (w, p) lex).
  { clear. induction lex as [|[k v] lex IH]; cbn; [discriminate|]. intros w p. destruct (String.eqb_spec w k) as [->|]; [|auto].
    intros E. injection E as ->. now left. }
  assert (Hk : forall p, In p o -> exists n, sget p (phone_ids name lex) = Ok n).
  { intros p Hp. apply In_nth_error in Hp. destruct Hp as [i Ei]. exists (name (S i)). auto. }
  assert (Hw : forall w p, sget w lex = Ok p -> word_phones name lex keep (map fst (phone_ids name lex)) w = p /\
    forall x, In x p -> In x o).
  { intros w p E. assert (I : forall x, In x p -> In x o) by (intros x Hx; apply Ho; exists w, p; auto).
    split; [|exact I]. unfold word_phones. rewrite E, Hf. destruct keep; [reflexivity|].
    clear - I. induction p as [|x p IH]; [reflexivity|]. cbn. rewrite (proj2 (mem_str_spec x o)) by (apply I; now left).
    rewrite IH; [reflexivity|]. intros y Hy. apply I. now right. }
  unfold alffa_line. cbn [fst snd].
  assert (M : exists nss, mapM (fun w => mapM (fun p => sget p (phone_ids name lex))
      (word_phones name lex keep (map fst (phone_ids name lex)) w)) ws = Ok nss /\
      Forall2 (fun p n => sget p (phone_ids name lex) = Ok n) (concat ps) (concat nss)).
  { clear Hf No Hi Hin Ho Hl. induction H as [|w p ws ps E H IH]; [exists []; split; [reflexivity|constructor]|].
    destruct IH as (nss & E1 & F1). cbn [mapM]. destruct (Hw w p E) as [-> Hx].
    assert (N : exists n, Forall2 (fun p n => sget p (phone_ids name lex) = Ok n) p n).
    { clear - Hx Hk. induction p as [|x p IH]; [exists []; constructor|]. destruct (Hk x (Hx x (or_introl eq_refl))) as [n En].
      destruct IH as [t Ht]; [intros y Hy; apply Hx; now right|]. exists (n :: t). now constructor. }
    destruct N as [n Fn]. rewrite (proj2 (mapM_Forall2 _ p n) Fn). cbn [bindr]. rewrite E1. cbn [bindr].
    exists (n :: nss). split; [reflexivity|]. cbn. now apply Forall2_app. }
  destruct M as (nss & E & F). rewrite E. exists (concat nss). split; [reflexivity|exact F].
Qed.
(** An unknown word is never written as the unit kept for it, the utterance is
    lost as soon as a character of that name is not a phone. *)
Theorem C141_unknown_refuted : forall name lex keep nonsil u ws w c, In w ws -> (forall p, sget w lex <> Ok p) ->
  In c (chars (name 0)) -> (forall w' pr, In (w', pr) lex -> ~ In c pr) ->
  alffa_line name lex keep nonsil (phone_ids name lex) (u, ws) = None.
Proof.
  intros name lex keep nonsil u ws w c Hw Hu Hc Hn. destruct (C141_ids name lex) as (o & _ & Ho & _ & Hin & _).
  unfold alffa_line. cbn [fst snd]. destruct (mapM _ ws) as [nss|] eqn:E; [|reflexivity]. exfalso.
  apply mapM_Forall2 in E. assert (X : exists ns, mapM (fun p => sget p (phone_ids name lex)) (word_phones name lex keep nonsil w) = Ok ns).
  { clear - E Hw. induction E as [|x y l l' H E IH]; [destruct Hw|]. destruct Hw as [->|Hw]; eauto. }
  destruct X as [ns X]. unfold word_phones in X. destruct (sget w lex) as [p|]; [now destruct (Hu p)|].
  apply mapM_Forall2 in X. assert (Y : exists n, sget c (phone_ids name lex) = Ok n).
  { clear - X Hc. induction X as [|x y l l' H E IH]; [destruct Hc|]. destruct Hc as [->|Hc]; eauto. }
  destruct Y as [n Y]. apply Hin, Ho in Y. destruct Y as (w' & pr & Hl & Hp). now apply (Hn w' pr).
Qed.
Example C141_example :
  let name n := match n with 0 => "la_0" | 1 => "la_1" | _ => "la_2" end in
  let lex := [["moto"; "m"; "o"]; ["mo"; "m"]; ["l"; "o"]] in
  alffa_main name true lex [["u1"; "moto"; "mo"]; ["u2"; "moto"; "nyumba"]] =
    Ok [["u1"; "sil"; "la_1"; "la_2"; "la_1"; "sil"]].
Proof. reflexivity. Qed.
(** All the characters are phones: four units replace the unknown word. *)
Example C141_unknown_spelled :
  let name n := match n with 0 => "l_0" | 1 => "l_1" | 2 => "l_2" | _ => "l_3" end in
  alffa_main name true [["moto"; "0"; "_"; "l"]] [["u2"; "nyumba"]] = Ok [["u2"; "sil"; "l_3"; "l_2"; "l_1"; "sil"]].
Proof. reflexivity. Qed.

(** ** C142: convert-ali-to-best-path.py and prepare-spk-labels.py *)
Lemma dedup_cons x y l : dedup_adjacent (x :: y :: l) = if Nat.eqb x y then dedup_adjacent (y :: l) else x :: dedup_adjacent (y :: l).
Proof. reflexivity. Qed.
Lemma dedup_head x l : exists t, dedup_adjacent (x :: l) = x :: t.
Proof.
  revert x. induction l as [|y l IH]; intros x; [now exists []|]. rewrite dedup_cons. destruct (Nat.eqb_spec x y) as [->|]; [apply IH|eauto].
Qed.
Lemma dedup_repeat x n l : dedup_adjacent (repeat x n ++ x :: l)%list = dedup_adjacent (x :: l).
Proof.
  induction n as [|n IH]; [reflexivity|]. cbn [repeat]. destruct n as [|n]; cbn [repeat app] in *; rewrite dedup_cons, Nat.eqb_refl; auto.
Qed.
Fixpoint no_repeat (l : list nat) : Prop :=
  match l with
  | x :: ((y :: _) as t) => x <> y /\ no_repeat t
  | _ => True
  end.
(** The alignment of a sequence of units, each with a non-empty path of states
    of the unit. *)
Definition aligned (pdf_mapping : list (nat * string)) (units_id : list (string * nat)) (u : nat) (states : list nat) : Prop :=
  states <> [] /\ forall s, In s states -> exists name, nget s pdf_mapping = Ok name /\ sget name units_id = Ok u.

Lemma best_path_dedup pm ui us paths : Forall2 (aligned pm ui) us paths ->
  best_path pm ui (concat paths) = Ok (dedup_adjacent us).
Proof.
  intros H. unfold best_path.
  assert (M : exists ns, Forall2 (fun u n => 0 < n) us ns /\
    mapM (fun s => bindr (nget s pm) (fun u => sget u ui)) (concat paths) = Ok (concat (map (fun p => repeat (fst p) (snd p)) (combine us ns)))).
  { induction H as [|u p us paths [Hp Hs] H IH]; [exists []; split; [constructor|reflexivity]|].
    destruct IH as (ns & F & E). exists (List.length p :: ns). split; [constructor; auto; destruct p; [congruence|cbn; lia]|].
    cbn [concat combine map fst snd].
    assert (Mp : mapM (fun s => bindr (nget s pm) (fun u => sget u ui)) p = Ok (repeat u (List.length p))).
    { clear - Hs. induction p as [|s p IH]; [reflexivity|]. cbn. destruct (Hs s (or_introl eq_refl)) as (nm & E1 & E2).
      rewrite E1. cbn. rewrite E2. cbn. rewrite IH; [reflexivity|]. intros x Hx. apply Hs. now right. }
    assert (Ma : forall (f : nat -> result nat) a b x y, mapM f a = Ok x -> mapM f b = Ok y -> mapM f (a ++ b)%list = Ok (x ++ y)%list).
    { clear. intros f. induction a as [|s a IH]; cbn; intros b x y Hx Hy.
      - injection Hx as <-. exact Hy.
      - destruct (f s); cbn in *; [|discriminate]. destruct (mapM f a) eqn:Ea; cbn in *; [|discriminate]. injection Hx as <-.
        rewrite (IH b _ y eq_refl Hy). reflexivity. }
    apply Ma; auto. }
  destruct M as (ns & F & E). rewrite E. cbn. f_equal. clear - F.
  induction F as [|u n us ns Hn F IH]; [reflexivity|]. cbn [combine map concat fst snd].
  destruct n as [|n]; [lia|]. clear Hn.
  assert (Z : forall rest, dedup_adjacent (repeat u (S n) ++ rest)%list = dedup_adjacent (u :: rest)).
  { intros rest. replace (repeat u (S n)) with (repeat u n ++ [u])%list by (clear; induction n; cbn; [reflexivity|now rewrite IHn]).
    rewrite <- app_assoc. apply dedup_repeat. }
  rewrite Z. destruct us as [|v us]; [inversion F; reflexivity|].
  inversion F as [|? m ? ns' Hm F']; subst. destruct m as [|m]; [lia|].
  cbn [combine map concat fst snd repeat app] in *. rewrite !dedup_cons. now rewrite IH.
Qed.
(** The path found is the sequence of units when no unit follows itself. *)
Theorem C142_best_path_partial : forall pm ui us paths, Forall2 (aligned pm ui) us paths -> no_repeat us ->
  best_path pm ui (concat paths) = Ok us.
Proof.
  intros pm ui us paths H Hn. rewrite (best_path_dedup pm ui us paths H). f_equal. clear H.
  induction us as [|u us IH]; [reflexivity|]. destruct us as [|v us]; [reflexivity|]. destruct Hn as [Hn H].
  rewrite dedup_cons. apply Nat.eqb_neq in Hn. rewrite Hn. f_equal. now apply IH.
Qed.
(** A unit following itself is counted once. *)
Theorem C142_best_path_refuted : forall pm ui u p q, aligned pm ui u p -> aligned pm ui u q ->
  best_path pm ui (p ++ q)%list = Ok [u].
Proof.
  intros pm ui u p q Hp Hq. replace (p ++ q)%list with (concat [p; q]) by (cbn; now rewrite app_nil_r).
  rewrite (best_path_dedup pm ui [u; u]); [cbn; now rewrite Nat.eqb_refl|]. repeat constructor; auto; try apply Hp; apply Hq.
Qed.
(** No output has two equal neighbours. *)
Theorem C142_no_repeat : forall pm ui ali p, best_path pm ui ali = Ok p -> no_repeat p.
Proof.
  intros pm ui ali p. unfold best_path. destruct (mapM _ ali) as [l|]; cbn; [|discriminate]. intros H. injection H as <-.
  induction l as [|x l IH]; [exact I|]. destruct l as [|y l]; [exact I|]. rewrite dedup_cons.
  destruct (Nat.eqb_spec x y) as [->|N]; [exact IH|]. destruct (dedup_head y l) as [t Et]. rewrite Et in *. split; auto.
Qed.

Lemma index_str_ok s l : In s l -> exists i, index_str s l = Ok i /\ nth_error l i = Some s.
Proof.
  induction l as [|x l IH]; intros H; [destruct H|]. cbn. destruct (String.eqb_spec s x) as [->|N]; [exists 0; auto|].
  destruct H as [->|H]; [congruence|]. destruct (IH H) as (i & E & Hi). exists (S i). now rewrite E.
Qed.
(** Whatever the order of the set of speakers: the label of an utterance is the
    number printed beside its speaker, so that two utterances have the same label
    exactly when they have the same speaker. *)
Theorem C142_spk_labels : forall speakers lines, NoDup speakers -> NoDup (map fst lines) ->
  (forall u s, In (u, s) lines -> In s speakers) ->
  exists d, spk_labels speakers (map (fun us => [fst us; snd us]) lines) = Ok d /\ map fst d = map fst lines /\
    forall u s, In (u, s) lines -> exists i, sget u d = Ok i /\ In (s, i) (spk_table speakers) /\ i < List.length speakers /\
      forall u' s', In (u', s') lines -> sget u' d = Ok i -> s' = s.
Proof.
  intros speakers lines Hn Hl Hs. unfold spk_labels.
  assert (G : forall lines pre d0, (forall u s, In (u, s) lines -> In s speakers) ->
    NoDup (map fst (pre ++ lines)%list) -> Forall2 (fun (us : string * string) (ui : string * nat) => fst us = fst ui /\ nth_error speakers (snd ui) = Some (snd us)) pre d0 ->
    exists d, foldM (fun d toks => match toks with [utt; spk] => bindr (index_str spk speakers) (fun i => Ok (sset utt i d)) | _ => Err ValueError end)
      (map (fun us => [fst us; snd us]) lines) d0 = Ok d /\
      Forall2 (fun (us : string * string) (ui : string * nat) => fst us = fst ui /\ nth_error speakers (snd ui) = Some (snd us)) (pre ++ lines)%list d).
  { clear. induction lines as [|[u s] lines IH]; intros pre d0 Hs Hl F.
    - rewrite app_nil_r. exists d0. auto.
    - cbn [map foldM fst snd]. destruct (index_str_ok s speakers (Hs u s (or_introl eq_refl))) as (i & E & Hi). rewrite E. cbn [bindr].
      assert (Hk : map fst d0 = map fst pre).
      { clear - F. induction F as [|a b l l' [H _] F IH]; cbn; congruence. }
      rewrite sset_new.
      2:{ rewrite Hk. rewrite map_app in Hl. cbn in Hl. apply NoDup_remove in Hl. destruct Hl as [_ Hl]. intros H. apply Hl. apply in_app_iff. now left. }
      destruct (IH (pre ++ [(u, s)])%list (d0 ++ [(u, i)])%list) as (d & Ed & Fd).
      + intros u' s' H. apply (Hs u'). now right.
      + rewrite <- app_assoc. exact Hl.
      + apply Forall2_app; auto.
      + exists d. split; [exact Ed|]. rewrite <- app_assoc in Fd. exact Fd. }
  destruct (G lines [] [] Hs Hl (Forall2_nil _)) as (d & Ed & Fd). cbn [app] in Fd. exists d. split; [exact Ed|].
  assert (Hk : map fst d = map fst lines) by (clear - Fd; induction Fd as [|a b l l' [H _] F IH]; cbn; congruence).
  split; [exact Hk|].
  assert (K : forall u s, In (u, s) lines -> exists i, sget u d = Ok i /\ nth_error speakers i = Some s).
  { clear - Fd Hl. induction Fd as [|[u s] [u' i] l l' [H1 H2] F IH]; intros v t Hv; [destruct Hv|]. cbn in *. subst u'.
    inversion Hl as [|? ? Hx Hl']; subst. destruct Hv as [Hv|Hv].
    - injection Hv as -> ->. rewrite String.eqb_refl. eauto.
    - destruct (String.eqb_spec v u) as [->|N].
      + exfalso. apply Hx. apply in_map_iff. exists (u, t). auto.
      + auto. }
  intros u s Hu. destruct (K u s Hu) as (i & E & Hi). exists i. repeat split; auto.
  - unfold spk_table. assert (Li : i < List.length speakers) by (apply nth_error_Some; congruence).
    assert (X : forall (l : list string) b i s, nth_error l i = Some s -> In (s, b + i) (combine l (seq b (List.length l)))).
    { clear. induction l as [|x l IH]; intros b [|i] s H; cbn in *; try discriminate.
      - injection H as ->. left. f_equal. lia.
      - right. replace (b + S i) with (S b + i) by lia. auto. }
    apply (X speakers 0 i s Hi).
  - apply nth_error_Some. congruence.
  - intros u' s' Hu' E'. destruct (K u' s' Hu') as (j & Ej & Hj). congruence.
Qed.
Example C142_example :
  best_path [(0, "a"); (1, "a"); (2, "b")] [("a", 7); ("b", 3)] [0; 0; 1; 2; 2; 0; 1] = Ok [7; 3; 7] /\
  best_path [(0, "a"); (1, "a")] [("a", 7)] [0; 1; 0; 1] = Ok [7] /\
  spk_labels ["s2"; "s1"] [["u1"; "s1"]; ["u2"; "s2"]; ["u3"; "s1"]] = Ok [("u1", 1); ("u2", 0); ("u3", 1)].
Proof. repeat split; reflexivity. Qed.

(** ** The whole programs *)
Lemma load_transcript_total lines : Forall (fun l => l <> []) lines -> exists d, load_transcript lines = Ok d.
Proof.
  intros H. unfold load_transcript. generalize (@nil (string * list string)).
  induction H as [|l lines Hn Hl IH]; intros d0; cbn; eauto. destruct l as [|u t]; [congruence|]. cbn. apply IH.
Qed.
Lemma load_transcript_empty_line lines : In [] lines -> load_transcript lines = Err IndexError.
Proof.
  unfold load_transcript. generalize (@nil (string * list string)).
  induction lines as [|l lines IH]; intros d0 H; [destruct H|]. cbn. destruct l as [|u t]; [reflexivity|]. cbn.
  destruct H as [H|H]; [discriminate|]. now apply IH.
Qed.
Lemma sset_keys {A} k (v : A) d k' : In k' (map fst (sset k v d)) <-> k' = k \/ In k' (map fst d).
Proof.
  induction d as [|[k1 v1] d IH]; cbn; [intuition|]. destruct (String.eqb_spec k k1) as [->|N]; cbn; [intuition|]. rewrite IH. intuition.
Qed.
Lemma sset_nodup {A} k (v : A) d : NoDup (map fst d) -> NoDup (map fst (sset k v d)).
Proof.
  induction d as [|[k1 v1] d IH]; cbn; intros H; [repeat constructor; auto|]. apply NoDup_cons_iff in H. destruct H as [H1 H2].
  destruct (String.eqb_spec k k1) as [->|N]; cbn; constructor; auto. rewrite sset_keys. intros [E|E]; [congruence|auto].
Qed.
Lemma load_transcript_nodup lines d : load_transcript lines = Ok d -> NoDup (map fst d).
Proof.
  unfold load_transcript. assert (G : NoDup (map fst (@nil (string * list string)))) by constructor. revert G.
  generalize (@nil (string * list string)). induction lines as [|l lines IH]; cbn; intros d0 G H; [now injection H as <-|].
  destruct l as [|u t]; cbn in H; [discriminate|]. eapply IH; [|exact H]. now apply sset_nodup.
Qed.
Lemma sget_in_iff {A} k (v : A) d : NoDup (map fst d) -> sget k d = Ok v <-> In (k, v) d.
Proof.
  induction d as [|[k1 v1] d IH]; cbn; intros H; [split; [discriminate|intros []]|]. apply NoDup_cons_iff in H. destruct H as [H1 H2].
  destruct (String.eqb_spec k k1) as [->|N].
  - split; [intros E; injection E as ->; now left|]. intros [E|E]; [now injection E as ->|]. exfalso. apply H1. apply in_map_iff. now exists (k1, v).
  - rewrite IH by auto. split; [now right|]. intros [E|E]; [congruence|auto].
Qed.

(** maptrans.py: each token is replaced by the second token of the last
    two-token line that starts with it, or else by the default if there is one. *)
Theorem C138_program : forall mapfile d unk out, NoDup (map fst d) ->
  maptrans_main mapfile (map (fun ut => fst ut :: snd ut) d) unk = Ok out <->
  Forall2 (fun ut ut' => fst ut' = fst ut /\
    Forall2 (fun t t' => (exists l1 l2, mapfile = (l1 ++ [t; t'] :: l2)%list /\ forall v, ~ In [t; v] l2) \/
                         ((forall v, ~ In [t; v] mapfile) /\ unk <> "" /\ t' = unk)) (snd ut) (snd ut')) d out.
Proof.
  intros mapfile d unk out Hd. unfold maptrans_main. rewrite (C138_transcript d Hd). cbn [bindr].
  rewrite C138_map_trans. apply Forall2_iff. intros [u t] [u' t']. cbn [fst snd].
  assert (N : forall a, (forall v, sget a (load_mapping mapfile) <> Ok v) <-> forall v, ~ In [a; v] mapfile).
  { intros a. split.
    - intros H v Hv.
      assert (X : exists v l1 l2, mapfile = (l1 ++ [a; v] :: l2)%list /\ forall v', ~ In [a; v'] l2).
      { clear H. revert v Hv. induction mapfile as [|l m IH] using rev_ind; intros v Hv; [destruct Hv|].
        destruct (list_eq_dec string_dec l [a; last l ""]) as [E|E].
        - exists (last l ""), m, []. split; [now rewrite <- E|]. intros v' [].
        - apply in_app_iff in Hv. destruct Hv as [Hv|[Hv|[] ] ].
          + destruct (IH v Hv) as (v1 & l1 & l2 & -> & H2). exists v1, l1, (l2 ++ [l])%list. split; [now rewrite <- app_assoc|].
            intros v' H. apply in_app_iff in H. destruct H as [H|[H|[] ] ]; [now apply (H2 v')|]. apply E. now rewrite H.
          + exfalso. apply E. rewrite Hv. reflexivity. }
      destruct X as (v1 & X). apply C138_mapping in X. now apply (H v1).
    - intros H v Hv. apply C138_mapping in Hv. destruct Hv as (l1 & l2 & -> & _). apply (H v). apply in_app_iff. right. now left. }
  split; intros (E & F); split; auto; revert F; apply Forall2_iff; intros a b; rewrite C138_mapping, N; reflexivity.
Qed.

Theorem C138_empty_line : forall mapfile transfile unk, In [] transfile -> maptrans_main mapfile transfile unk = Err IndexError.
Proof. intros mapfile transfile unk H. unfold maptrans_main. now rewrite load_transcript_empty_line. Qed.

(** add_prefix.py *)
Theorem C140_add_prefix : forall prefix excl lines,
  (forall out, add_prefix prefix excl lines = Ok out <->
    Forall2 (fun l l' => exists u t t', l = u :: t /\ l' = u :: t' /\
      Forall2 (fun a b => (In a excl /\ b = a) \/ (~ In a excl /\ b = (prefix ++ a)%string)) t t') lines out) /\
  (In [] lines -> add_prefix prefix excl lines = Err IndexError).
Proof.
  intros prefix excl lines. split.
  - intros out. unfold add_prefix. rewrite mapM_Forall2. apply Forall2_iff. intros l l'.
    assert (T : forall t t', map (prefix_token prefix excl) t = t' <->
      Forall2 (fun a b => (In a excl /\ b = a) \/ (~ In a excl /\ b = (prefix ++ a)%string)) t t').
    { assert (P : forall a, (In a excl /\ prefix_token prefix excl a = a) \/ (~ In a excl /\ prefix_token prefix excl a = (prefix ++ a)%string)).
      { intros a. unfold prefix_token. destruct (mem_str a excl) eqn:E; [left|right]; split; auto.
        - now apply mem_str_spec.
        - intros H. apply mem_str_spec in H. congruence. }
      intros t t'. split.
      - intros <-. induction t as [|a t IH]; constructor; auto.
      - induction 1 as [|a b t t' H F IH]; [reflexivity|]. cbn. rewrite IH. f_equal.
        destruct (P a) as [(P1 & P2)|(P1 & P2)], H as [(H1 & H2)|(H1 & H2)]; try contradiction; congruence. }
    destruct l as [|u t].
    + split; [discriminate|]. intros (u & t & t' & E & _). discriminate.
    + split.
      * intros E. injection E as <-. exists u, t, (map (prefix_token prefix excl) t). repeat split. now apply T.
      * intros (u1 & t1 & t' & E & -> & F). injection E as <- <-. apply T in F. now rewrite F.
  - unfold add_prefix. induction lines as [|l lines IH]; intros H; [destruct H|]. cbn.
    destruct l as [|u t]; [reflexivity|]. cbn. destruct H as [H|H]; [discriminate|]. now rewrite IH.
Qed.

(** prepare_transcripts.py: [order] are the phones of the lexicon; the utterances
    of known words are written, the others are not. *)
Inductive written (name : nat -> string) (lex : list (list string)) (order : list string)
  : list (string * list string) -> list (list string) -> Prop :=
| wr_nil : written name lex order [] []
| wr_skip u ws w t o : In w ws -> (forall p, ~ In (w :: p) lex) -> written name lex order t o -> written name lex order ((u, ws) :: t) o
| wr_keep u ws ps ns t o : Forall2 (pron lex) ws ps ->
    Forall2 (fun p n => exists i, nth_error order i = Some p /\ n = name (S i)) (concat ps) ns ->
    written name lex order t o -> written name lex order ((u, ws) :: t) ((u :: "sil" :: ns ++ ["sil"])%list :: o).

Theorem C141_program : forall name keep lex text c, Forall (fun l => l <> []) lex -> NoDup (map fst text) ->
  In c (chars (name 0)) -> (forall l, In l lex -> ~ In c (tl l)) ->
  exists order out, alffa_main name keep lex (map (fun ut => fst ut :: snd ut) text) = Ok out /\
    NoDup order /\ (forall p, In p order <-> exists w pr, pron lex w pr /\ In p pr) /\
    written name lex order text out.
Proof.
  intros name keep lex text c Hl Ht Hc Hp. destruct (load_transcript_total lex Hl) as [d Ed].
  assert (Sp := load_transcript_spec lex d Ed). assert (Nd := load_transcript_nodup lex d Ed).
  destruct (C141_ids name d) as (order & No & Ho & Hi & Hin & Hf).
  unfold alffa_main, load_lexicon. rewrite Ed, (C138_transcript text Ht). cbn [bindr].
  eexists order, _. split; [reflexivity|]. split; [exact No|]. split.
  { intros p. rewrite Ho. split; intros (w & pr & H & Hpr); exists w, pr; (split; [|exact Hpr]).
    - apply Sp. now apply sget_in_iff.
    - apply sget_in_iff; auto. now apply Sp. }
  clear Ht. induction text as [|[u ws] text IH]; [constructor|]. cbn [flat_map].
  assert (D : (exists ps, Forall2 (fun w p => sget w d = Ok p) ws ps) \/ (exists w, In w ws /\ forall p, sget w d <> Ok p)).
  { clear. induction ws as [|w ws IH]; [left; exists []; constructor|]. destruct (sget w d) as [p|e] eqn:E.
    - destruct IH as [(ps & F)|(w' & H & N)]; [left; exists (p :: ps); now constructor|right; exists w'; split; [now right|exact N] ].
    - right. exists w. split; [now left|]. intros p. congruence. }
  destruct D as [(ps & F)|(w & Hw & Nw)].
  - destruct (C141_known name d keep u ws ps F) as (ns & -> & Fn). cbn [app]. apply wr_keep with (ps := ps); [| |exact IH].
    + revert F. apply Forall2_iff. intros a b. symmetry. apply Sp.
    + clear F IH. induction Fn as [|p n l l' Hpn Fn IHn]; constructor; [|exact IHn]. assert (Ip := Hin p n Hpn). apply In_nth_error in Ip. destruct Ip as [i Ei].
      exists i. split; [exact Ei|]. rewrite (Hi i p Ei) in Hpn. now injection Hpn as <-.
  - rewrite (C141_unknown_refuted name d keep _ u ws w c Hw Nw Hc).
    + cbn [app]. apply wr_skip with (w := w); auto. intros p Hin'. destruct (pron_exists lex w) as [p' Hp']; [eauto|].
      apply Sp in Hp'. now apply (Nw p').
    + intros w' pr Hwp Hcp. apply sget_in_iff in Hwp; auto. apply Sp in Hwp. destruct Hwp as (l1 & l2 & -> & _).
      apply (Hp (w' :: pr)); [apply in_app_iff; right; now left|exact Hcp].
Qed.

Print Assumptions C138_mapping.
Print Assumptions C138_map_trans.
Print Assumptions C138_unmapped.
Print Assumptions C138_transcript.
Print Assumptions C139_two_steps.
Print Assumptions C139_two_tokens_refuted.
Print Assumptions C139_name_clash_refuted.
Print Assumptions C140_phone_trans.
Print Assumptions C140_prefix_partial.
Print Assumptions C140_prefix_refuted.
Print Assumptions C141_ids.
Print Assumptions C141_ids_injective.
Print Assumptions C141_known.
Print Assumptions C141_unknown_refuted.
Print Assumptions C142_best_path_partial.
Print Assumptions C142_best_path_refuted.
Print Assumptions C142_no_repeat.
Print Assumptions C142_spk_labels.
Print Assumptions C138_program.
Print Assumptions C140_add_prefix.
Print Assumptions C141_program.
Print Assumptions C138_empty_line.
