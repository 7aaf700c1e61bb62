(** C162: nnet-create.py, the values replaced in the configuration file. *)
From Coq Require Import String Ascii List Arith Bool Lia.
From Verif Require Import Prelude Nn_Model Nn_Spec Nn_Proofs Cf_Model.
Import ListNotations.
Local Open Scope char_scope.

(** ** Specification *)

Definition spaces (s : str) : Prop := Forall (fun c => is_space c = true) s.
Definition free_of (c : ascii) (s : str) : Prop := Forall (fun a => a <> c) s.
(** No white space at the ends *)
Definition trimmed (s : str) : Prop :=
  (forall c t, s = c :: t -> is_space c = false) /\ (forall c t, s = t ++ [c] -> is_space c = false).

(** An item of the list: key = value with white space around the key and around
    the value, or something that is not of this form. *)
Inductive item : Type :=
| Assign (s1 k s2 s3 v s4 : str)
| Junk (s : str).
Definition item_text (i : item) : str :=
  match i with Assign s1 k s2 s3 v s4 => s1 ++ k ++ s2 ++ "=" :: s3 ++ v ++ s4 | Junk s => s end.
Definition item_ok (i : item) : Prop :=
  match i with
  | Assign s1 k s2 s3 v s4 => spaces s1 /\ spaces s2 /\ spaces s3 /\ spaces s4 /\ trimmed k /\ trimmed v /\
      free_of "," k /\ free_of "," v /\ free_of "=" k /\ free_of "=" v
  | Junk s => free_of "," s /\ count_occ ascii_dec s "=" <> 1
  end.
(** The value a list of items gives to a key: the last one. *)
Definition assigned (k : str) (items : list item) : option str :=
  fold_left (fun acc i => match i with
                          | Assign _ k' _ _ v _ => if list_eq_dec ascii_dec k k' then Some v else acc
                          | Junk _ => acc
                          end) items None.

(** A template: text, where the braces are doubled, and fields. *)
Inductive piece : Type := Text (s : str) | Field (k : str).
Definition escape (c : ascii) : str :=
  if ascii_dec c "{" then ["{"; "{"] else if ascii_dec c "}" then ["}"; "}"] else [c].
Definition piece_text (p : piece) : str :=
  match p with Text s => concat (map escape s) | Field k => "{" :: k ++ ["}"] end.
Definition digit (c : ascii) : Prop := In c ["0"; "1"; "2"; "3"; "4"; "5"; "6"; "7"; "8"; "9"].
Definition piece_ok (p : piece) : Prop :=
  match p with
  | Text _ => True
  | Field k => (exists c, In c k /\ ~ digit c) /\ forall c, In c k -> ~ In c ["{"; "}"; "."; "["; "!"; ":"]
  end.
Definition piece_value (g : str -> option str) (p : piece) : result str :=
  match p with
  | Text s => Ok s
  | Field k => match g k with Some v => Ok v | None => Err KeyError end
  end.

(** ** strip *)
Lemma lstrip_spaces s t : spaces s -> lstrip (s ++ t) = lstrip t.
Proof. induction 1 as [|c s Hc Hs IH]; [reflexivity|]. cbn. now rewrite Hc. Qed.
Lemma strip_left c s : is_space c = true -> strip (c :: s) = strip s.
Proof. intros H. unfold strip. cbn [lstrip]. now rewrite H. Qed.
Lemma lstrip_app_right s c : is_space c = true -> lstrip (s ++ [c]) = lstrip s ++ (match lstrip s with [] => [] | _ => [c] end).
Proof.
  intros H. induction s as [|a s IH]; cbn; [now rewrite H|]. destruct (is_space a) eqn:E; [exact IH|]. reflexivity.
Qed.
Lemma strip_right c s : is_space c = true -> strip (s ++ [c]) = strip s.
Proof.
  intros H. unfold strip. rewrite lstrip_app_right by auto. destruct (lstrip s) as [|a t]; [reflexivity|].
  rewrite rev_app_distr. cbn [rev app lstrip]. now rewrite H.
Qed.
Lemma strip_trimmed s : trimmed s -> strip s = s.
Proof.
  intros (H1 & H2). unfold strip. replace (lstrip s) with s.
  - destruct s as [|c s _] using rev_ind; [reflexivity|]. rewrite rev_app_distr. cbn [rev app lstrip].
    rewrite (H2 c s eq_refl). cbn [rev]. now rewrite rev_involutive.
  - destruct s as [|c s]; [reflexivity|]. cbn. now rewrite (H1 c s eq_refl).
Qed.
Lemma strip_around s1 k s2 : spaces s1 -> spaces s2 -> trimmed k -> strip (s1 ++ k ++ s2) = k.
Proof.
  intros H1 H2 Hk. rewrite <- (strip_trimmed k Hk) at 2. induction H1 as [|c s1 Hc H1 IH].
  - cbn [app]. induction s2 as [|c s2 IH] using rev_ind; [now rewrite app_nil_r|].
    apply Forall_app in H2. destruct H2 as (H2 & Hc). inversion_clear Hc. rewrite app_assoc, strip_right by auto. auto.
  - cbn [app]. now rewrite strip_left.
Qed.

(** ** split and white space *)
Lemma split_nonempty c s : exists p ps, split_on c s = p :: ps.
Proof. destruct s as [|a s]; [exists [], []; reflexivity|]. cbn. destruct (Ascii.eqb a c); [eauto|]. destruct (split_on c s); eauto. Qed.
Lemma split_cons c a s p ps : a <> c -> split_on c s = p :: ps -> split_on c (a :: s) = (a :: p) :: ps.
Proof. intros H E. cbn. apply Ascii.eqb_neq in H. now rewrite H, E. Qed.
Lemma split_snoc c a s ps p : a <> c -> split_on c s = ps ++ [p] -> split_on c (s ++ [a]) = ps ++ [p ++ [a]].
Proof.
  intros H. revert ps p. induction s as [|b s IH]; intros ps p E.
  - cbn in E. destruct ps as [|q ps]; [|destruct ps; discriminate]. injection E as <-. cbn. apply Ascii.eqb_neq in H. now rewrite H.
  - cbn [app split_on] in *. destruct (Ascii.eqb b c).
    + destruct ps as [|q ps].
      * cbn [app] in E. injection E as E1 E2. destruct (split_nonempty c s) as (q & qs & Eq). congruence.
      * cbn [app] in E. injection E as <- E. rewrite (IH ps p E). reflexivity.
    + destruct (split_nonempty c s) as (q & qs & Eq). rewrite Eq in E. destruct ps as [|q' ps].
      * cbn [app] in E. injection E as <- ->. rewrite (IH [] q Eq). reflexivity.
      * cbn [app] in E. injection E as <- ->. rewrite (IH (q :: ps) p Eq). reflexivity.
Qed.
Lemma space_not c a : is_space a = true -> is_space c = false -> a <> c.
Proof. congruence. Qed.

Lemma set_item_left d c s : is_space c = true -> set_item d (c :: s) = set_item d s.
Proof.
  intros H. unfold set_item. destruct (split_nonempty "=" s) as (p & ps & E).
  rewrite (split_cons _ _ _ _ _ (space_not "=" c H eq_refl) E), E. destruct ps as [|v [|] ]; auto. now rewrite strip_left.
Qed.
Lemma set_item_right d c s : is_space c = true -> set_item d (s ++ [c]) = set_item d s.
Proof.
  intros H. unfold set_item. destruct (split_nonempty "=" s) as (p & ps & E).
  destruct (@exists_last _ (p :: ps)) as (qs & q & Eq); [discriminate|]. rewrite Eq in E.
  rewrite (split_snoc _ _ _ _ _ (space_not "=" c H eq_refl) E), E.
  destruct qs as [|q1 [|q2 qs] ]; cbn [app]; auto.
  - now rewrite strip_right.
  - destruct qs; reflexivity.
Qed.

Lemma fold_strip s d : fold_left set_item (split_on "," (strip s)) d = fold_left set_item (split_on "," s) d.
Proof.
  assert (L : fold_left set_item (split_on "," (lstrip s)) d = fold_left set_item (split_on "," s) d).
  { induction s as [|c s IH]; [reflexivity|]. cbn [lstrip]. destruct (is_space c) eqn:E; [|reflexivity]. rewrite IH.
    destruct (split_nonempty "," s) as (p & ps & Ep). rewrite (split_cons _ _ _ _ _ (space_not "," c E eq_refl) Ep), Ep.
    cbn [fold_left]. now rewrite set_item_left. }
  rewrite <- L. unfold strip. generalize (lstrip s). clear s L. intros s.
  induction s as [|c s IH] using rev_ind; [reflexivity|]. rewrite rev_app_distr. cbn [rev app lstrip].
  destruct (is_space c) eqn:E; [|cbn [rev]; now rewrite rev_involutive]. rewrite IH.
  destruct (split_nonempty "," s) as (p & ps & Ep). destruct (@exists_last _ (p :: ps)) as (qs & q & Eq); [discriminate|].
  rewrite Eq in Ep. rewrite (split_snoc _ _ _ _ _ (space_not "," c E eq_refl) Ep), Ep, !fold_left_app. cbn [fold_left].
  now rewrite set_item_right.
Qed.

Lemma split_count c s : List.length (split_on c s) = S (count_occ ascii_dec s c).
Proof.
  induction s as [|a s IH]; [reflexivity|]. cbn [split_on count_occ]. destruct (ascii_dec a c) as [->|N].
  - rewrite Ascii.eqb_refl. cbn. now rewrite IH.
  - apply Ascii.eqb_neq in N. rewrite N. destruct (split_on c s); cbn in *; lia.
Qed.
Lemma spaces_free c s : is_space c = false -> spaces s -> free_of c s.
Proof. intros H. apply Forall_impl. intros a Ha ->. congruence. Qed.

Lemma set_item_spec d i : item_ok i -> set_item d (item_text i) =
  match i with Assign _ k _ _ v _ => dict_set k v d | Junk _ => d end.
Proof.
  destruct i as [s1 k s2 s3 v s4|s]; cbn [item_ok item_text].
  - intros (H1 & H2 & H3 & H4 & Hk & Hv & _ & _ & Ek & Ev). unfold set_item.
    replace (s1 ++ k ++ s2 ++ "=" :: s3 ++ v ++ s4) with ((s1 ++ k ++ s2) ++ "=" :: (s3 ++ v ++ s4)) by now rewrite <- !app_assoc.
    assert (F : forall s, spaces s -> free_of "=" s) by (intros s; now apply spaces_free).
    rewrite split_on_app, split_on_none; [now rewrite !strip_around| |]; repeat (apply Forall_app; split); auto; now apply F.
  - intros (_ & H). unfold set_item. assert (L := split_count "=" s). destruct (split_on "=" s) as [|a [|b [|c l] ] ]; auto.
    cbn in L. exfalso. apply H. lia.
Qed.

Lemma value_of_set k k' v d : value_of k (dict_set k' v d) = if list_eq_dec ascii_dec k k' then Ok v else value_of k d.
Proof.
  induction d as [|[k1 v1] d IH]; cbn [dict_set value_of].
  - destruct (list_eq_dec ascii_dec k k') as [->|N].
    + now rewrite (proj2 (str_eqb_eq k' k') eq_refl).
    + destruct (str_eqb k k') eqn:E; [apply str_eqb_eq in E; congruence|reflexivity].
  - destruct (str_eqb k' k1) eqn:E1; cbn [value_of].
    + apply str_eqb_eq in E1. subst k1. destruct (list_eq_dec ascii_dec k k') as [->|N].
      * now rewrite (proj2 (str_eqb_eq k' k') eq_refl).
      * destruct (str_eqb k k') eqn:E; [apply str_eqb_eq in E; congruence|reflexivity].
    + rewrite IH. destruct (list_eq_dec ascii_dec k k') as [->|N]; [now rewrite E1|reflexivity].
Qed.

Definition to_result (o : option str) : result str := match o with Some v => Ok v | None => Err KeyError end.

(** The list given with --set: the last value of each key, whatever the white
    space; what is not of the form key=value is ignored. *)
Theorem C162_set : forall items k, items <> [] -> Forall item_ok items ->
  value_of k (set_values (join "," (map item_text items))) = to_result (assigned k items).
Proof.
  intros items k Hn H. unfold set_values. rewrite fold_strip, split_join.
  - unfold assigned. clear Hn. change (Err KeyError) with (value_of k []).
    assert (G : forall d o, value_of k d = to_result o ->
      value_of k (fold_left set_item (map item_text items) d) = to_result (fold_left (fun acc i => match i with
        | Assign _ k' _ _ v _ => if list_eq_dec ascii_dec k k' then Some v else acc | Junk _ => acc end) items o)).
    { induction H as [|i items Hi H IH]; intros d o E; [exact E|]. cbn [map fold_left]. apply IH.
      rewrite set_item_spec by auto. destruct i as [s1 k' s2 s3 v s4|s]; [|exact E].
      rewrite value_of_set. destruct (list_eq_dec ascii_dec k k'); [reflexivity|exact E]. }
    now apply G.
  - destruct items; [congruence|discriminate].
  - apply Forall_map. apply (Forall_impl _ (P := item_ok)); [|exact H]. clear. intros [s1 k s2 s3 v s4|s]; cbn [item_ok item_text].
    + intros (H1 & H2 & H3 & H4 & _ & _ & Ck & Cv & _).
      assert (F : forall s, spaces s -> free_of "," s) by (intros s; now apply spaces_free).
      apply Forall_app; split; [now apply F|]. apply Forall_app; split; [auto|]. apply Forall_app; split; [now apply F|].
      constructor; [discriminate|]. repeat (apply Forall_app; split); auto; now apply F.
    + now intros (H & _).
Qed.

(** ** format *)
Lemma mapM_same {A B} (f g : A -> result B) l : (forall x, In x l -> f x = g x) -> mapM f l = mapM g l.
Proof. induction l as [|x l IH]; intros H; [reflexivity|]. cbn. rewrite H by now left. destruct (g x); cbn; [|reflexivity]. now rewrite IH by (intros; apply H; now right). Qed.
Lemma is_digit_spec c : is_digit c = true <-> digit c.
Proof.
  unfold is_digit, digit. rewrite andb_true_iff, !Nat.leb_le. split.
  - intros H. rewrite <- (ascii_nat_embedding c). remember (nat_of_ascii c) as n eqn:E. clear E.
    assert (D : n = 48 \/ n = 49 \/ n = 50 \/ n = 51 \/ n = 52 \/ n = 53 \/ n = 54 \/ n = 55 \/ n = 56 \/ n = 57) by lia.
    decompose [or] D; subst n; cbn; tauto.
  - intros H. cbn in H. decompose [or] H; subst; try contradiction; cbn; lia.
Qed.
Lemma plain_field k : piece_ok (Field k) -> arg_name k = k /\ forallb is_digit k = false /\ existsb ends_name k = false.
Proof.
  intros ((c & Hc & Hd) & H). split; [|split].
  - clear c Hc Hd. induction k as [|a k IH]; [reflexivity|]. cbn [arg_name].
    destruct (ends_name a) eqn:E.
    + exfalso. apply (H a (or_introl eq_refl)). unfold ends_name in E. rewrite !orb_true_iff, !Ascii.eqb_eq in E. cbn. decompose [or] E; subst; tauto.
    + now rewrite IH by (intros; apply H; now right).
  - destruct (forallb is_digit k) eqn:E; [|reflexivity]. exfalso. apply Hd. apply is_digit_spec. rewrite forallb_forall in E. auto.
  - destruct (existsb ends_name k) eqn:E; [|reflexivity]. exfalso. apply existsb_exists in E. destruct E as (a & Ha & E).
    apply (H a Ha). unfold ends_name in E. rewrite !orb_true_iff, !Ascii.eqb_eq in E. cbn. decompose [or] E; subst; tauto.
Qed.
Lemma format_open values k : (forall c, In c k -> c <> "{" /\ c <> "}") -> forall f rest,
  format values (Some f) (k ++ rest) = format values (Some (rev k ++ f)) rest.
Proof.
  induction k as [|c k IH]; intros H f rest; [reflexivity|]. cbn [app format rev].
  destruct (H c (or_introl eq_refl)) as (N1 & N2). apply Ascii.eqb_neq in N1, N2. rewrite N1, N2, IH by (intros; apply H; now right).
  now rewrite <- app_assoc.
Qed.
Lemma format_text values s : forall rest,
  format values None (concat (map escape s) ++ rest) = bindr (format values None rest) (fun r => Ok (s ++ r)).
Proof.
  induction s as [|c s IH]; intros rest; [cbn; destruct (format values None rest); reflexivity|].
  cbn [map concat]. unfold escape at 1. destruct (ascii_dec c "{") as [->|N1]; [|destruct (ascii_dec c "}") as [->|N2] ].
  - cbn [app format Ascii.eqb]. rewrite IH. cbn. destruct (format values None rest); reflexivity.
  - cbn [app format]. rewrite IH. cbn. destruct (format values None rest); reflexivity.
  - cbn [app format]. apply Ascii.eqb_neq in N1, N2. rewrite N1, N2, IH. destruct (format values None rest); reflexivity.
Qed.
Lemma format_field values k rest : piece_ok (Field k) ->
  format values None ("{" :: k ++ "}" :: rest) = bindr (value_of k values) (fun v => bindr (format values None rest) (fun r => Ok (v ++ r))).
Proof.
  intros H. destruct (plain_field k H) as (E1 & E2 & E3). destruct H as ((c0 & Hc0 & _) & H).
  assert (B : forall c, In c k -> c <> "{" /\ c <> "}").
  { intros c Hc. split; intros ->; apply (H _ Hc); cbn; tauto. }
  destruct k as [|c k]; [destruct Hc0|].
  assert (S1 : format values None ("{" :: (c :: k) ++ "}" :: rest) = format values (Some []) ((c :: k) ++ "}" :: rest)).
  { cbn [app format]. destruct (B c (or_introl eq_refl)) as (N1 & N2). apply Ascii.eqb_neq in N1. now rewrite N1. }
  rewrite S1, format_open, app_nil_r by exact B. cbn [format]. rewrite Ascii.eqb_refl, rev_involutive.
  unfold field. rewrite E1, E2, E3. destruct (value_of (c :: k) values); reflexivity.
Qed.

Lemma format_pieces values ps rest : Forall piece_ok ps ->
  format values None (concat (map piece_text ps) ++ rest) =
  bindr (mapM (piece_value (fun k => match value_of k values with Ok v => Some v | Err _ => None end)) ps) (fun vs =>
  bindr (format values None rest) (fun r => Ok (concat vs ++ r))).
Proof.
  assert (K : forall k e, value_of k values = Err e -> e = KeyError).
  { intros k. induction values as [|[k' v] l IH]; cbn; intros e; [congruence|]. destruct (str_eqb k k'); [discriminate|auto]. }
  induction 1 as [|p ps Hp H IH].
  - cbn. destruct (format values None rest); reflexivity.
  - cbn [map concat mapM]. rewrite <- app_assoc. destruct p as [s|k]; cbn [piece_text piece_value].
    + rewrite format_text, IH. cbn [bindr]. destruct (mapM _ ps); cbn; [|reflexivity]. destruct (format values None rest); cbn; [|reflexivity].
      now rewrite <- app_assoc.
    + replace (("{" :: k ++ ["}"]) ++ concat (map piece_text ps) ++ rest) with ("{" :: k ++ "}" :: (concat (map piece_text ps) ++ rest))
        by (cbn [app]; rewrite <- app_assoc; reflexivity).
      rewrite format_field, IH by exact Hp. destruct (value_of k values) as [v|e] eqn:E; [|rewrite (K k e E); reflexivity].
      cbn [bindr]. destruct (mapM _ ps); cbn; [|reflexivity]. destruct (format values None rest); cbn; [|reflexivity]. now rewrite <- app_assoc.
Qed.

(** The program: every field of the template is replaced by the value given to
    it, doubled braces become simple ones and the rest of the text is kept; the
    first field without value stops the program. *)
Theorem C162_program : forall items ps, items <> [] -> Forall item_ok items -> Forall piece_ok ps ->
  nnet_conf (join "," (map item_text items)) (concat (map piece_text ps)) =
  bindr (mapM (piece_value (fun k => assigned k items)) ps) (fun vs => Ok (concat vs)).
Proof.
  intros items ps Hn Hi Hp. unfold nnet_conf. rewrite <- (app_nil_r (concat (map piece_text ps))), format_pieces by exact Hp.
  rewrite (mapM_same _ (piece_value (fun k => assigned k items))).
  - destruct (mapM _ ps); cbn; [|reflexivity]. now rewrite app_nil_r.
  - intros [s|k]; cbn [piece_value]; [reflexivity|]. intros _. rewrite C162_set by auto. destruct (assigned k items); reflexivity.
Qed.

(** Braces that are not paired are refused: a YAML file with a lone brace cannot
    be used. *)
Theorem C162_unpaired : forall items ps vs c rest, items <> [] -> Forall item_ok items -> Forall piece_ok ps ->
  mapM (piece_value (fun k => assigned k items)) ps = Ok vs ->
  (c <> "}" -> nnet_conf (join "," (map item_text items)) (concat (map piece_text ps) ++ "}" :: c :: rest) = Err ValueError) /\
  nnet_conf (join "," (map item_text items)) (concat (map piece_text ps) ++ ["}"]) = Err ValueError /\
  (free_of "{" rest -> free_of "}" rest ->
   nnet_conf (join "," (map item_text items)) (concat (map piece_text ps) ++ "{" :: rest) = Err ValueError).
Proof.
  intros items ps vs c rest Hn Hi Hp Hv.
  assert (G : forall t, format (set_values (join "," (map item_text items))) None t = Err ValueError ->
    nnet_conf (join "," (map item_text items)) (concat (map piece_text ps) ++ t) = Err ValueError).
  { intros t Ht. unfold nnet_conf. rewrite format_pieces by exact Hp. rewrite (mapM_same _ (piece_value (fun k => assigned k items))).
    - rewrite Hv. cbn [bindr]. now rewrite Ht.
    - intros [s|k]; cbn [piece_value]; [reflexivity|]. intros _. rewrite C162_set by auto. destruct (assigned k items); reflexivity. }
  split; [|split].
  - intros Hc. apply G. cbn [format]. apply Ascii.eqb_neq in Hc. now rewrite Hc.
  - apply G. reflexivity.
  - intros H1 H2. apply G. unfold free_of in *. rewrite Forall_forall in *. cbn [format]. rewrite Ascii.eqb_refl. destruct rest as [|a rest]; [reflexivity|].
    assert (N1 := H1 a (or_introl eq_refl)). apply Ascii.eqb_neq in N1. rewrite N1.
    rewrite <- (app_nil_r (a :: rest)), format_open; [reflexivity|]. intros x Hx. split; auto.
Qed.

(** A field without a name, or with a number for name, is refused whatever the
    values given: they are all named. *)
Theorem C162_positional : forall items ps vs d rest, items <> [] -> Forall item_ok items -> Forall piece_ok ps ->
  mapM (piece_value (fun k => assigned k items)) ps = Ok vs ->
  Forall (fun c => In c ["0"; "1"; "2"; "3"; "4"; "5"; "6"; "7"; "8"; "9"]) d ->
  nnet_conf (join "," (map item_text items)) (concat (map piece_text ps) ++ "{" :: d ++ "}" :: rest) = Err IndexError.
Proof.
  intros items ps vs d rest Hn Hi Hp Hv Hd. unfold nnet_conf. rewrite format_pieces by exact Hp.
  rewrite (mapM_same _ (piece_value (fun k => assigned k items))).
  2:{ intros [s|k]; cbn [piece_value]; [reflexivity|]. intros _. rewrite C162_set by auto. destruct (assigned k items); reflexivity. }
  rewrite Hv. cbn [bindr].
  assert (D : forall c, In c d -> is_digit c = true /\ ends_name c = false /\ c <> "{" /\ c <> "}").
  { intros c Hc. assert (I := proj1 (Forall_forall _ _) Hd c Hc). cbn beta in I.
    repeat (destruct I as [<-|I]; [repeat split; try reflexivity; discriminate|]). destruct I. }
  assert (E : forall values, format values None ("{" :: d ++ "}" :: rest) = format values (Some (rev d)) ("}" :: rest)).
  { intros values. destruct d as [|a d]; [reflexivity|]. cbn [format app]. rewrite Ascii.eqb_refl.
    destruct (D a (or_introl eq_refl)) as (_ & _ & N1 & N2).
    apply Ascii.eqb_neq in N1, N2. rewrite N1, N2.
    change (format values (Some [a]) (d ++ "}" :: rest) = format values (Some (rev (a :: d))) ("}" :: rest)).
    rewrite format_open; [reflexivity|]. intros x Hx. apply D. now right. }
  rewrite E. cbn [format]. rewrite Ascii.eqb_refl, rev_involutive.
  assert (F : field (set_values (join "," (map item_text items))) d = Err IndexError).
  { unfold field. replace (arg_name d) with d.
    - replace (forallb is_digit d) with true; [reflexivity|]. symmetry. apply forallb_forall. intros c Hc. now apply D.
    - clear - D. induction d as [|c d IH]; [reflexivity|]. cbn [arg_name]. destruct (D c (or_introl eq_refl)) as (_ & -> & _).
      f_equal. apply IH. intros x Hx. apply D. now right. }
  now rewrite F.
Qed.

Definition of_str (s : string) : str := list_ascii_of_string s.
Example ex_C162_set : Forall item_ok [Assign [" "] (of_str "dim_in") [] [] (of_str "13") [" "]; Junk (of_str "a=b=c"); Assign [] (of_str "dim_in") [] [] (of_str "26") [] ] /\
  join "," (map item_text [Assign [" "] (of_str "dim_in") [] [] (of_str "13") [" "]; Junk (of_str "a=b=c"); Assign [] (of_str "dim_in") [] [] (of_str "26") [] ]) =
  of_str " dim_in=13 ,a=b=c,dim_in=26".
Proof.
  split; [|reflexivity].
  assert (T : forall s, (match s with [] => true | c :: _ => negb (is_space c) end) = true -> (match rev s with [] => true | c :: _ => negb (is_space c) end) = true -> trimmed s).
  { intros s H1 H2. split.
    - intros c t ->. now apply negb_true_iff.
    - intros c t ->. rewrite rev_app_distr in H2. now apply negb_true_iff. }
  repeat constructor; try discriminate; try apply T; try reflexivity.
Qed.
Example ex_C162 :
  nnet_conf (of_str " dim_in=13 ,a=b=c,dim_in=26, width = 64") (of_str "nnet: {dim_in} x {width} {{}}") = Ok (of_str "nnet: 26 x 64 {}") /\
  nnet_conf (of_str "dim_in=13") (of_str "{start_id: 0}") = Err KeyError /\
  nnet_conf (of_str "") (of_str "a {} b") = Err IndexError.
Proof. repeat split; reflexivity. Qed.

Print Assumptions C162_set.
Print Assumptions C162_program.
Print Assumptions C162_unpaired.
