(** Proofs about the transcription of text by letters. *)
From Coq Require Import Ascii String List Arith Bool Lia Permutation DecimalString DecimalNat.
From Verif Require Import Prelude Gl_Model Gl_Spec.
Import ListNotations.

Lemma weqb_spec a b : reflect (a = b) (weqb a b).
Proof. unfold weqb. destruct (list_eq_dec Nat.eq_dec a b); now constructor. Qed.

(** ** Sorting *)

Lemma insert_perm c w : Permutation (insert_char c w) (c :: w).
Proof.
  induction w as [|a w IH]; [reflexivity|]. cbn [insert_char].
  destruct (c <=? a); [reflexivity|]. rewrite IH. apply perm_swap.
Qed.

Lemma sort_perm w : Permutation (sort_chars w) w.
Proof. induction w as [|c w IH]; [reflexivity|]. cbn [sort_chars]. rewrite insert_perm. now constructor. Qed.

Lemma insert_comm a b w : insert_char a (insert_char b w) = insert_char b (insert_char a w).
Proof.
  induction w as [|x w IH]; cbn [insert_char].
  - destruct (Nat.leb_spec a b), (Nat.leb_spec b a); try reflexivity; [replace a with b by lia; reflexivity|lia].
  - destruct (Nat.leb_spec a x) as [A|A], (Nat.leb_spec b x) as [B|B]; cbn [insert_char];
      repeat (match goal with |- context [?u <=? ?v] => destruct (Nat.leb_spec u v) end); try lia; try reflexivity.
    + replace a with b by lia. reflexivity.
    + now rewrite IH.
Qed.

Lemma sort_eq p q : Permutation p q -> sort_chars p = sort_chars q.
Proof.
  induction 1 as [|x l l' _ IH|x y l|l l' l'' _ IH1 _ IH2]; cbn [sort_chars].
  - reflexivity.
  - now rewrite IH.
  - apply insert_comm.
  - congruence.
Qed.

Lemma sort_iff p q : sort_chars p = sort_chars q <-> Permutation p q.
Proof.
  split; [|apply sort_eq]. intros E. rewrite <- (sort_perm p), E. apply sort_perm.
Qed.

Lemma sort_not_sil p : sort_chars p <> w_sil.
Proof.
  intros E. assert (H : sort_chars (sort_chars p) = sort_chars p) by apply sort_eq, sort_perm.
  rewrite E in H. discriminate.
Qed.

(** ** Cutting words *)

Section Cut.
  Variable combining : nat -> bool.
  Notation glued := (glued combining).
  Notation cut := (cut combining).

  Lemma letter_step_spec ps c :
    (glued (last ps []) c /\ letter_step combining ps c = add_last ps c) \/
    (~ glued (last ps []) c /\ letter_step combining ps c = ps ++ [[c]]).
  Proof.
    unfold letter_step, glued. destruct (combining c); [left; auto|].
    destruct (Nat.eqb_spec c ch_b) as [->|N]; cbn [andb].
    - destruct (weqb_spec (last ps []) [ch_g]) as [E|E]; [left; auto|].
      right. split; [|reflexivity]. intros [H|[_ H]]; [discriminate|]. now elim E.
    - right. split; [|reflexivity]. intros [H|[H _]]; [discriminate|]. now elim N.
  Qed.

  Lemma split_snoc w c : w <> [] -> split_word combining (w ++ [c]) = letter_step combining (split_word combining w) c.
  Proof. destruct w as [|a w]; [easy|]. intros _. cbn [app split_word]. now rewrite fold_left_app. Qed.

  Lemma app_snoc_inv {A} (u : list A) x v y : u ++ [x] = v ++ [y] -> u = v /\ x = y.
  Proof. apply app_inj_tail. Qed.

  Lemma snoc_cases {A} (l : list A) : l = [] \/ exists u x, l = u ++ [x].
  Proof. destruct l as [|a l]; [now left|right]. destruct (exists_last (l := a :: l) ltac:(easy)) as (u & x & E). eauto. Qed.

  (** A character at the end of a word. *)
  Lemma cut_snoc w l p c : cut w (l ++ [p]) -> glued p c -> cut (w ++ [c]) (l ++ [p ++ [c]]).
  Proof.
    intros [H1 H2 H3 H4] G. constructor.
    - rewrite <- H1, !concat_app. simpl. rewrite !app_nil_r. now rewrite app_assoc.
    - intros H. apply in_app_iff in H. destruct H as [H|[H|[]]]; [apply H2, in_app_iff; auto|].
      now apply app_eq_nil in H as [_ ?].
    - intros q u x v Hq E Hu. apply in_app_iff in Hq. destruct Hq as [Hq|[<-|[]]].
      + apply (H3 q u x v); auto. apply in_app_iff. auto.
      + destruct (snoc_cases v) as [->|(v' & y & ->)].
        * apply app_inj_tail in E. destruct E as [<- <-]. exact G.
        * rewrite app_comm_cons, app_assoc in E. apply app_inj_tail in E. destruct E as [E _].
          apply (H3 p u x v'); auto. apply in_app_iff. right. now left.
    - intros l' q x r s E. destruct (snoc_cases s) as [->|(s' & y & ->)].
      + replace (l' ++ [q; x :: r]) with ((l' ++ [q]) ++ [x :: r]) in E by (now rewrite <- app_assoc).
        apply app_inj_tail in E. destruct E as [-> E].
        destruct p as [|p0 p']; [exfalso; apply H2, in_app_iff; right; now left|].
        injection E as -> _. apply (H4 l' q x p' []). now rewrite <- app_assoc.
      + replace (l' ++ q :: (x :: r) :: s' ++ [y]) with ((l' ++ q :: (x :: r) :: s') ++ [y]) in E
          by (now rewrite <- app_assoc).
        apply app_inj_tail in E. destruct E as [-> _]. apply (H4 l' q x r (s' ++ [p])).
        now rewrite <- app_assoc.
  Qed.

  Lemma cut_new w ps c : cut w ps -> ps <> [] -> ~ glued (last ps []) c -> cut (w ++ [c]) (ps ++ [[c]]).
  Proof.
    intros [H1 H2 H3 H4] Hne G. constructor.
    - now rewrite concat_app, H1.
    - intros H. apply in_app_iff in H. destruct H as [H|[H|[]]]; [auto|discriminate].
    - intros q u x v Hq E Hu. apply in_app_iff in Hq. destruct Hq as [Hq|[<-|[]]].
      + now apply (H3 q u x v).
      + destruct u as [|u0 u]; [easy|]. injection E as _ E. destruct u; discriminate.
    - intros l' q x r s E. destruct (snoc_cases s) as [->|(s' & y & ->)].
      + replace (l' ++ [q; x :: r]) with ((l' ++ [q]) ++ [x :: r]) in E by (now rewrite <- app_assoc).
        apply app_inj_tail in E. destruct E as [-> E]. injection E as -> _. now rewrite last_last in G.
      + replace (l' ++ q :: (x :: r) :: s' ++ [y]) with ((l' ++ q :: (x :: r) :: s') ++ [y]) in E
          by (now rewrite <- app_assoc).
        apply app_inj_tail in E. destruct E as [-> _]. now apply (H4 l' q x r s').
  Qed.

  Lemma cut_one c : cut [c] [[c]].
  Proof.
    constructor.
    - reflexivity.
    - intros [H|[]]. discriminate.
    - intros p u x v [<-|[]] E Hu. destruct u as [|u0 u]; [easy|]. injection E as _ E. destruct u; discriminate.
    - intros l p x q r E. destruct l as [|l0 [|l1 l]]; discriminate.
  Qed.

  Lemma split_cut : forall w, w <> [] -> cut w (split_word combining w) /\ split_word combining w <> [].
  Proof.
    induction w as [|c w IH] using rev_ind; [easy|]. intros _.
    destruct (snoc_cases w) as [->|(w' & x & Ew)].
    - cbn. split; [apply cut_one|discriminate].
    - assert (Hw : w <> []) by (rewrite Ew; now destruct w'). destruct (IH Hw) as [C N].
      rewrite split_snoc by auto. destruct (letter_step_spec (split_word combining w) c) as [[G ->]|[G ->]].
      + destruct (exists_last N) as (l & p & E). rewrite E in *. unfold add_last.
        rewrite removelast_last, last_last in *. split; [now apply cut_snoc|]. now destruct l.
      + split; [now apply cut_new|]. intros H. now apply app_eq_nil in H as [_ ?].
  Qed.

  (** ... and back *)
  Lemma cut_last_inv w c ps : w <> [] -> cut (w ++ [c]) ps ->
    (exists l p, ps = l ++ [p ++ [c]] /\ glued p c /\ cut w (l ++ [p])) \/
    (exists l, ps = l ++ [[c]] /\ l <> [] /\ ~ glued (last l []) c /\ cut w l).
  Proof.
    intros Hw [H1 H2 H3 H4]. destruct (snoc_cases ps) as [->|(l & q & ->)].
    { simpl in H1. now destruct w. }
    destruct (snoc_cases q) as [->|(p & x & ->)]; [exfalso; apply H2, in_app_iff; right; now left|].
    rewrite concat_app in H1. simpl in H1. rewrite app_nil_r, app_assoc in H1. apply app_inj_tail in H1.
    destruct H1 as [H1 ->]. destruct p as [|p0 p'].
    - right. exists l. rewrite app_nil_r in H1. split; [reflexivity|].
      assert (Hl : l <> []) by (intros ->; now elim Hw). split; [exact Hl|]. split.
      + destruct (exists_last Hl) as (l' & y & ->). rewrite last_last.
        apply (H4 l' y c [] []). now rewrite <- app_assoc.
      + constructor; auto.
        * intros H. apply H2, in_app_iff. auto.
        * intros r u x v Hr. apply H3, in_app_iff. auto.
        * intros l' r x q s E. apply (H4 l' r x q (s ++ [[c]])). rewrite E. now rewrite <- app_assoc.
    - left. exists l, (p0 :: p'). split; [reflexivity|]. split.
      + apply (H3 ((p0 :: p') ++ [c]) (p0 :: p') c []); [apply in_app_iff; right; now left|reflexivity|discriminate].
      + constructor.
        * rewrite concat_app. simpl. rewrite app_nil_r. exact H1.
        * intros H. apply in_app_iff in H. destruct H as [H|[H|[]]]; [apply H2, in_app_iff; auto|discriminate].
        * intros r u x v Hr E Hu. apply in_app_iff in Hr. destruct Hr as [Hr|[<-|[]]].
          -- apply (H3 r u x v); auto. apply in_app_iff. auto.
          -- apply (H3 ((p0 :: p') ++ [c]) u x (v ++ [c])); auto; [apply in_app_iff; right; now left|].
             rewrite E, <- app_assoc. reflexivity.
        * intros l' r x q s E. destruct (snoc_cases s) as [->|(s' & y & ->)].
          -- replace (l' ++ [r; x :: q]) with ((l' ++ [r]) ++ [x :: q]) in E by (now rewrite <- app_assoc).
             apply app_inj_tail in E. destruct E as [-> E]. injection E as -> ->.
             apply (H4 l' r x (q ++ [c]) []). rewrite <- app_assoc. reflexivity.
          -- replace (l' ++ r :: (x :: q) :: s' ++ [y]) with ((l' ++ r :: (x :: q) :: s') ++ [y]) in E
               by (now rewrite <- app_assoc).
             apply app_inj_tail in E. destruct E as [-> _].
             apply (H4 l' r x q (s' ++ [(p0 :: p') ++ [c]])). now rewrite <- app_assoc.
  Qed.

  Lemma cut_split : forall w ps, w <> [] -> cut w ps -> split_word combining w = ps.
  Proof.
    induction w as [|c w IH] using rev_ind; [easy|]. intros ps _ C.
    destruct (snoc_cases w) as [->|(w' & x & Ew)].
    - cbn. destruct C as [H1 H2 _ _]. simpl in H1.
      destruct ps as [|[|p0 p] ps]; [discriminate|exfalso; apply H2; now left|].
      simpl in H1. injection H1 as -> H1. apply app_eq_nil in H1. destruct H1 as [-> H1].
      destruct ps as [|q ps]; [reflexivity|]. simpl in H1. apply app_eq_nil in H1. destruct H1 as [-> _].
      exfalso. apply H2. right. now left.
    - assert (Hw : w <> []) by (rewrite Ew; now destruct w'). rewrite split_snoc by auto.
      destruct (cut_last_inv w c ps Hw C) as [(l & p & -> & G & C')|(l & -> & Hl & G & C')].
      + rewrite (IH _ Hw C'). destruct (letter_step_spec (l ++ [p]) c) as [[_ ->]|[N _]].
        * unfold add_last. now rewrite removelast_last, last_last.
        * rewrite last_last in N. contradiction.
      + rewrite (IH _ Hw C'). destruct (letter_step_spec l c) as [[N _]|[_ ->]]; [contradiction|reflexivity].
  Qed.

  Lemma cut_iff w ps : cut w ps <-> ps = split_word combining w.
  Proof.
    destruct w as [|a w].
    - cbn. split.
      + intros [H1 H2 _ _]. destruct ps as [|[|p0 p] ps]; [reflexivity|exfalso; apply H2; now left|discriminate].
      + intros ->. constructor; try easy. intros l p c q r E. destruct l; discriminate.
    - split; [intros H; symmetry; now apply cut_split|]. intros ->. now apply split_cut.
  Qed.
End Cut.

(** ** Dictionaries *)

Lemma kset_fresh {A} k (v : A) d : ~ In k (map fst d) -> kset k v d = d ++ [(k, v)].
Proof.
  induction d as [|[k' v'] d IH]; intros H; [reflexivity|]. cbn [kset].
  destruct (weqb_spec k k') as [->|N]; [exfalso; apply H; now left|]. rewrite IH; [reflexivity|].
  intros Hi. apply H. now right.
Qed.

Lemma kget_in {A} k (v : A) d : kget k d = Ok v -> In (k, v) d.
Proof.
  induction d as [|[k' v'] d IH]; cbn [kget]; [discriminate|].
  destruct (weqb_spec k k') as [->|N]; [intros [= ->]; now left|]. intros H. right. auto.
Qed.

Lemma kget_ok {A} k (v : A) d : NoDup (map fst d) -> In (k, v) d -> kget k d = Ok v.
Proof.
  induction d as [|[k' v'] d IH]; intros ND H; [contradiction|]. cbn [map fst] in ND. inversion ND as [|? ? N1 N2]; subst.
  cbn [kget]. destruct (weqb_spec k k') as [->|N].
  - destruct H as [[= ->]|H]; [reflexivity|]. exfalso. apply N1. now apply (in_map fst) in H.
  - destruct H as [[= -> ->]|H]; [now elim N|auto].
Qed.

Lemma khas_spec {A} k (d : list (list nat * A)) : khas k d = true <-> In k (map fst d).
Proof.
  unfold khas. induction d as [|[k' v'] d IH]; cbn [kget map fst In]; [easy|].
  destruct (weqb_spec k k') as [->|N]; [tauto|]. rewrite IH. split; [auto|]. intros [E|H]; [now elim N|auto].
Qed.

Lemma kget_app {A} k (d e : list (list nat * A)) v : kget k d = Ok v -> kget k (d ++ e) = Ok v.
Proof.
  induction d as [|[k' v'] d IH]; cbn [kget app]; [discriminate|]. now destruct (weqb k k').
Qed.

(** ** Names of units *)

Fixpoint has_underscore (s : string) : bool :=
  match s with
  | EmptyString => false
  | String a t => Ascii.eqb a "_"%char || has_underscore t
  end.

Lemma unit_name_underscore lang n : has_underscore (unit_name lang n) = true.
Proof.
  unfold unit_name. induction lang as [|a t IH]; [reflexivity|].
  cbn [append]. cbn [append] in IH. cbn [has_underscore]. rewrite IH. apply orb_true_r.
Qed.

Lemma unit_name_not_sil lang n : unit_name lang n <> "sil"%string.
Proof. intros E. assert (H := unit_name_underscore lang n). rewrite E in H. discriminate. Qed.

Lemma unit_name_inj lang n m : unit_name lang n = unit_name lang m -> n = m.
Proof.
  unfold unit_name. induction lang as [|a t IH]; cbn [append].
  - intros [= H]. assert (E : Some (Nat.to_uint n) = Some (Nat.to_uint m)) by (rewrite <- !NilEmpty.usu; now f_equal).
    injection E as E. now apply Unsigned.to_uint_inj.
  - intros [= H]. auto.
Qed.

(** ** The table of units *)

Section Table.
  Variable lang : string.

  Record table_ok (d : list (list nat * string)) : Prop := {
    tk_sil : exists d', d = (w_sil, "sil"%string) :: d';
    tk_keys : NoDup (map fst d);
    tk_sorted : forall k, In k (map fst d) -> k = w_sil \/ sort_chars k = k;
    tk_names : map snd d = "sil"%string :: map (unit_name lang) (seq 2 (length d - 1))
  }.

  Lemma table_start : table_ok [(w_sil, "sil"%string)].
  Proof.
    constructor; [now exists []| |intros k [<-|[]]; now left|reflexivity].
    constructor; [easy|constructor].
  Qed.

  Lemma sort_sort p : sort_chars (sort_chars p) = sort_chars p.
  Proof. apply sort_eq, sort_perm. Qed.

  Lemma add_phone_ok d p : table_ok d -> exists e, add_phone lang d p = d ++ e /\ table_ok (d ++ e) /\
    In (sort_chars p) (map fst (d ++ e)) /\ (forall k, In k (map fst e) -> k = sort_chars p).
  Proof.
    intros [(d0 & E0) K So N]. unfold add_phone. destruct (khas (sort_chars p) d) eqn:H.
    - exists []. rewrite app_nil_r. split; [reflexivity|]. split; [constructor; eauto|]. split; [now apply khas_spec|easy].
    - assert (Hn : ~ In (sort_chars p) (map fst d)) by (intros Hi; apply khas_spec in Hi; congruence).
      rewrite kset_fresh by auto. eexists. split; [reflexivity|]. split.
      + constructor.
        * exists (d0 ++ [(sort_chars p, unit_name lang (length d + 1))]). now rewrite E0.
        * rewrite map_app. simpl. apply (Permutation_NoDup (Permutation_cons_append (map fst d) (sort_chars p))).
          now constructor.
        * intros k Hk. rewrite map_app in Hk. apply in_app_iff in Hk. destruct Hk as [Hk|[<-|[]]]; [auto|].
          right. apply sort_sort.
        * assert (Hl : (length d <> 0)%nat) by (rewrite E0; discriminate).
          rewrite map_app, N, app_length. simpl length. replace (length d + 1 - 1)%nat with (S (length d - 1)) by lia.
          rewrite seq_S, map_app. simpl. do 3 f_equal. f_equal. lia.
      + split; [rewrite map_app; apply in_app_iff; right; now left|]. now intros k [<-|[]].
  Qed.

  Lemma add_phones_ok : forall ps d, table_ok d -> exists e, fold_left (add_phone lang) ps d = d ++ e /\ table_ok (d ++ e) /\
    (forall p, In p ps -> In (sort_chars p) (map fst (d ++ e))) /\
    (forall k, In k (map fst e) -> exists p, In p ps /\ k = sort_chars p).
  Proof.
    induction ps as [|p ps IH]; intros d T; cbn [fold_left].
    - exists []. rewrite app_nil_r. repeat split; auto; try apply T; now intros.
    - destruct (add_phone_ok d p T) as (e & -> & T' & Hi & He).
      destruct (IH _ T') as (f & E & T2 & Hj & Hf). exists (e ++ f). rewrite E, <- app_assoc.
      split; [reflexivity|]. rewrite app_assoc. split; [exact T2|]. split.
      + intros q [<-|Hq]; [|auto]. rewrite map_app. apply in_app_iff. auto.
      + intros k Hk. rewrite map_app in Hk. apply in_app_iff in Hk. destruct Hk as [Hk|Hk].
        * exists p. split; [now left|auto].
        * destruct (Hf k Hk) as (q & Hq & ->). exists q. split; [now right|reflexivity].
  Qed.

  Lemma table_nth d i : table_ok d -> (0 < i < length d)%nat ->
    nth i (map snd d) EmptyString = unit_name lang (i + 1).
  Proof.
    intros [_ _ _ N] Hi. rewrite N. destruct i as [|i]; [lia|]. cbn [nth].
    rewrite (nth_indep _ EmptyString (unit_name lang 0)) by (rewrite map_length, seq_length; lia).
    rewrite map_nth, seq_nth by lia. f_equal. lia.
  Qed.

  (** Different entries have different names. *)
  Lemma table_inj d k k' v : table_ok d -> In (k, v) d -> In (k', v) d -> k = k'.
  Proof.
    intros T H H'. assert (ND : NoDup (map snd d)).
    { destruct T as [_ _ _ ->]. constructor.
      - intros Hi. apply in_map_iff in Hi. destruct Hi as (n & E & _). now apply unit_name_not_sil in E.
      - apply FinFun.Injective_map_NoDup; [intros n m; apply unit_name_inj|apply seq_NoDup]. }
    clear T. induction d as [|[a b] d IH]; [contradiction|]. inversion ND as [|? ? N1 N2]; subst.
    destruct H as [[= -> ->]|H], H' as [[= ->]|H']; auto.
    - exfalso. apply N1. now apply (in_map snd) in H'.
    - subst. exfalso. apply N1. now apply (in_map snd) in H.
  Qed.

  Lemma table_not_sil d k v : table_ok d -> In (k, v) d -> k <> w_sil -> v <> "sil"%string.
  Proof.
    intros T H N ->. apply N. apply (table_inj d k w_sil "sil" T H). destruct T as [(d' & ->) _ _ _]. now left.
  Qed.

  (** The name of a phone *)
  Definition name_in (d : list (list nat * string)) (p : list nat) : string :=
    match kget (sort_chars p) d with Ok s => s | Err _ => EmptyString end.

  Lemma name_in_spec d p : table_ok d -> In (sort_chars p) (map fst d) ->
    kget (sort_chars p) d = Ok (name_in d p) /\ In (sort_chars p, name_in d p) d.
  Proof.
    intros T Hi. apply khas_spec in Hi. unfold khas in Hi. unfold name_in.
    destruct (kget (sort_chars p) d) eqn:E; [|discriminate]. split; [reflexivity|]. now apply kget_in.
  Qed.

  Lemma name_in_app d e p : In (sort_chars p) (map fst d) -> name_in (d ++ e) p = name_in d p.
  Proof.
    intros Hi. apply khas_spec in Hi. unfold khas in Hi. unfold name_in.
    destruct (kget (sort_chars p) d) eqn:E; [|discriminate]. now rewrite (kget_app _ _ _ _ E).
  Qed.

  Lemma name_not_sil d p : table_ok d -> In (sort_chars p) (map fst d) -> name_in d p <> "sil"%string.
  Proof.
    intros T Hi. destruct (name_in_spec d p T Hi) as [_ H]. apply (table_not_sil d _ _ T H), sort_not_sil.
  Qed.

  Lemma mapM_ext {A B} (f : A -> result B) (g : A -> B) l : (forall x, In x l -> f x = Ok (g x)) -> mapM f l = Ok (map g l).
  Proof.
    induction l as [|x l IH]; intros H; [reflexivity|]. cbn [mapM map]. rewrite H by now left. cbn [bindr].
    rewrite IH by (intros; apply H; now right). reflexivity.
  Qed.

  (** *** Utterances *)
  Variables (isalnum combining : nat -> bool) (lower : nat -> list nat) (diacritics : bool).

  Definition ev_of (w : list nat) : event :=
    if match w with c :: _ => c =? ch_bracket | [] => false end then Marker
    else Phones (split_word combining (clean isalnum combining lower diacritics w)).
  Definition ev_phones (e : event) : list (list nat) := match e with Marker => [] | Phones ps => ps end.

  Definition talking (t : list (list string)) : bool :=
    match t with [] => false | _ => if list_eq_dec string_dec (last t []) ["sil"%string] then false else true end.

  Notation do_word := (do_word isalnum combining lower lang diacritics).

  Lemma do_word_ok d t w : table_ok d -> exists e t', do_word (d, t) w = Ok (d ++ e, t') /\ table_ok (d ++ e) /\
    (forall p, In p (ev_phones (ev_of w)) -> In (sort_chars p) (map fst (d ++ e))) /\
    (forall k, In k (map fst e) -> exists p, In p (ev_phones (ev_of w)) /\ k = sort_chars p) /\
    (forall name r, (forall p, In p (ev_phones (ev_of w)) -> name p = name_in (d ++ e) p) ->
       concat t' ++ render (talking t') name r = concat t ++ render (talking t) name (ev_of w :: r)).
  Proof.
    intros T. unfold ev_of. cbn [Gl_Model.do_word].
    destruct (match w with c :: _ => c =? ch_bracket | [] => false end).
    - assert (Z : d ++ [] = d) by apply app_nil_r. cbn [ev_phones].
      destruct t as [|t0 t].
      { exists [], []. rewrite Z. repeat split; try apply T; try easy. }
      destruct (list_eq_dec string_dec (last (t0 :: t) []) ["sil"%string]) as [E|E].
      { exists [], (t0 :: t). rewrite Z. repeat split; try apply T; try easy.
        intros name r _. unfold talking. destruct (list_eq_dec _ _ _); [|contradiction]. reflexivity. }
      exists [], ((t0 :: t) ++ [["sil"%string]]). rewrite Z. split; [reflexivity|].
      split; [exact T|]. split; [easy|]. split; [easy|].
      intros name r _. rewrite concat_app. unfold talking at 2. destruct (list_eq_dec _ _ _); [contradiction|].
      cbn [render concat]. replace (talking ((t0 :: t) ++ [["sil"%string]])) with false.
      + simpl. now rewrite <- !app_assoc.
      + unfold talking. rewrite last_last. cbn [app]. now destruct (list_eq_dec _ _ _).
    - cbn [ev_phones]. destruct (split_word combining (clean isalnum combining lower diacritics w)) as [|p0 ps0] eqn:Eps.
      { exists [], t. rewrite app_nil_r. split; [reflexivity|]. split; [exact T|]. split; [easy|]. split; [easy|].
        intros name r _. reflexivity. }
      set (ps := p0 :: ps0) in *.
      destruct (add_phones_ok ps d T) as (e & E & T' & Hin & He).
      exists e, (t ++ [map (name_in (d ++ e)) ps]). unfold ps at 1. cbv zeta. fold ps. rewrite E. split.
      { rewrite (mapM_ext _ (name_in (d ++ e))).
        - reflexivity.
        - intros p Hp. now apply name_in_spec, Hin. }
      split; [exact T'|]. split; [exact Hin|]. split; [exact He|].
      intros name r Hn. rewrite concat_app. simpl concat. rewrite app_nil_r, <- app_assoc. f_equal.
      replace (talking (t ++ [map (name_in (d ++ e)) ps])) with true.
      + change (render (talking t) name (Phones ps :: r)) with (map name ps ++ render true name r). f_equal.
        change (map (name_in (d ++ e)) ps = map name ps). apply map_ext_in. intros p Hp. now rewrite Hn.
      + unfold talking. rewrite last_last. destruct (t ++ [map (name_in (d ++ e)) ps]) eqn:Et; [now destruct t|].
        destruct (list_eq_dec _ _ _) as [Es|]; [|reflexivity]. exfalso. unfold ps in Es. cbn [map] in Es. injection Es as Es _.
        apply (name_not_sil (d ++ e) p0 T') in Es; [exact Es|]. apply Hin. now left.
  Qed.

  Lemma do_words_ok : forall ws d t, table_ok d -> exists e t', foldM do_word ws (d, t) = Ok (d ++ e, t') /\ table_ok (d ++ e) /\
    (forall p, In p (flat_map ev_phones (map ev_of ws)) -> In (sort_chars p) (map fst (d ++ e))) /\
    (forall k, In k (map fst e) -> exists p, In p (flat_map ev_phones (map ev_of ws)) /\ k = sort_chars p) /\
    concat t' = concat t ++ render (talking t) (name_in (d ++ e)) (map ev_of ws).
  Proof.
    induction ws as [|w ws IH]; intros d t T; cbn [foldM map flat_map].
    - exists [], t. rewrite app_nil_r. split; [reflexivity|]. split; [exact T|]. split; [easy|]. split; [easy|].
      cbn [render]. now rewrite app_nil_r.
    - destruct (do_word_ok d t w T) as (e & t1 & -> & T1 & H1 & K1 & R1). cbn [bindr].
      destruct (IH _ t1 T1) as (f & t' & -> & T2 & H2 & K2 & R2).
      exists (e ++ f), t'. rewrite <- app_assoc. split; [reflexivity|]. rewrite app_assoc. split; [exact T2|]. split.
      { intros p Hp. apply in_app_iff in Hp. destruct Hp as [Hp|Hp]; [|auto].
        rewrite map_app. apply in_app_iff. left. auto. }
      split.
      { intros k Hk. rewrite map_app in Hk. apply in_app_iff in Hk. destruct Hk as [Hk|Hk].
        - destruct (K1 k Hk) as (p & Hp & ->). exists p. split; [apply in_app_iff; auto|reflexivity].
        - destruct (K2 k Hk) as (p & Hp & ->). exists p. split; [apply in_app_iff; auto|reflexivity]. }
      rewrite R2. apply R1. intros p Hp. apply name_in_app. auto.
  Qed.

  Variable add_sil : bool.
  Definition out_of (d : list (list nat * string)) (us : list nat * list (list nat)) : list nat * list string :=
    let t := render false (name_in d) (map ev_of (snd us)) in
    (fst us, if add_sil then ["sil"%string] ++ t ++ ["sil"%string] else t).
  Definition all_phones (td : list (list nat * list (list nat))) : list (list nat) :=
    flat_map (fun us => flat_map ev_phones (map ev_of (snd us))) td.

  Lemma render_ext name name' : forall ev b, (forall p, In p (flat_map ev_phones ev) -> name p = name' p) ->
    render b name ev = render b name' ev.
  Proof.
    induction ev as [|[|[|p ps]] ev IH]; intros b H; cbn [render].
    - reflexivity.
    - rewrite (IH false) by (intros p Hp; apply H; exact Hp). reflexivity.
    - apply IH. intros q Hq. apply H. exact Hq.
    - rewrite (IH true) by (intros q Hq; apply H; cbn [flat_map ev_phones]; apply in_app_iff; auto). f_equal.
      apply map_ext_in. intros q Hq. apply H. cbn [flat_map ev_phones]. apply in_app_iff. auto.
  Qed.

  Lemma do_utts_ok : forall td d out, table_ok d -> exists e,
    foldM (do_utt isalnum combining lower lang diacritics add_sil) td (d, out) = Ok (d ++ e, out ++ map (out_of (d ++ e)) td) /\
    table_ok (d ++ e) /\
    (forall p, In p (all_phones td) -> In (sort_chars p) (map fst (d ++ e))) /\
    (forall k, In k (map fst e) -> exists p, In p (all_phones td) /\ k = sort_chars p).
  Proof.
    induction td as [|[u ws] td IH]; intros d out T; cbn [foldM map].
    - exists []. rewrite !app_nil_r. split; [reflexivity|]. now split.
    - cbn [do_utt snd fst]. destruct (do_words_ok ws d [] T) as (e & t' & -> & T1 & H1 & K1 & R1). cbn [bindr fst snd].
      cbn [concat app talking] in R1.
      match goal with |- context [foldM _ td (_, ?o)] => set (o1 := o) end.
      destruct (IH (d ++ e) o1 T1) as (f & -> & T2 & H2 & K2).
      exists (e ++ f). rewrite app_assoc. split.
      { f_equal. f_equal. unfold o1. rewrite <- app_assoc. f_equal. cbn [map app]. f_equal. unfold out_of. cbn [fst snd].
        rewrite R1. rewrite (render_ext (name_in (d ++ e)) (name_in ((d ++ e) ++ f))); [reflexivity|].
        intros p Hp. symmetry. apply name_in_app. auto. }
      split; [exact T2|]. unfold all_phones. cbn [flat_map snd]. split.
      + intros p Hp. apply in_app_iff in Hp. destruct Hp as [Hp|Hp]; [|auto].
        rewrite map_app. apply in_app_iff. auto.
      + intros k Hk. rewrite map_app in Hk. apply in_app_iff in Hk. destruct Hk as [Hk|Hk].
        * destruct (K1 k Hk) as (p & Hp & ->). exists p. split; [apply in_app_iff; auto|reflexivity].
        * destruct (K2 k Hk) as (p & Hp & ->). exists p. split; [apply in_app_iff; auto|reflexivity].
  Qed.
End Table.

(** ** Reading the text *)

Lemma kset_keys {A} k (v : A) d : map fst (kset k v d) = if khas k d then map fst d else map fst d ++ [k].
Proof.
  unfold khas. induction d as [|[k' v'] d IH]; [reflexivity|]. cbn [kset kget].
  destruct (weqb k k') eqn:E; [reflexivity|]. cbn [map fst]. rewrite IH. now destruct (kget k d).
Qed.

Lemma kset_nodup {A} k (v : A) d : NoDup (map fst d) -> NoDup (map fst (kset k v d)).
Proof.
  intros H. rewrite kset_keys. destruct (khas k d) eqn:E; [exact H|].
  apply (Permutation_NoDup (Permutation_cons_append (map fst d) k)). constructor; [|exact H].
  intros Hi. apply khas_spec in Hi. congruence.
Qed.

Lemma kset_in {A} k (v : A) d k' v' : NoDup (map fst d) ->
  (In (k', v') (kset k v d) <-> (k' = k /\ v' = v) \/ (k' <> k /\ In (k', v') d)).
Proof.
  induction d as [|[a b] d IH]; intros ND; cbn [kset].
  - simpl. split; [intros [[= <- <-]|[]]; auto|]. intros [[-> ->]|[_ []]]. auto.
  - cbn [map fst] in ND. inversion ND as [|? ? N1 N2]; subst. destruct (weqb_spec k a) as [->|N].
    + cbn [In]. split.
      * intros [[= <- <-]|H]; [auto|]. right. split; [|auto]. intros ->. apply N1. now apply (in_map fst) in H.
      * intros [[-> ->]|[H1 [[= -> ->]|H2]]]; [auto|now elim H1|auto].
    + cbn [In]. rewrite IH by auto. split.
      * intros [[= <- <-]|[[-> ->]|[H1 H2]]]; auto.
      * intros [[-> ->]|[H1 [H|H2]]]; auto.
Qed.

Lemma trans_dict_fail lines : (exists e, trans_dict lines = Err e) <-> In [] lines.
Proof.
  unfold trans_dict. generalize (@nil (list nat * list (list nat))). induction lines as [|[|u s] lines IH]; intros d; cbn [foldM bindr].
  - split; [intros (e & H); discriminate|contradiction].
  - split; [intros _; now left|intros _; eauto].
  - rewrite IH. split; [intros H; now right|intros [H|H]; [discriminate|exact H]].
Qed.

Lemma trans_dict_ok : forall lines d, trans_dict lines = Ok d ->
  NoDup (map fst d) /\ (forall utt sent, In (utt, sent) d <-> last_line lines utt sent).
Proof.
  unfold trans_dict. induction lines as [|x lines IH] using rev_ind; intros d.
  - intros [= <-]. split; [constructor|]. intros utt sent. split; [contradiction|]. intros (l & r & E & _). destruct l; discriminate.
  - assert (F : forall (f : list (list nat * list (list nat)) -> list (list nat) -> result (list (list nat * list (list nat)))) l s,
      foldM f (l ++ [x]) s = bindr (foldM f l s) (fun s' => f s' x)).
    { intros f l. induction l as [|y l IHl]; intros s; cbn [foldM app bindr].
      - destruct (f s x); reflexivity.
      - destruct (f s y); [apply IHl|reflexivity]. }
    rewrite F. destruct (foldM _ lines []) as [d0|] eqn:E; [|discriminate]. cbn [bindr].
    destruct x as [|u s]; [discriminate|]. intros [= <-]. destruct (IH d0 eq_refl) as [ND H].
    split; [now apply kset_nodup|]. intros utt sent. rewrite kset_in by auto. rewrite H. split.
    + intros [[-> ->]|[N (l & r & -> & Hr)]].
      * exists lines, []. split; [reflexivity|easy].
      * exists l, (r ++ [u :: s]). split; [now rewrite <- app_assoc|]. intros s' Hs. apply in_app_iff in Hs.
        destruct Hs as [Hs|[[= -> _]|[]]]; [now apply (Hr s')|now elim N].
    + intros (l & r & E' & Hr). destruct (snoc_cases r) as [->|(r' & y & ->)].
      * apply app_inj_tail in E'. destruct E' as [-> [= -> ->]]. auto.
      * rewrite app_comm_cons, app_assoc in E'. apply app_inj_tail in E'. destruct E' as [-> <-]. right. split.
        -- intros ->. apply (Hr s), in_app_iff. right. now left.
        -- exists l, r'. split; [reflexivity|]. intros s' Hs. apply (Hr s'), in_app_iff. auto.
Qed.
