(** C54, C55 and the run-collapsing part of C60. *)
From Coq Require Import List Arith Bool Lia.
From Verif Require Import Prelude Edit_Model Edit_Spec Edit_Proofs.
Import ListNotations.

(** wer never raises and returns the least number of single-token insertions,
    deletions and substitutions turning the reference into the hypothesis. *)
Theorem C54_wer_is_levenshtein :
  forall (A : Type) (eq_dec : forall x y : A, {x = y} + {x <> y}) (r h : list A),
  exists n, wer eq_dec r h = Ok n /\ distance r h n.
Proof. exact @wer_distance. Qed.

(** ... in particular it is 0 exactly for equal sequences. *)
Theorem C54_zero_iff_equal :
  forall (A : Type) (eq_dec : forall x y : A, {x = y} + {x <> y}) (r h : list A),
  wer eq_dec r h = Ok 0 <-> r = h.
Proof.
  intros A eq_dec r h. destruct (wer_distance eq_dec r h) as (n & -> & H1 & H2). split.
  - intros [= ->]. inversion H1; auto.
  - intros ->. specialize (H2 0 (script_nil h)). f_equal. lia.
Qed.

(** Corpus level: for every option, the program fails (ZeroDivisionError)
    exactly when no reference token is scored, else it reports (errors, tokens)
    summed over the reference utterances present in the hypothesis; reference
    utterances without hypothesis contribute neither errors nor tokens. *)
Theorem C54_corpus_rate :
  forall (A : Type) (eq_dec : forall x y : A, {x = y} + {x <> y})
         mapping merge (ref hyp : list (nat * list A)),
  let prep := map (fun u => (fst u, ter_prepare eq_dec mapping merge (snd u))) in
  exists errors tokens,
    corpus (prep hyp) (prep ref) errors tokens /\
    ter_main eq_dec mapping merge ref hyp =
      if tokens =? 0 then Err ZeroDivisionError else Ok (errors, tokens).
Proof.
  intros A eq_dec mapping merge ref hyp prep. unfold ter_main.
  destruct (foldM_ter eq_dec (prep hyp) (prep ref) 0 0) as (es & ws & E & Hc).
  exists es, ws. split; auto. fold prep. rewrite E. reflexivity.
Qed.

(** and these totals are determined by the data *)
Theorem C54_corpus_unique :
  forall (A : Type) (ref hyp : list (nat * list A)) e w e' w',
  NoDup (map fst hyp) ->
  corpus hyp ref e w -> corpus hyp ref e' w' -> e = e' /\ w = w'.
Proof. intros A ref hyp e w e' w' Hn. apply corpus_unique; auto. Qed.

(** preprocessing: without options nothing changes, with --no-repeat the token
    list is replaced by the unique repetition-free list it stretches *)
Theorem C54_merge_option :
  forall (A : Type) (eq_dec : forall x y : A, {x = y} + {x <> y}) (l c : list A),
  ter_prepare eq_dec None false l = l /\
  (ter_prepare eq_dec None true l = c <-> stretch c l /\ no_repeat c).
Proof.
  intros. split; [reflexivity|]. unfold ter_prepare. split.
  - intros <-. apply groupby_spec.
  - intros [H1 H2]. now apply groupby_stretch.
Qed.

(** with --phone-map, tokens are translated and those without entry dropped,
    before repetitions are merged *)
Theorem C54_map_option :
  forall (A : Type) (eq_dec : forall x y : A, {x = y} + {x <> y}) d (l c : list A) merge,
  NoDup (map fst d) ->
  (ter_prepare eq_dec (Some d) merge l = c <->
   exists m, translated d l m /\ ter_prepare eq_dec None merge m = c).
Proof.
  intros A eq_dec d l c merge Hn. split.
  - intros <-. exists (map_tokens eq_dec d l). split; [now apply (map_tokens_translated eq_dec d Hn)|reflexivity].
  - intros (m & Hm & <-). apply (map_tokens_translated eq_dec d Hn) in Hm. subst m. reflexivity.
Qed.

Example C54_example_map :
  ter_main Nat.eq_dec (Some [(1, 5); (2, 5); (3, 6)]) true
    [(0, [1;2;9;3;3])] [(0, [3;1;7])] = Ok (2, 2).
Proof. reflexivity. Qed.

Example C54_example :
  wer Nat.eq_dec [1;2;3;4] [2;3;5;4;4] = Ok 3.
Proof. reflexivity. Qed.
Example C54_example_main :
  ter_main Nat.eq_dec None true
    [(0, [1;1;2]); (1, [3]); (2, [7;7;7])] [(2, [7]); (0, [2;2;1])] = Ok (2, 3).
Proof. reflexivity. Qed.
Example C54_example_zero :
  ter_main Nat.eq_dec None true [(0, [1;1;2])] [(2, [7])] = Err ZeroDivisionError.
Proof. reflexivity. Qed.

(** The dynamic program of score.py (which does not shortcut matches and
    transposes the matrix) gives the same number. *)
Theorem C55_same_distance :
  forall (A : Type) (eq_dec : forall x y : A, {x = y} + {x <> y}) (r h : list A),
  score_err eq_dec r h = wer eq_dec r h.
Proof. exact @score_err_wer. Qed.

(** the two ways of removing adjacent duplicates agree *)
Theorem C55_same_duplicate_removal :
  forall (A : Type) (eq_dec : forall x y : A, {x = y} + {x <> y}) (l : list A),
  filter_text eq_dec None false None l = Ok (ter_prepare eq_dec None true l).
Proof. exact @filter_text_merge. Qed.

(** whole programs, without unit removal or mapping, on corpora with the same
    utterances *)
Theorem C55_same_rate :
  forall (A : Type) (eq_dec : forall x y : A, {x = y} + {x <> y}) dup
         (ref hyp : list (nat * list A)),
  (forall k, In k (map fst ref) <-> In k (map fst hyp)) ->
  score_main eq_dec None dup None ref hyp = ter_main eq_dec None (negb dup) ref hyp.
Proof. exact @score_main_ter_main. Qed.

(** otherwise score.py refuses where ter.py silently ignores: the error is not
    the same when the utterance ids differ *)
Theorem C55_different_utterances :
  forall (A : Type) (eq_dec : forall x y : A, {x = y} + {x <> y}) remove dup pm
         (ref hyp : list (nat * list A)),
  ~ (forall k, In k (map fst ref) <-> In k (map fst hyp)) ->
  score_main eq_dec remove dup pm ref hyp = Err OtherError.
Proof.
  intros A eq_dec remove dup pm ref hyp H. unfold score_main.
  destruct (same_keys (map fst ref) (map fst hyp)) eqn:E; [|reflexivity].
  exfalso. apply H. now apply same_keys_spec.
Qed.

(** the options of score.py: with a phone map the result is the translation
    without the units to remove, and it is a KeyError when a unit that is not
    removed has no translation *)
Theorem C55_map_and_remove_options :
  forall (A : Type) (eq_dec : forall x y : A, {x = y} + {x <> y}) d rm (l : list A),
  NoDup (map fst d) ->
  (forall c, filter_text eq_dec (Some rm) true (Some d) l = Ok c <-> cleaned d rm l c) /\
  (filter_text eq_dec (Some rm) true (Some d) l = Err KeyError <->
     exists x, In x l /\ ~ In x rm /\ ~ In x (map fst d)) /\
  filter_text eq_dec None true (Some d) l = filter_text eq_dec (Some []) true (Some d) l.
Proof.
  intros A eq_dec d rm l Hn.
  assert (E : filter_text eq_dec (Some rm) true (Some d) l = score_map eq_dec d rm l).
  { unfold filter_text. now destruct (score_map eq_dec d rm l). }
  rewrite E. split; [|split; [|reflexivity]].
  - intros c. now apply score_map_cleaned.
  - apply score_map_error.
Qed.

Theorem C55_remove_option :
  forall (A : Type) (eq_dec : forall x y : A, {x = y} + {x <> y}) rm (l c : list A),
  (filter_text eq_dec (Some rm) true None l = Ok c <-> without rm l c) /\
  filter_text eq_dec None true None l = Ok l.
Proof.
  intros A eq_dec rm l c. split; [|reflexivity]. unfold filter_text. cbn [bindr]. split.
  - intros [= <-]. now apply (filter_without eq_dec).
  - intros H. apply (filter_without eq_dec) in H. now rewrite H.
Qed.

(** duplicates are removed after the other options *)
Theorem C55_duplicates_last :
  forall (A : Type) (eq_dec : forall x y : A, {x = y} + {x <> y}) rm d (l : list A),
  filter_text eq_dec rm false d l =
  match filter_text eq_dec rm true d l with
  | Ok c => Ok (ter_prepare eq_dec None true c)
  | Err e => Err e
  end.
Proof.
  intros A eq_dec rm d l. unfold filter_text.
  destruct d as [d|]; cbn [bindr].
  - destruct (score_map eq_dec d _ l); cbn [bindr]; [|reflexivity]. now rewrite dedup_groupby.
  - now rewrite dedup_groupby.
Qed.

(** whatever the options, the reported figures are those of ter.py on the
    filtered transcriptions *)
Theorem C55_same_rate_with_options :
  forall (A : Type) (eq_dec : forall x y : A, {x = y} + {x <> y}) rm dup d
         (f : list A -> list A) (ref hyp : list (nat * list A)),
  (forall k, In k (map fst ref) <-> In k (map fst hyp)) ->
  (forall k t, In (k, t) ref \/ In (k, t) hyp -> filter_text eq_dec rm dup d t = Ok (f t)) ->
  score_main eq_dec rm dup d ref hyp =
  ter_main eq_dec None false (map (fun u => (fst u, f (snd u))) ref)
    (map (fun u => (fst u, f (snd u))) hyp).
Proof. exact @score_main_options. Qed.

Example C55_example :
  score_main Nat.eq_dec None false None
    [(0, [1;1;2]); (2, [7;7;7])] [(2, [7]); (0, [2;2;1])] = Ok (2, 3).
Proof. reflexivity. Qed.
Example C55_example_map :
  score_main Nat.eq_dec (Some [9]) true (Some [(1,10);(2,20);(3,9)])
    [(0, [1;2;3;9])] [(0, [2;9;1])] = Ok (2, 2).
Proof. reflexivity. Qed.

Print Assumptions C54_wer_is_levenshtein.
Print Assumptions C54_corpus_rate.
Print Assumptions C55_same_rate.
Print Assumptions C55_same_rate_with_options.
Print Assumptions C55_map_and_remove_options.
Print Assumptions C54_map_option.
