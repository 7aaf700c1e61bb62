(** C56, C57, C67, C68 and the boundary part of C60. *)
From Coq Require Import List Arith ZArith Bool Lia Reals Lra Sorted.
From Verif Require Import Prelude Edit_Model Edit_Spec Edit_Proofs
  Bnd_Model Bnd_Spec Bnd_Proofs.
Import ListNotations.
Local Open Scope Z_scope.

(** The hits are the size of a one-to-one pairing of hypothesis boundaries with
    reference boundaries within the tolerance, which cannot be extended, as
    long as no hypothesis boundary comes within the tolerance of frame 1000000
    (the value used to mark the consumed references). *)
Theorem C56_hits_matching :
  forall ref hyp delta, ref <> [] \/ hyp = [] ->
  (forall b, In b hyp -> delta < Z.abs (b - 1000000)) ->
  exists M, get_hits ref hyp delta = Ok (length M) /\
    matching ref hyp delta M /\ maximal ref hyp delta M.
Proof. exact get_hits_matching. Qed.

Theorem C56_matching_size :
  forall ref hyp delta M, matching ref hyp delta M ->
  (length M <= length ref /\ length M <= length hyp)%nat.
Proof. exact matching_bounds. Qed.

(** the program crashes on an utterance whose reference has no boundary and
    whose hypothesis has some *)
Theorem C56_empty_reference :
  forall b hyp delta, get_hits [] (b :: hyp) delta = Err ValueError.
Proof. exact get_hits_empty_ref. Qed.

Theorem C56_rates_in_unit_interval :
  forall (A : Type) (eq_dec : forall x y : A, {x = y} + {x <> y})
         delta (ref hyp : list (nat * list A)) recall prec fscore,
  (forall k t, In (k, t) hyp -> Z.of_nat (length t) + Z.abs delta < 1000000) ->
  score_bnd eq_dec delta ref hyp = Ok (recall, prec, fscore) ->
  (0 <= recall <= 1 /\ 0 <= prec <= 1 /\ 0 <= fscore <= 1)%R.
Proof.
  intros A eq_dec delta ref hyp rec prec f Hlen. unfold score_bnd.
  destruct (counts eq_dec get_hits delta ref hyp) as [[[h n] r]|] eqn:E; [|discriminate].
  cbn [bindr]. intros H0. assert (H : rates (h, n, r) = (rec, prec, f)) by congruence.
  clear H0. destruct (counts_bounds eq_dec delta ref hyp h n r Hlen E) as [H1 H2].
  pose proof (rates_unit h n r H1 H2) as HR.
  rewrite H in HR. exact HR.
Qed.

(** without the bound on the length, a consumed reference boundary can be hit
    again *)
Theorem C56_long_utterance_refuted :
  exists ref hyp delta n, get_hits ref hyp delta = Ok n /\
    (length ref < n)%nat /\ StronglySorted Z.lt hyp /\ 0 <= delta.
Proof.
  exists [5], [5; 1000000], 2, 2%nat. split; [reflexivity|]. split; [simpl; lia|].
  split; [|lia]. repeat constructor.
Qed.

Example C56_example :
  get_hits [2; 5; 9] [3; 4; 10; 20] 2 = Ok 3%nat /\
  (forall b, In b [3; 4; 10; 20] -> 2 < Z.abs (b - 1000000)).
Proof. split; [reflexivity|]. simpl. intros b Hb. lia. Qed.

Example C56_example_main :
  exists p, score_bnd Nat.eq_dec 2 [(0%nat, [1;1;2;2;3])%nat] [(0%nat, [1;2;2;2;2])%nat]
    = Ok (/ 2, 1, p)%R.
Proof.
  eexists. unfold score_bnd. cbn -[Rdiv INR rates].
  unfold rates. simpl INR. simpl Nat.ltb. cbn iota.
  replace (1 / (1 + 1))%R with (/2)%R by lra. replace (1 / 1)%R with 1%R by lra. reflexivity.
Qed.

(** ** C67: is the number of hits the largest possible? *)
(** No: the greedy choice (nearest free reference) can block a later
    boundary. *)
Theorem C67_maximum_refuted :
  exists ref hyp delta M, get_hits ref hyp delta = Ok 1%nat /\
    matching ref hyp delta M /\ length M = 2%nat /\
    StronglySorted Z.lt ref /\ StronglySorted Z.lt hyp.
Proof.
  exists [2; 5], [4; 7], 2, [(0, 0); (1, 1)]%nat. split; [reflexivity|]. split.
  - split.
    + repeat constructor; simpl; intuition congruence.
    + repeat constructor; simpl; intuition congruence.
    + simpl. intros i j [[= <- <-]|[[= <- <-]|[]]]; simpl;
        [exists 2, 4|exists 5, 7]; repeat split; lia.
  - repeat split; repeat constructor.
Qed.

(** but it never falls below half of the largest possible number *)
Theorem C67_half_of_maximum_partial :
  forall ref hyp delta, ref <> [] \/ hyp = [] ->
  (forall b, In b hyp -> delta < Z.abs (b - 1000000)) ->
  exists n, get_hits ref hyp delta = Ok n /\
    forall M, matching ref hyp delta M -> (length M <= 2 * n)%nat.
Proof.
  intros ref hyp delta H1 H2.
  destruct (get_hits_matching ref hyp delta H1 H2) as (M & E & _ & Hx).
  exists (length M). split; auto. intros M' HM. eapply maximal_half; eauto.
Qed.

(** ** C57: score_boundaries2.py *)
(** one hypothesis boundary is counted three times: precision 300 % *)
Theorem C57_matching_refuted :
  exists (ref hyp : list nat) rb hb n,
    boundaries Nat.eq_dec ref = Ok rb /\ boundaries Nat.eq_dec hyp = Ok hb /\
    get_hits2 rb hb 2 = Ok n /\ (length hb < n)%nat /\
    exists p, score_bnd2 Nat.eq_dec 2 [(0%nat, ref)] [(0%nat, hyp)] = Ok (1, 3, p)%R.
Proof.
  exists [0;1;2;3]%nat, [0;0;1;1]%nat, [2;3;4], [3], 3%nat.
  repeat split; auto. eexists. unfold score_bnd2. cbn -[Rdiv INR rates2].
  unfold rates2. simpl INR. simpl Nat.eqb. cbn iota.
  destruct (Req_EM_T _ _) as [E|_]; [exfalso; lra|].
  replace ((1 + 1 + 1) / (1 + 1 + 1))%R with 1%R by lra.
  replace ((1 + 1 + 1) / 1)%R with 3%R by lra. reflexivity.
Qed.

(** it can also fail with an IndexError on ordinary boundaries *)
Theorem C57_crash_refuted :
  exists ref hyp, get_hits2 ref hyp 2 = Err IndexError /\ ref <> [] /\ hyp <> [] /\
    StronglySorted Z.lt hyp.
Proof.
  exists [9], [2; 9]. repeat split; try discriminate. repeat constructor.
Qed.

(** what remains true: recall cannot exceed 1 *)
Theorem C57_recall_partial :
  forall ref hyp delta n, get_hits2 ref hyp delta = Ok n -> (n <= length ref)%nat.
Proof. exact get_hits2_recall. Qed.

(** and what is printed from the counts: recall, precision and
    2 hits / (reference + hypothesis); without hits the program stops *)
Theorem C57_rates_partial : forall (A : Type) (eq_dec : forall x y : A, {x = y} + {x <> y}) delta ref hyp hits nref nhyp,
  counts eq_dec get_hits2 delta ref hyp = Ok (hits, nref, nhyp) ->
  ((0 < hits)%nat -> (0 < nref)%nat -> (0 < nhyp)%nat ->
     exists r p f, score_bnd2 eq_dec delta ref hyp = Ok (r, p, f) /\
       (r * INR nref = INR hits /\ p * INR nhyp = INR hits /\ f * INR (nref + nhyp) = 2 * INR hits)%R) /\
  (hits = 0%nat \/ nref = 0%nat \/ nhyp = 0%nat -> score_bnd2 eq_dec delta ref hyp = Err ZeroDivisionError).
Proof.
  intros A eq_dec delta ref hyp hits nref nhyp E. unfold score_bnd2. rewrite E. cbn [bindr]. unfold rates2. split.
  - intros Hh Hr Hp. apply lt_0_INR in Hh as Hh', Hr as Hr', Hp as Hp'.
    replace (nref =? 0)%nat with false by (symmetry; apply Nat.eqb_neq; lia).
    replace (nhyp =? 0)%nat with false by (symmetry; apply Nat.eqb_neq; lia).
    assert (P1 : (0 < INR hits / INR nref)%R) by (apply Rdiv_lt_0_compat; auto).
    assert (P2 : (0 < INR hits / INR nhyp)%R) by (apply Rdiv_lt_0_compat; auto).
    destruct (Req_EM_T _ 0) as [Z|_]; [lra|]. eexists _, _, _. split; [reflexivity|]. rewrite plus_INR.
    repeat split; field; repeat split; lra || (apply Rgt_not_eq; nra).
  - intros H. destruct (nref =? 0)%nat eqn:E1; [reflexivity|]. destruct (nhyp =? 0)%nat eqn:E2; [reflexivity|].
    apply Nat.eqb_neq in E1, E2. destruct H as [->|[H|H]]; [|lia|lia]. cbn [INR]. unfold Rdiv. rewrite !Rmult_0_l, Rplus_0_r.
    destruct (Req_EM_T 0 0) as [_|N]; [reflexivity|now destruct N].
Qed.

(** ** C68: unknown tokens keep their identity *)
(** Within one call of map_trans: known tokens are translated by the mapping,
    unknown tokens get an '<oov_i>' symbol, two unknown tokens get the same
    symbol only if they are equal. *)
Theorem C68_single_transcription_partial :
  forall mapfile trans m out, map_trans mapfile trans = (m, out) ->
  exists f : nat -> sym,
    out = map (fun u => (fst u, map f (snd u))) trans /\
    (forall t s, dget Nat.eq_dec mapfile t = Some s -> f t = s) /\
    (forall u l t, In (u, l) trans -> In t l -> dget Nat.eq_dec mapfile t = None ->
       (exists i, f t = Oov i) /\
       forall u' l' t', In (u', l') trans -> In t' l' ->
         dget Nat.eq_dec mapfile t' = None -> f t = f t' -> t = t').
Proof.
  intros mapfile trans m out E. unfold map_trans in E.
  destruct (map_utts (mapfile, 1%nat) trans) as [[m' i'] out'] eqn:Eu.
  injection E as <- <-.
  destruct (map_utts_ok mapfile _ _ _ _ _ _ (oov_ok_init mapfile) Eu) as (Hok & Hf & Hp).
  destruct Hok as (K1 & K2 & K3). simpl.
  set (f := fun t => match dget Nat.eq_dec m' t with Some s => s | None => Oov 0 end).
  assert (Hdef : forall u l t, In (u, l) trans -> In t l -> dget Nat.eq_dec m' t <> None).
  { intros u l t Hu Ht. clear -Hf Hu Ht. induction Hf as [|[a b] [c d] x y [_ H] _ IH]; [contradiction|].
    destruct Hu as [[= -> ->]|Hu]; [|auto]. simpl in H. clear -H Ht.
    induction H; [contradiction|]. destruct Ht as [<-|Ht]; [congruence|auto]. }
  exists f. split; [|split].
  - clear -Hf. induction Hf as [|[a b] [c d] x y [H1 H2] _ IH]; [reflexivity|].
    simpl in *. subst c. f_equal; auto. f_equal. clear -H2.
    induction H2; [reflexivity|]. simpl. f_equal; auto. unfold f. now rewrite H.
  - intros t s Ht. unfold f. now rewrite (Hp _ _ Ht).
  - intros u l t Hu Ht Hn. pose proof (Hdef _ _ _ Hu Ht) as Hd. unfold f. split.
    + destruct (dget Nat.eq_dec m' t) as [s|] eqn:Es; [|contradiction].
      destruct (K2 _ _ Hn Es) as (j & -> & _). eauto.
    + intros u' l' t' Hu' Ht' Hn' Heq. pose proof (Hdef _ _ _ Hu' Ht') as Hd'.
      apply K3; auto. destruct (dget Nat.eq_dec m' t), (dget Nat.eq_dec m' t'); congruence.
Qed.

(** Across the two calls of the program the counter restarts, so two different
    unknown tokens of the reference can be merged, and a reference boundary is
    lost although both tokens differ. *)
Theorem C68_program_refuted :
  exists mapfile ref hyp ref' hyp',
    map_both mapfile [(0%nat, ref)] [(0%nat, hyp)] = ([(0%nat, ref')], [(0%nat, hyp')]) /\
    (forall t, In t ref -> dget Nat.eq_dec mapfile t = None) /\
    ref = [7; 8]%nat /\ ref' = [Oov 1; Oov 1].
Proof.
  exists [(1, Sym 1)]%nat, [7; 8]%nat, [7; 1]%nat, [Oov 1; Oov 1], [Oov 1; Sym 1].
  repeat split. simpl. intros t [<-|[<-|[]]]; reflexivity.
Qed.

Example C68_example :
  map_trans [(1, Sym 9)]%nat [(0, [1;5;6]); (1, [6;1;5])]%nat =
  ([(6, Oov 2); (5, Oov 1); (1, Sym 9)]%nat,
   [(0%nat, [Sym 9; Oov 1; Oov 2]); (1%nat, [Oov 2; Sym 9; Oov 1])]).
Proof. reflexivity. Qed.

(** ** C60 (boundaries): exactly the change points, in increasing order *)
Theorem C60_boundaries_are_change_points :
  forall (A : Type) (eq_dec : forall x y : A, {x = y} + {x <> y}) (l : list A) bs,
  boundaries eq_dec l = Ok bs ->
  StronglySorted Z.lt bs /\ forall f, In f bs <-> change_at l f.
Proof. exact @boundaries_spec. Qed.

(** An utterance without frames has no boundaries to compare: it stops the
    scoring, in the reference or in the hypothesis. *)
Theorem C60_empty_utterance :
  forall (A : Type) (eq_dec : forall x y : A, {x = y} + {x <> y}) gh delta hyp acc u,
  (boundaries eq_dec (snd u) = Err IndexError <-> snd u = []) /\
  (snd u = [] -> score_utt eq_dec gh delta hyp acc u = Err IndexError) /\
  (snd u <> [] -> dget Nat.eq_dec hyp (fst u) = Some [] -> score_utt eq_dec gh delta hyp acc u = Err IndexError).
Proof.
  intros A eq_dec gh delta hyp [[h n] m] [k [|x l]]; cbn [fst snd].
  - split; [split; reflexivity|]. split; [reflexivity|congruence].
  - split; [split; discriminate|]. split; [discriminate|]. intros _ E. unfold score_utt. cbn [boundaries bindr fst snd].
    now rewrite E.
Qed.

Example C60_boundaries_example :
  boundaries Nat.eq_dec [4;4;5;5;5;4]%nat = Ok [3; 6] /\
  change_at [4;4;5;5;5;4]%nat 3.
Proof.
  split; [reflexivity|]. exists [4]%nat, [5;5;4]%nat, 4%nat, 5%nat.
  repeat split; auto.
Qed.

Print Assumptions C56_hits_matching.
Print Assumptions C56_rates_in_unit_interval.
Print Assumptions C68_single_transcription_partial.
Print Assumptions C60_empty_utterance.
