From Coq Require Import List Arith Bool Lia.
From Verif Require Import Prelude Edit_Model Edit_Spec.
Import ListNotations.

Section P.
Context {A : Type} (eq_dec : forall x y : A, {x = y} + {x <> y}).

(** ** Alignments: the cost of aligning two sequences left to right *)
Inductive align : list A -> list A -> nat -> Prop :=
| al_nil : align [] [] 0
| al_match x r h n : align r h n -> align (x :: r) (x :: h) n
| al_sub x y r h n : align r h n -> align (x :: r) (y :: h) (S n)
| al_ins y r h n : align r h n -> align r (y :: h) (S n)
| al_del x r h n : align r h n -> align (x :: r) h (S n).

Lemma align_refl a : align a a 0.
Proof. induction a; constructor; auto. Qed.

Lemma align_prefix u a b n : align a b n -> align (u ++ a) (u ++ b) n.
Proof. induction u; simpl; auto. intros. constructor. auto. Qed.

Lemma align_edit1 a b : edit1 a b -> exists n, n <= 1 /\ align a b n.
Proof.
  intros H; inversion H; subst; exists 1; split; auto; apply align_prefix;
    constructor; apply align_refl.
Qed.

Lemma align_trans b c n : align b c n -> forall a m, align a b m ->
  exists k, k <= m + n /\ align a c k.
Proof.
  induction 1 as [|x r h n H IH|x y r h n H IH|y r h n H IH|x r h n H IH];
    intros a m Hm.
  - exists m. split; [lia|auto].
  - (* match x *)
    remember (x :: r) as b. revert r h n x H IH Heqb.
    induction Hm as [|z a b m Hm IHm|z w a b m Hm IHm|w a b m Hm IHm|z a b m Hm IHm];
      intros r h n x H IH E; try discriminate.
    + injection E as -> ->. destruct (IH _ _ Hm) as (k & Hk & Hal).
      exists k. split; [lia|now constructor].
    + injection E as -> ->. destruct (IH _ _ Hm) as (k & Hk & Hal).
      exists (S k). split; [lia|now constructor].
    + injection E as -> ->. destruct (IH _ _ Hm) as (k & Hk & Hal).
      exists (S k). split; [lia|now constructor].
    + destruct (IHm _ _ _ _ H IH E) as (k & Hk & Hal).
      exists (S k). split; [lia|now constructor].
  - remember (x :: r) as b. revert r h n x y H IH Heqb.
    induction Hm as [|z a b m Hm IHm|z w a b m Hm IHm|w a b m Hm IHm|z a b m Hm IHm];
      intros r h n x y H IH E; try discriminate.
    + injection E as -> ->. destruct (IH _ _ Hm) as (k & Hk & Hal).
      exists (S k). split; [lia|now constructor].
    + injection E as -> ->. destruct (IH _ _ Hm) as (k & Hk & Hal).
      exists (S k). split; [lia|now constructor].
    + injection E as -> ->. destruct (IH _ _ Hm) as (k & Hk & Hal).
      exists (S k). split; [lia|now constructor].
    + destruct (IHm _ _ _ _ y H IH E) as (k & Hk & Hal).
      exists (S k). split; [lia|now constructor].
  - destruct (IH _ _ Hm) as (k & Hk & Hal).
    exists (S k). split; [lia|now constructor].
  - remember (x :: r) as b. revert r h n x H IH Heqb.
    induction Hm as [|z a b m Hm IHm|z w a b m Hm IHm|w a b m Hm IHm|z a b m Hm IHm];
      intros r h n x H IH E; try discriminate.
    + injection E as -> ->. destruct (IH _ _ Hm) as (k & Hk & Hal).
      exists (S k). split; [lia|now constructor].
    + injection E as -> ->. destruct (IH _ _ Hm) as (k & Hk & Hal).
      exists (S k). split; [lia|now constructor].
    + injection E as -> ->. destruct (IH _ _ Hm) as (k & Hk & Hal).
      exists k. split; [lia|auto].
    + destruct (IHm _ _ _ _ H IH E) as (k & Hk & Hal).
      exists (S k). split; [lia|now constructor].
Qed.

Lemma script_align n (a b : list A) : script n a b -> exists k, k <= n /\ align a b k.
Proof.
  induction 1 as [a|n a b c He _ (k & Hk & Hal)].
  - exists 0. split; [lia|apply align_refl].
  - destruct (align_edit1 _ _ He) as (m & Hm & Hal').
    destruct (align_trans _ _ _ Hal _ _ Hal') as (j & Hj & Hal'').
    exists j. split; [lia|auto].
Qed.

Lemma edit1_cons (x : A) a b : edit1 a b -> edit1 (x :: a) (x :: b).
Proof.
  intros H; inversion H; subst.
  - exact (edit_ins (x :: u) v x0).
  - exact (edit_del (x :: u) v x0).
  - exact (edit_sub (x :: u) v x0 y).
Qed.

Lemma script_cons (x : A) n a b : script n a b -> script n (x :: a) (x :: b).
Proof. induction 1; econstructor; eauto using edit1_cons. Qed.

Lemma align_script (a b : list A) n : align a b n -> script n a b.
Proof.
  induction 1.
  - constructor.
  - now apply script_cons.
  - econstructor; [apply (edit_sub [] r x y)|]. now apply script_cons.
  - econstructor; [apply (edit_ins [] r y)|]. now apply script_cons.
  - econstructor; [apply (edit_del [] r x)|]. auto.
Qed.

(** minimal alignments and distances coincide *)
Definition adist (a b : list A) (n : nat) : Prop :=
  align a b n /\ forall m, align a b m -> n <= m.

Lemma adist_distance a b n : adist a b n -> distance a b n.
Proof.
  intros [H1 H2]. split; [now apply align_script|].
  intros m Hm. destruct (script_align _ _ _ Hm) as (k & Hk & Hal).
  specialize (H2 _ Hal). lia.
Qed.

(** reversal *)
Lemma align_app a b n a' b' m :
  align a b n -> align a' b' m -> align (a ++ a') (b ++ b') (n + m).
Proof. induction 1; simpl; intros; auto; constructor; auto. Qed.

Lemma align_rev a b n : align a b n -> align (rev a) (rev b) n.
Proof.
  induction 1; simpl.
  - constructor.
  - replace n with (n + 0) by lia. apply align_app; auto. constructor; constructor.
  - replace (S n) with (n + 1) by lia. apply align_app; auto. constructor; constructor.
  - rewrite <- (app_nil_r (rev r)).
    replace (S n) with (n + 1) by lia. apply align_app; auto. constructor; constructor.
  - rewrite <- (app_nil_r (rev h)).
    replace (S n) with (n + 1) by lia. apply align_app; auto. constructor; constructor.
Qed.

Lemma adist_rev a b n : adist (rev a) (rev b) n -> adist a b n.
Proof.
  intros [H1 H2]. split.
  - apply align_rev in H1. now rewrite !rev_involutive in H1.
  - intros m Hm. apply H2. now apply align_rev.
Qed.

Lemma adist_rev' a b n : adist a b n -> adist (rev a) (rev b) n.
Proof. intros. apply adist_rev. now rewrite !rev_involutive. Qed.

(** recurrences *)
Lemma align_to_nil a n : align a [] n -> n = length a.
Proof.
  intros H. remember [] as b. revert Heqb. induction H; intros E; try discriminate; auto.
  simpl. f_equal; auto.
Qed.
Lemma align_nil_to b n : align [] b n -> n = length b.
Proof.
  intros H. remember [] as a. revert Heqa. induction H; intros E; try discriminate; auto.
  simpl. f_equal; auto.
Qed.

Lemma adist_nil_r a : adist a [] (length a).
Proof.
  split.
  - induction a; constructor; auto.
  - intros m H. apply align_to_nil in H. lia.
Qed.
Lemma adist_nil_l b : adist [] b (length b).
Proof.
  split.
  - induction b; constructor; auto.
  - intros m H. apply align_nil_to in H. lia.
Qed.

Lemma align_drop_src x a b n : align (x :: a) b n ->
  exists k, k <= S n /\ align a b k.
Proof.
  intros H. destruct (align_trans _ _ _ H a 1) as (k & Hk & Hal).
  - constructor. apply align_refl.
  - exists k. split; [lia|auto].
Qed.
Lemma align_drop_dst y a b n : align a (y :: b) n ->
  exists k, k <= S n /\ align a b k.
Proof.
  intros H. assert (H1 : align (y :: b) b 1) by (constructor; apply align_refl).
  destruct (align_trans _ _ _ H1 _ _ H) as (k & Hk & Hal).
  exists k. split; [lia|auto].
Qed.

Lemma adist_match x a b n : adist a b n -> adist (x :: a) (x :: b) n.
Proof.
  intros [H1 H2]. split; [now constructor|].
  intros m Hm.
  inversion Hm as [|? ? ? ? Ha|? ? ? ? ? Ha|? ? ? ? Ha|? ? ? ? Ha]; subst.
  - auto.
  - apply H2 in Ha. lia.
  - destruct (align_drop_src _ _ _ _ Ha) as (k & Hk & Hal). apply H2 in Hal. lia.
  - destruct (align_drop_dst _ _ _ _ Ha) as (k & Hk & Hal). apply H2 in Hal. lia.
Qed.

Lemma adist_diff x y a b s i d : x <> y ->
  adist a b s -> adist (x :: a) b i -> adist a (y :: b) d ->
  adist (x :: a) (y :: b) (Nat.min (Nat.min (s + 1) (i + 1)) (d + 1)).
Proof.
  intros Hxy [S1 S2] [I1 I2] [D1 D2]. split.
  - assert (Hs : align (x :: a) (y :: b) (S s)) by (now constructor).
    assert (Hi : align (x :: a) (y :: b) (S i)) by (now constructor).
    assert (Hd : align (x :: a) (y :: b) (S d)) by (now constructor).
    destruct (Nat.min_spec (s + 1) (i + 1)) as [[_ ->]|[_ ->]];
    match goal with |- context [Nat.min ?u ?v] =>
      destruct (Nat.min_spec u v) as [[_ ->]|[_ ->]] end;
      rewrite Nat.add_1_r; auto.
  - intros m Hm.
    inversion Hm as [|? ? ? ? Ha|? ? ? ? ? Ha|? ? ? ? Ha|? ? ? ? Ha]; subst.
    + contradiction.
    + apply S2 in Ha. lia.
    + apply I2 in Ha. lia.
    + apply D2 in Ha. lia.
Qed.

(** score.py's uniform recurrence: min of the three even on a match *)
Lemma adist_min3 x y a b s i d :
  adist a b s -> adist (x :: a) b i -> adist a (y :: b) d ->
  adist (x :: a) (y :: b)
    (Nat.min (Nat.min (i + 1) (d + 1)) (s + (if eq_dec x y then 0 else 1))).
Proof.
  intros HS HI HD. destruct (eq_dec x y) as [->|Hxy].
  - assert (H := adist_match y a b s HS).
    replace (Nat.min _ _) with s; auto.
    destruct HS as [S1 S2], HI as [I1 I2], HD as [D1 D2].
    destruct (align_drop_src _ _ _ _ I1) as (k & Hk & Hal). apply S2 in Hal.
    destruct (align_drop_dst _ _ _ _ D1) as (k' & Hk' & Hal'). apply S2 in Hal'.
    lia.
  - assert (H := adist_diff x y a b s i d Hxy HS HI HD).
    replace (Nat.min (Nat.min (i + 1) (d + 1)) (s + 1))
      with (Nat.min (Nat.min (s + 1) (i + 1)) (d + 1)) by lia. auto.
Qed.

(** prefixes: snoc versions *)
Definition pdist (r h : list A) (i j n : nat) : Prop :=
  adist (firstn i r) (firstn j h) n.

Lemma firstn_S_snoc (l : list A) i x :
  nth_error l i = Some x -> firstn (S i) l = firstn i l ++ [x].
Proof.
  revert i. induction l as [|y l IH]; intros [|i] H; simpl in *; try discriminate.
  - now injection H as ->.
  - f_equal. now apply IH.
Qed.

Lemma pdist_match r h i j x n :
  nth_error r i = Some x -> nth_error h j = Some x ->
  pdist r h i j n -> pdist r h (S i) (S j) n.
Proof.
  unfold pdist. intros Hi Hj H. rewrite (firstn_S_snoc _ _ _ Hi), (firstn_S_snoc _ _ _ Hj).
  apply adist_rev. rewrite !rev_unit. apply adist_match. now apply adist_rev'.
Qed.

Lemma pdist_diff r h i j x y s ins del : x <> y ->
  nth_error r i = Some x -> nth_error h j = Some y ->
  pdist r h i j s -> pdist r h (S i) j ins -> pdist r h i (S j) del ->
  pdist r h (S i) (S j) (Nat.min (Nat.min (s + 1) (ins + 1)) (del + 1)).
Proof.
  unfold pdist. intros Hxy Hi Hj HS HI HD.
  rewrite (firstn_S_snoc _ _ _ Hi) in *. rewrite (firstn_S_snoc _ _ _ Hj) in *.
  apply adist_rev. rewrite !rev_unit.
  apply adist_rev' in HS, HI, HD. rewrite rev_unit in HI, HD.
  now apply adist_diff.
Qed.

Lemma pdist_min3 r h i j x y s ins del :
  nth_error r i = Some x -> nth_error h j = Some y ->
  pdist r h i j s -> pdist r h (S i) j ins -> pdist r h i (S j) del ->
  pdist r h (S i) (S j)
    (Nat.min (Nat.min (ins + 1) (del + 1)) (s + (if eq_dec x y then 0 else 1))).
Proof.
  unfold pdist. intros Hi Hj HS HI HD.
  rewrite (firstn_S_snoc _ _ _ Hi) in *. rewrite (firstn_S_snoc _ _ _ Hj) in *.
  apply adist_rev. rewrite !rev_unit.
  apply adist_rev' in HS, HI, HD. rewrite rev_unit in HI, HD.
  now apply adist_min3.
Qed.

Lemma pdist_0l r h j : j <= length h -> pdist r h 0 j j.
Proof.
  unfold pdist. intros. simpl. rewrite <- (firstn_length_le h H) at 2. apply adist_nil_l.
Qed.
Lemma pdist_0r r h i : i <= length r -> pdist r h i 0 i.
Proof.
  unfold pdist. intros. simpl. rewrite <- (firstn_length_le r H) at 2. apply adist_nil_r.
Qed.

(** ** Loops *)
(** loop rule for foldM over a range *)
Lemma foldM_seq {S : Type} (f : S -> nat -> result S) (I : nat -> S -> Prop) :
  forall n a s, I a s ->
  (forall k s, a <= k < a + n -> I k s -> exists s', f s k = Ok s' /\ I (k + 1) s') ->
  exists s', foldM f (seq a n) s = Ok s' /\ I (a + n) s'.
Proof.
  induction n as [|n IH]; intros a s H0 Hstep; simpl.
  - exists s. rewrite Nat.add_0_r. auto.
  - destruct (Hstep a s) as (s1 & E1 & H1); [lia|auto|].
    rewrite E1. simpl. destruct (IH (Datatypes.S a) s1) as (s2 & E2 & H2).
    + now rewrite Nat.add_1_r in H1.
    + intros k s' Hk Hi. apply Hstep; auto; lia.
    + exists s2. split; auto. replace (a + Datatypes.S n) with (Datatypes.S a + n) by lia. auto.
Qed.

Lemma mset_ok d i j v : i < mrows d -> j < mcols d ->
  exists d', mset d i j v = Ok d' /\ mrows d' = mrows d /\ mcols d' = mcols d /\
    mcell d' i j = v /\
    (forall a b, (a <> i \/ b <> j) -> mcell d' a b = mcell d a b).
Proof.
  intros Hi Hj. unfold mset.
  apply Nat.ltb_lt in Hi, Hj. rewrite Hi, Hj. simpl.
  eexists. split; [reflexivity|]. simpl. repeat split.
  - now rewrite !Nat.eqb_refl.
  - intros a b Hab. destruct (Nat.eqb_spec a i), (Nat.eqb_spec b j); simpl; auto.
    destruct Hab; contradiction.
Qed.

Lemma mget_ok d i j : i < mrows d -> j < mcols d -> mget d i j = Ok (mcell d i j).
Proof.
  intros Hi Hj. unfold mget. apply Nat.ltb_lt in Hi, Hj. now rewrite Hi, Hj.
Qed.

Lemma lget_ok (l : list A) i : i < length l -> exists x, lget l i = Ok x /\ nth_error l i = Some x.
Proof.
  intros H. unfold lget. destruct (nth_error l i) eqn:E; eauto.
  apply nth_error_None in E. lia.
Qed.

Definition shape (n m : nat) (d : mat) : Prop := mrows d = n /\ mcols d = m.

(** state of the fill loop: border done, rows < i done, row i done up to j *)
Definition filled (r h : list A) (i j : nat) (d : mat) : Prop :=
  shape (length r + 1) (length h + 1) d /\
  (forall a, a <= length r -> mcell d a 0 = a) /\
  (forall b, b <= length h -> mcell d 0 b = b) /\
  (forall a b, a <= length r -> b <= length h -> a < i \/ (a = i /\ b < j) ->
     pdist r h a b (mcell d a b)).

Definition border (r h : list A) (d : mat) : Prop :=
  shape (length r + 1) (length h + 1) d /\
  (forall a, a <= length r -> mcell d a 0 = a) /\
  (forall b, b <= length h -> mcell d 0 b = b).

Lemma ter_init_ok r h :
  exists d, for2 ter_init_cell (seq 0 (length r + 1)) (seq 0 (length h + 1))
              (zeros (length r + 1) (length h + 1)) = Ok d /\ border r h d.
Proof.
  unfold for2.
  destruct (foldM_seq
    (fun d i => foldM (fun d j => ter_init_cell d i j) (seq 0 (length h + 1)) d)
    (fun i d => shape (length r + 1) (length h + 1) d /\
       (forall a, a < i -> mcell d a 0 = a) /\
       (0 < i -> forall b, b <= length h -> mcell d 0 b = b))
    (length r + 1) 0 (zeros (length r + 1) (length h + 1))) as (d & E & Hs & Ha & Hb).
  - repeat split; intros; lia.
  - intros i d Hi (Hsh & Ha & Hb).
    destruct (foldM_seq (fun d j => ter_init_cell d i j)
      (fun j d' => shape (length r + 1) (length h + 1) d' /\
         (forall a, a < i -> mcell d' a 0 = a) /\
         (0 < j -> mcell d' i 0 = i) /\
         (0 < i -> forall b, b <= length h -> mcell d' 0 b = b) /\
         (i = 0 -> forall b, b < j -> mcell d' 0 b = b))
      (length h + 1) 0 d) as (d' & E' & Hsh' & H1 & H2 & H3 & H4).
    + repeat split; try apply Hsh; intros; auto; lia.
    + intros j d1 Hj (Hsh1 & H1 & H2 & H3 & H4). unfold ter_init_cell.
      destruct (Nat.eqb_spec i 0) as [->|Hi0].
      * destruct Hsh1 as [R1 C1].
        destruct (mset_ok d1 0 j j) as (d2 & E2 & R2 & C2 & V2 & O2); [lia|lia|].
        exists d2. split; auto. repeat split; try lia.
        -- intros _. destruct (Nat.eq_dec j 0) as [->|]; [auto|].
           rewrite O2 by lia. apply H4; auto; lia.
        -- intros _ b Hb'. destruct (Nat.eq_dec b j) as [->|]; [auto|].
           rewrite O2 by auto. apply H4; auto; lia.
      * destruct (Nat.eqb_spec j 0) as [->|Hj0].
        -- destruct Hsh1 as [R1 C1].
           destruct (mset_ok d1 i 0 i) as (d2 & E2 & R2 & C2 & V2 & O2); [lia|lia|].
           exists d2. split; auto. split; [split; lia|]. split; [|split; [|split]].
           ++ intros a Ha'. rewrite O2 by lia. auto.
           ++ auto.
           ++ intros _ b Hb'. rewrite O2 by lia. apply H3; auto; lia.
           ++ intros; lia.
        -- exists d1. split; auto. repeat split; try apply Hsh1; auto; intros; try lia.
    + exists d'. split; auto. repeat split; try apply Hsh'.
      * intros a Ha'. destruct (Nat.eq_dec a i) as [->|]; [apply H2; lia|apply H1; lia].
      * intros _ b Hb'. destruct (Nat.eq_dec i 0) as [E0|]; [apply H4; lia|apply H3; lia].
  - exists d. split; [exact E|]. split; [auto|]. split; [intros; apply Ha; lia|apply Hb; lia].
Qed.

Ltac fsplit := refine (conj (conj _ _) (conj _ (conj _ _))).

Lemma ter_fill_ok r h d0 : border r h d0 ->
  exists d, for2 (ter_cell eq_dec r h) (seq 1 (length r)) (seq 1 (length h)) d0 = Ok d /\
    filled r h (1 + length r) 0 d.
Proof.
  intros (Hsh0 & Ha0 & Hb0). unfold for2.
  apply (foldM_seq _ (fun i d => filled r h i 0 d)).
  - fsplit; try apply Hsh0; auto. intros a b Ha Hb [H|H]; [|lia].
    replace a with 0 by lia. rewrite Hb0 by auto. now apply pdist_0l.
  - intros i d Hi (Hsh & Ha & Hb & Hp).
    destruct (foldM_seq (fun d j => ter_cell eq_dec r h d i j)
      (fun j d => filled r h i j d) (length h) 1 d) as (d' & E' & Hf).
    + fsplit; try apply Hsh; auto. intros a b Ha' Hb' [H|[-> H]].
      * apply Hp; auto.
      * replace b with 0 by lia. rewrite Ha by auto. apply pdist_0r; lia.
    + clear d Hsh Ha Hb Hp. intros j d Hj (Hsh & Ha & Hb & Hp).
      destruct i as [|i]; [lia|]. destruct j as [|j]; [lia|].
      unfold ter_cell. rewrite !Nat.sub_succ, !Nat.sub_0_r.
      destruct (lget_ok r i) as (x & -> & Hx); [lia|].
      destruct (lget_ok h j) as (y & -> & Hy); [lia|]. cbn [bindr].
      destruct Hsh as [HR HC].
      assert (Hgoal : forall v, pdist r h (S i) (S j) v ->
        exists s', mset d (S i) (S j) v = Ok s' /\ filled r h (S i) (S j + 1) s').
      { intros v Hv. destruct (mset_ok d (S i) (S j) v) as (d2 & E2 & R2 & C2 & V2 & O2);
          [lia|lia|].
        exists d2. split; auto. fsplit; try lia.
        - intros a Ha'. rewrite O2 by lia. auto.
        - intros b Hb'. rewrite O2 by lia. auto.
        - intros a b Ha' Hb' H.
          destruct (Nat.eq_dec a (S i)) as [->|Hna];
            [destruct (Nat.eq_dec b (S j)) as [->|Hnb]|].
          + now rewrite V2.
          + rewrite O2 by auto. apply Hp; auto. lia.
          + rewrite O2 by auto. apply Hp; auto. lia. }
      destruct (eq_dec x y) as [->|Hxy].
      * rewrite mget_ok by lia. cbn [bindr]. apply Hgoal.
        eapply pdist_match; eauto. apply Hp; lia.
      * rewrite !mget_ok by lia. cbn [bindr]. apply Hgoal.
        eapply pdist_diff; eauto; apply Hp; lia.
    + exists d'. split; [exact E'|]. destruct Hf as (Hsh' & Ha' & Hb' & Hp').
      fsplit; try apply Hsh'; auto. intros a b Ha2 Hb2 H. apply Hp'; auto. lia.
Qed.

Lemma pdist_full r h n : pdist r h (length r) (length h) n <-> adist r h n.
Proof. unfold pdist. now rewrite !firstn_all. Qed.

Lemma wer_adist r h : exists n, wer eq_dec r h = Ok n /\ adist r h n.
Proof.
  unfold wer. destruct (ter_init_ok r h) as (d & -> & Hb). cbn [bindr].
  destruct (ter_fill_ok r h d Hb) as (d' & -> & Hsh & Ha & Hb' & Hp). cbn [bindr].
  destruct Hsh. rewrite mget_ok by lia. eexists. split; [reflexivity|].
  apply pdist_full. apply Hp; lia.
Qed.

(** *** score.py: transposed matrix *)
Definition filledT (r h : list A) (i j : nat) (d : mat) : Prop :=
  shape (length h + 1) (length r + 1) d /\
  (forall a, a <= length r -> mcell d 0 a = a) /\
  (forall b, b <= length h -> mcell d b 0 = b) /\
  (forall a b, a <= length r -> b <= length h -> a < i \/ (a = i /\ b < j) ->
     pdist r h a b (mcell d b a)).

Lemma score_err_adist r h : exists n, score_err eq_dec r h = Ok n /\ adist r h n.
Proof.
  unfold score_err.
  destruct (foldM_seq (fun m i => mset m 0 i i)
    (fun i d => shape (length h + 1) (length r + 1) d /\
                forall a, a < i -> mcell d 0 a = a)
    (length r + 1) 0 (zeros (length h + 1) (length r + 1))) as (d1 & -> & Hsh1 & H1).
  { repeat split; intros; lia. }
  { intros i d Hi ((HR & HC) & H). destruct (mset_ok d 0 i i) as (d2 & E2 & R2 & C2 & V2 & O2); [lia|lia|].
    exists d2. split; auto. repeat split; try lia. intros a Ha.
    destruct (Nat.eq_dec a i) as [->|]; auto. rewrite O2 by auto. apply H; lia. }
  cbn [bindr].
  destruct (foldM_seq (fun m i => mset m i 0 i)
    (fun i d => shape (length h + 1) (length r + 1) d /\
                (forall a, a <= length r -> mcell d 0 a = a) /\
                forall b, b < i -> mcell d b 0 = b)
    (length h + 1) 0 d1) as (d2 & -> & Hsh2 & H2 & H3).
  { repeat split; try apply Hsh1; intros; try lia. apply H1; lia. }
  { intros i d Hi ((HR & HC) & Ha & Hb).
    destruct (mset_ok d i 0 i) as (d2 & E2 & R2 & C2 & V2 & O2); [lia|lia|].
    exists d2. split; auto. repeat split; try lia.
    - intros a Ha'. destruct (Nat.eq_dec a 0) as [->|].
      + destruct (Nat.eq_dec i 0) as [->|]; auto. rewrite O2 by lia. apply Ha; lia.
      + rewrite O2 by lia. auto.
    - intros b Hb'. destruct (Nat.eq_dec b i) as [->|]; auto. rewrite O2 by auto. apply Hb; lia. }
  cbn [bindr]. unfold for2.
  destruct (foldM_seq (fun d i => foldM (fun d j => score_cell eq_dec r h d i j)
      (seq 1 (length h)) d) (fun i d => filledT r h i 0 d) (length r) 1 d2)
    as (d3 & -> & Hsh3 & _ & _ & Hp3).
  { fsplit; try apply Hsh2; auto.
    - intros b Hb. apply H3; lia.
    - intros a b Ha Hb [H|H]; [|lia]. replace a with 0 by lia.
      rewrite H3 by lia. now apply pdist_0l. }
  { intros i d Hi (Hsh & Ha & Hb & Hp).
    destruct (foldM_seq (fun d j => score_cell eq_dec r h d i j)
      (fun j d => filledT r h i j d) (length h) 1 d) as (d' & E' & Hf).
    + fsplit; try apply Hsh; auto. intros a b Ha' Hb' [H|[-> H]].
      * apply Hp; auto.
      * replace b with 0 by lia. rewrite Ha by auto. apply pdist_0r; lia.
    + clear d Hsh Ha Hb Hp. intros j d Hj ((HR & HC) & Ha & Hb & Hp).
      destruct i as [|i]; [lia|]. destruct j as [|j]; [lia|].
      unfold score_cell. rewrite !Nat.sub_succ, !Nat.sub_0_r.
      rewrite !mget_ok by lia. cbn [bindr].
      destruct (lget_ok r i) as (x & -> & Hx); [lia|].
      destruct (lget_ok h j) as (y & -> & Hy); [lia|]. cbn [bindr].
      match goal with |- context [mset _ _ _ ?v] =>
        destruct (mset_ok d (S j) (S i) v) as (d4 & E4 & R4 & C4 & V4 & O4); [lia|lia|] end.
      exists d4. split; auto. fsplit; try lia.
      * intros a Ha'. rewrite O4 by lia. auto.
      * intros b Hb'. rewrite O4 by lia. auto.
      * intros a b Ha' Hb' H.
        destruct (Nat.eq_dec a (S i)) as [->|Hna];
            [destruct (Nat.eq_dec b (S j)) as [->|Hnb]|].
        -- rewrite V4. eapply pdist_min3; eauto; apply Hp; lia.
        -- rewrite O4 by auto. apply Hp; auto. lia.
        -- rewrite O4 by auto. apply Hp; auto. lia.
    + exists d'. split; [exact E'|]. destruct Hf as (Hsh' & Ha' & Hb' & Hp').
      fsplit; try apply Hsh'; auto. intros a b Ha2 Hb2 H. apply Hp'; auto. lia. }
  cbn [bindr]. destruct Hsh3. rewrite mget_ok by lia. eexists. split; [reflexivity|].
  apply pdist_full. apply Hp3; lia.
Qed.

Lemma adist_unique a b n m : adist a b n -> adist a b m -> n = m.
Proof. intros [H1 H2] [H3 H4]. apply H2 in H3. apply H4 in H1. lia. Qed.

Lemma distance_unique (a b : list A) n m : distance a b n -> distance a b m -> n = m.
Proof. intros [H1 H2] [H3 H4]. apply H2 in H3. apply H4 in H1. lia. Qed.

Lemma wer_distance r h : exists n, wer eq_dec r h = Ok n /\ distance r h n.
Proof. destruct (wer_adist r h) as (n & ? & ?). eauto using adist_distance. Qed.

Lemma score_err_distance r h : exists n, score_err eq_dec r h = Ok n /\ distance r h n.
Proof. destruct (score_err_adist r h) as (n & ? & ?). eauto using adist_distance. Qed.

Lemma score_err_wer r h : score_err eq_dec r h = wer eq_dec r h.
Proof.
  destruct (score_err_adist r h) as (n & -> & Hn), (wer_adist r h) as (m & -> & Hm).
  f_equal. eapply adist_unique; eauto.
Qed.

(** *** collapsing runs *)
Lemma groupby_from_stretch x l : stretch (x :: groupby_from eq_dec x l) (x :: l).
Proof.
  revert x. induction l as [|y l IH]; intros x; simpl.
  - exact (stretch_cons x 0 [] [] stretch_nil).
  - destruct (eq_dec x y) as [->|Hxy].
    + specialize (IH y). inversion IH; subst.
      exact (stretch_cons y (S n) _ _ H0).
    + exact (stretch_cons x 0 _ _ (IH y)).
Qed.

Lemma groupby_from_norep x l : no_repeat (x :: groupby_from eq_dec x l).
Proof.
  revert x. induction l as [|y l IH]; intros x; simpl; auto.
  destruct (eq_dec x y) as [->|Hxy].
  - apply IH.
  - split; [auto|apply IH].
Qed.

Lemma groupby_spec l : stretch (groupby eq_dec l) l /\ no_repeat (groupby eq_dec l).
Proof.
  destruct l as [|x l]; simpl; [split; [constructor|exact I]|].
  split; [apply groupby_from_stretch|apply groupby_from_norep].
Qed.

Lemma groupby_from_repeat x n l :
  groupby_from eq_dec x (repeat x n ++ l) = groupby_from eq_dec x l.
Proof. induction n; simpl; auto. destruct (eq_dec x x); [auto|contradiction]. Qed.

Lemma groupby_stretch c l : stretch c l -> no_repeat c -> groupby eq_dec l = c.
Proof.
  intros H. destruct H as [|x n c l H]; [reflexivity|].
  intros Hn. simpl. f_equal. rewrite groupby_from_repeat.
  revert x Hn. clear n. induction H as [|y n c l H IH]; intros x Hn; [reflexivity|].
  simpl. destruct Hn as [Hxy Hn]. destruct (eq_dec x y); [contradiction|].
  f_equal. rewrite groupby_from_repeat. apply IH. exact Hn.
Qed.

(** dedup = groupby *)
Lemma dedup_groupby l : dedup eq_dec l = groupby eq_dec l.
Proof.
  unfold dedup. destruct l as [|x l]; [reflexivity|].
  simpl length. rewrite <- cons_seq. cbn [flat_map]. simpl nth_error at 1. cbn iota.
  change (groupby eq_dec (x :: l)) with (x :: groupby_from eq_dec x l).
  change ((0 =? 0)) with true. cbn iota. cbn [app]. f_equal.
  rewrite <- seq_shift, flat_map_concat_map, map_map, <- flat_map_concat_map.
  revert x. induction l as [|y l IH]; intros x; [reflexivity|].
  simpl length. rewrite <- cons_seq. cbn [flat_map]. simpl nth_error at 1.
  change (1 =? 0) with false. cbn iota. change (1 - 1) with 0. cbn [nth_error].
  simpl groupby_from.
  assert (Hr : flat_map (fun a => match nth_error (x :: y :: l) (S a) with
      | Some e => if S a =? 0 then [e] else
           match nth_error (x :: y :: l) (S a - 1) with
           | Some p => if eq_dec p e then [] else [e] | None => [e] end
      | None => [] end) (seq 1 (length l)) = groupby_from eq_dec y l).
  { rewrite <- IH. rewrite <- seq_shift, flat_map_concat_map, map_map, <- flat_map_concat_map.
    apply flat_map_ext. intros a. simpl nth_error at 1.
    change (S (S a) =? 0) with false. change (S a =? 0) with false. cbn iota.
    rewrite !Nat.sub_succ, !Nat.sub_0_r. reflexivity. }
  destruct (eq_dec x y) as [->|].
  - exact Hr.
  - exact (f_equal (cons y) Hr).
Qed.

(** *** the corpus level loops *)
Lemma dget_in {K V} (keq : forall x y : K, {x = y} + {x <> y}) (d : list (K * V)) k v :
  dget keq d k = Some v -> In (k, v) d.
Proof.
  induction d as [|[k' v'] d IH]; simpl; [discriminate|].
  destruct (keq k k') as [->|]; [intros [= ->]; now left|auto].
Qed.
Lemma dget_none {K V} (keq : forall x y : K, {x = y} + {x <> y}) (d : list (K * V)) k :
  dget keq d k = None -> forall v, ~ In (k, v) d.
Proof.
  induction d as [|[k' v'] d IH]; simpl; [auto|].
  destruct (keq k k') as [->|]; [discriminate|].
  intros H v [E|Hi]; [congruence|]. eapply IH; eauto.
Qed.
Lemma in_dget {K V} (keq : forall x y : K, {x = y} + {x <> y}) (d : list (K * V)) k v :
  NoDup (map fst d) -> In (k, v) d -> dget keq d k = Some v.
Proof.
  induction d as [|[k' v'] d IH]; simpl; [contradiction|].
  intros Hn. inversion_clear Hn as [|? ? Hni Hn'].
  destruct (keq k k') as [->|Hk].
  - intros [[= ->]|Hi]; auto. exfalso. apply Hni. now apply (in_map fst) in Hi.
  - intros [[= <- ->]|Hi]; [contradiction|auto].
Qed.

Lemma foldM_ter hyp ref e0 w0 :
  exists es ws, foldM (ter_body eq_dec hyp) ref (e0, w0) = Ok (e0 + es, w0 + ws)
    /\ corpus hyp ref es ws.
Proof.
  revert e0 w0. induction ref as [|[k r] ref IH]; intros e0 w0; simpl.
  - exists 0, 0. rewrite !Nat.add_0_r. split; [reflexivity|constructor].
  - unfold ter_body at 1. simpl. destruct (dget Nat.eq_dec hyp k) as [h|] eqn:E.
    + destruct (wer_distance r h) as (e & -> & He). simpl.
      destruct (IH (e0 + e) (w0 + length r)) as (es & ws & -> & Hc).
      exists (e + es), (length r + ws). split; [f_equal; f_equal; lia|].
      econstructor; eauto. now apply dget_in in E.
    + simpl. destruct (IH e0 w0) as (es & ws & -> & Hc).
      exists es, ws. split; auto. constructor; auto. eapply dget_none; eauto.
Qed.

Lemma corpus_unique (hyp ref : list (nat * list A)) : NoDup (map fst hyp) ->
  forall e w e' w', corpus hyp ref e w -> corpus hyp ref e' w' -> e = e' /\ w = w'.
Proof.
  intros Hn. induction ref as [|[k r] ref IH]; intros e w e' w' H H'.
  - inversion H; inversion H'; subst; auto.
  - inversion H as [|? ? h e1 ? ? ? Hi Hd Hc|? ? ? ? ? Hi Hc];
    inversion H' as [|? ? h' e1' ? ? ? Hi' Hd' Hc'|? ? ? ? ? Hi' Hc']; subst.
    + assert (h = h').
      { apply (in_dget Nat.eq_dec) in Hi; auto. apply (in_dget Nat.eq_dec) in Hi'; auto.
        congruence. }
      subst. rewrite (distance_unique _ _ _ _ Hd Hd').
      destruct (IH _ _ _ _ Hc Hc'). subst; auto.
    + exfalso; eapply Hi'; eauto.
    + exfalso; eapply Hi; eauto.
    + eapply IH; eauto.
Qed.

Lemma filter_text_plain t : filter_text eq_dec None true None t = Ok t.
Proof. reflexivity. Qed.

Lemma filter_text_merge t : filter_text eq_dec None false None t = Ok (groupby eq_dec t).
Proof. unfold filter_text. simpl. now rewrite dedup_groupby. Qed.

Lemma foldM_score hyp ref acc dup :
  (forall k, In k (map fst ref) -> In k (map fst hyp)) ->
  foldM (score_body eq_dec None dup None hyp) ref acc =
  foldM (ter_body eq_dec
           (map (fun u => (fst u, if dup then snd u else groupby eq_dec (snd u))) hyp))
    (map (fun u => (fst u, if dup then snd u else groupby eq_dec (snd u))) ref) acc.
Proof.
  intros Hk. revert acc. induction ref as [|[k r] ref IH]; intros acc; [reflexivity|].
  cbn [foldM map]. unfold score_body at 1, ter_body at 1. cbn [fst snd].
  assert (Hd : forall hyp k, dget Nat.eq_dec
     (map (fun u : nat * list A => (fst u, if dup then snd u else groupby eq_dec (snd u))) hyp) k
     = option_map (fun h => if dup then h else groupby eq_dec h) (dget Nat.eq_dec hyp k)).
  { clear. intros hyp k. induction hyp as [|[k' h] hyp IH]; [reflexivity|]. simpl.
    destruct (Nat.eq_dec k k'); auto. }
  rewrite Hd. destruct (dget Nat.eq_dec hyp k) as [h|] eqn:E.
  - simpl option_map. cbn iota.
    assert (Hf : forall t, filter_text eq_dec None dup None t =
       Ok (if dup then t else groupby eq_dec t)).
    { intros t. destruct dup; [reflexivity|apply filter_text_merge]. }
    rewrite !Hf. cbn [bindr]. rewrite score_err_wer.
    destruct (wer eq_dec (if dup then r else groupby eq_dec r) _); cbn [bindr]; auto.
    apply IH. intros; apply Hk; now right.
  - exfalso. assert (Hin : In k (map fst hyp)) by (apply Hk; now left).
    apply in_map_iff in Hin as ([k' h] & <- & Hin). eapply dget_none in E; eauto.
Qed.

Lemma same_keys_spec a b : same_keys a b = true <->
  (forall k, In k a <-> In k b).
Proof.
  unfold same_keys. rewrite andb_true_iff, !forallb_forall. split.
  - intros [H1 H2] k. split; intros H.
    + apply H1, existsb_exists in H as (x & Hx & E). apply Nat.eqb_eq in E. now subst.
    + apply H2, existsb_exists in H as (x & Hx & E). apply Nat.eqb_eq in E. now subst.
  - intros H. split; intros k Hk; apply existsb_exists; exists k; rewrite Nat.eqb_refl;
      split; auto; now apply H.
Qed.

Lemma score_main_ter_main dup ref hyp :
  (forall k, In k (map fst ref) <-> In k (map fst hyp)) ->
  score_main eq_dec None dup None ref hyp = ter_main eq_dec None (negb dup) ref hyp.
Proof.
  intros H. unfold score_main, ter_main.
  rewrite (proj2 (same_keys_spec _ _) H). simpl negb at 1. cbn iota.
  rewrite foldM_score by (intros; now apply H).
  replace (map (fun u : nat * list A => (fst u, if dup then snd u else groupby eq_dec (snd u))))
    with (map (fun u : nat * list A => (fst u, ter_prepare eq_dec None (negb dup) (snd u))));
    [reflexivity|].
  unfold ter_prepare. destruct dup; reflexivity.
Qed.

(** ** options *)
Lemma dget_iff (d : list (A * A)) x y : NoDup (map fst d) ->
  dget eq_dec d x = Some y <-> In (x, y) d.
Proof.
  induction d as [|[k v] d IH]; intros Hn; simpl in *; [split; [discriminate|tauto]|].
  inversion_clear Hn. destruct (eq_dec x k) as [->|Hne].
  - split; [intros [= ->]; now left|]. intros [[= ->]|Hin]; [reflexivity|].
    exfalso. apply H. change k with (fst (k, y)). now apply in_map.
  - rewrite IH by auto. split; [now right|]. intros [[= -> _]|]; [congruence|auto].
Qed.

Lemma dget_none_iff (d : list (A * A)) x : dget eq_dec d x = None <-> ~ In x (map fst d).
Proof.
  induction d as [|[k v] d IH]; simpl; [split; auto|].
  destruct (eq_dec x k) as [->|Hne]; [split; [discriminate|intros H; exfalso; apply H; now left]|].
  rewrite IH. split; [intros H [E|E]; [congruence|auto]|tauto].
Qed.

Lemma map_tokens_translated d : NoDup (map fst d) -> forall l c,
  map_tokens eq_dec d l = c <-> translated d l c.
Proof.
  intros Hn. induction l as [|x l IH]; intros c; simpl.
  - split; [intros <-; constructor|]. intros H; now inversion H.
  - destruct (dget eq_dec d x) as [y|] eqn:E.
    + apply dget_iff in E; auto. split.
      * intros <-. constructor; auto. now apply IH.
      * intros H. inversion_clear H.
        -- apply (dget_iff d x y Hn) in E. apply (dget_iff d x y0 Hn) in H0.
           rewrite E in H0. injection H0 as <-. f_equal. now apply IH.
        -- exfalso. eapply H0; eauto.
    + split.
      * intros <-. apply translated_drop; [|now apply IH].
        intros y Hy. apply dget_iff in Hy; auto. congruence.
      * intros H. inversion_clear H; [apply dget_iff in H0; auto; congruence|]. now apply IH.
Qed.

Lemma mem_tok_iff x l : mem_tok eq_dec x l = true <-> In x l.
Proof. unfold mem_tok. destruct (in_dec eq_dec x l); split; auto; discriminate. Qed.

Lemma mem_tok_not x l : mem_tok eq_dec x l = false <-> ~ In x l.
Proof. unfold mem_tok. destruct (in_dec eq_dec x l); split; auto; try discriminate; contradiction. Qed.

Lemma score_map_cleaned d rm : NoDup (map fst d) -> forall l c,
  score_map eq_dec d rm l = Ok c <-> cleaned d rm l c.
Proof.
  intros Hn. induction l as [|x l IH]; intros c; simpl.
  - split; [intros [= <-]; constructor|]. intros H; now inversion H.
  - destruct (mem_tok eq_dec x rm) eqn:Ex.
    + apply mem_tok_iff in Ex. rewrite IH. split; [now constructor|].
      intros H. inversion_clear H; auto; contradiction.
    + apply mem_tok_not in Ex. destruct (dget eq_dec d x) as [y|] eqn:E.
      2:{ split; [discriminate|]. intros H. inversion_clear H; [contradiction| |];
            apply (dget_iff d x y Hn) in H1; congruence. }
      apply dget_iff in E; auto. destruct (mem_tok eq_dec y rm) eqn:Ey.
      * apply mem_tok_iff in Ey. rewrite IH. split; [now apply cleaned_after with y|].
        intros H. inversion_clear H; [contradiction|assumption|].
        apply (dget_iff d x y Hn) in E. apply (dget_iff d x y0 Hn) in H1. congruence.
      * apply mem_tok_not in Ey. split.
        -- destruct (score_map eq_dec d rm l) as [r|]; simpl; [|discriminate].
           intros [= <-]. apply cleaned_keep; auto. now apply IH.
        -- intros H. inversion_clear H; [contradiction| |].
           ++ apply (dget_iff d x y Hn) in E. apply (dget_iff d x y0 Hn) in H1. congruence.
           ++ apply IH in H3. rewrite H3. simpl.
              apply (dget_iff d x y Hn) in E. apply (dget_iff d x y0 Hn) in H1. congruence.
Qed.

Lemma score_map_error d rm : forall l, score_map eq_dec d rm l = Err KeyError <->
  exists x, In x l /\ ~ In x rm /\ ~ In x (map fst d).
Proof.
  induction l as [|x l IH]; simpl.
  - split; [discriminate|intros (x & [] & _)].
  - destruct (mem_tok eq_dec x rm) eqn:Ex.
    + apply mem_tok_iff in Ex. rewrite IH. split.
      * intros (z & Hz & H). exists z. tauto.
      * intros (z & [<-|Hz] & H1 & H2); [contradiction|]. exists z. tauto.
    + apply mem_tok_not in Ex. destruct (dget eq_dec d x) as [y|] eqn:E.
      * assert (Hx : In x (map fst d)).
        { destruct (in_dec eq_dec x (map fst d)) as [Hi|Hi]; auto.
          apply dget_none_iff in Hi. congruence. }
        assert (Hs : (exists z, (x = z \/ In z l) /\ ~ In z rm /\ ~ In z (map fst d)) <->
                     exists z, In z l /\ ~ In z rm /\ ~ In z (map fst d)).
        { split; intros (z & Hz & H1 & H2); exists z; [|tauto].
          destruct Hz as [<-|Hz]; [contradiction|tauto]. }
        rewrite Hs, <- IH. destruct (mem_tok eq_dec y rm); [reflexivity|].
        destruct (score_map eq_dec d rm l); simpl; [split; discriminate|]. split; congruence.
      * apply dget_none_iff in E. split; [|reflexivity]. intros _. exists x. tauto.
Qed.

Lemma filter_without rm : forall l c,
  filter (fun x => negb (mem_tok eq_dec x rm)) l = c <-> without rm l c.
Proof.
  induction l as [|x l IH]; intros c; simpl.
  - split; [intros <-; constructor|]. intros H; now inversion H.
  - destruct (mem_tok eq_dec x rm) eqn:Ex; simpl.
    + apply mem_tok_iff in Ex. rewrite IH. split; [now constructor|].
      intros H. inversion_clear H; auto; contradiction.
    + apply mem_tok_not in Ex. split.
      * intros <-. apply without_keep; auto. now apply IH.
      * intros H. inversion_clear H; [contradiction|]. f_equal. now apply IH.
Qed.

Lemma dget_map_values (f : list A -> list A) (hyp : list (nat * list A)) k :
  dget Nat.eq_dec (map (fun u => (fst u, f (snd u))) hyp) k =
  option_map f (dget Nat.eq_dec hyp k).
Proof.
  induction hyp as [|[k' h] hyp IH]; [reflexivity|]. simpl. destruct (Nat.eq_dec k k'); auto.
Qed.

Lemma dget_value_in (hyp : list (nat * list A)) k h :
  dget Nat.eq_dec hyp k = Some h -> In (k, h) hyp.
Proof.
  induction hyp as [|[k' h'] hyp IH]; simpl; [discriminate|].
  destruct (Nat.eq_dec k k') as [->|]; [intros [= ->]; now left|right; auto].
Qed.

Lemma score_main_options rm dup d (f : list A -> list A) ref hyp :
  (forall k, In k (map fst ref) <-> In k (map fst hyp)) ->
  (forall k t, In (k, t) ref \/ In (k, t) hyp -> filter_text eq_dec rm dup d t = Ok (f t)) ->
  score_main eq_dec rm dup d ref hyp =
  ter_main eq_dec None false (map (fun u => (fst u, f (snd u))) ref)
    (map (fun u => (fst u, f (snd u))) hyp).
Proof.
  intros Hk Hf. unfold score_main, ter_main.
  rewrite (proj2 (same_keys_spec _ _) Hk). simpl negb at 1. cbn iota.
  unfold ter_prepare. rewrite !map_map. cbn [fst snd].
  assert (E : forall rs acc, incl rs ref ->
    foldM (score_body eq_dec rm dup d hyp) rs acc =
    foldM (ter_body eq_dec (map (fun u => (fst u, f (snd u))) hyp))
      (map (fun u => (fst u, f (snd u))) rs) acc).
  { induction rs as [|[k r] rs IH]; intros acc Hi; [reflexivity|].
    cbn [foldM map]. unfold score_body at 1, ter_body at 1. cbn [fst snd].
    assert (Hin : In (k, r) ref) by (apply Hi; now left).
    rewrite (Hf k r) by auto. cbn [bindr]. rewrite dget_map_values.
    destruct (dget Nat.eq_dec hyp k) as [h|] eqn:Eh.
    - cbn [option_map]. rewrite (Hf k h) by (right; now apply dget_value_in). cbn [bindr].
      rewrite score_err_wer. destruct (wer eq_dec (f r) (f h)); cbn [bindr]; auto.
      apply IH. intros z Hz. apply Hi. now right.
    - exfalso. assert (Hin' : In k (map fst hyp)).
      { apply Hk. change k with (fst (k, r)). now apply in_map. }
      apply in_map_iff in Hin' as ([k' h] & <- & Hin'). eapply dget_none in Eh; eauto. }
  rewrite E by apply incl_refl. reflexivity.
Qed.

End P.
