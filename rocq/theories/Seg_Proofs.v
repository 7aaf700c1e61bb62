(** Proofs about Seg_Model. *)
From Coq Require Import List Arith ZArith Bool Lia Reals Lra.
From Flocq Require Import Core.
From Verif Require Import Prelude Edit_Model Edit_Spec Edit_Proofs Dec_Model Dec_Spec
  Dec_Proofs Seg_Model Seg_Spec.
Import ListNotations.

Section Seg.
Context {A : Type}.
Variable eq_dec : forall x y : A, {x = y} + {x <> y}.

Lemma convert_align_stretch (segs : list (Z * Z * A)) :
  (forall x, In x segs -> (seg_start x <= seg_end x)%Z) ->
  stretch (map seg_lab segs) (convert_align segs).
Proof.
  induction segs as [|[[s e] u] t IH]; intros H; [constructor|].
  cbn [convert_align map]. change (seg_lab (s, e, u)) with u.
  assert (H0 := H _ (or_introl eq_refl)). unfold seg_start, seg_end in H0; simpl in H0.
  replace (Z.to_nat (e - s + 1)) with (S (Z.to_nat (e - s))) by lia.
  constructor. apply IH. intros; apply H; now right.
Qed.

(** label of each frame of contiguous segments laid over [fs, fe) *)
Definition lay (lo hi : (Z * Z * A) -> Z) (segs : list (Z * Z * A)) : list A :=
  flat_map (fun x => repeat (seg_lab x) (Z.to_nat (hi x - lo x))) segs.

Fixpoint chained (lo hi : (Z * Z * A) -> Z) (segs : list (Z * Z * A)) : Prop :=
  match segs with
  | x :: ((y :: _) as t) => hi x = lo y /\ chained lo hi t
  | _ => True
  end.

Lemma chained_tail lo hi x (t : list (Z * Z * A)) : chained lo hi (x :: t) -> chained lo hi t.
Proof. destruct t; simpl; tauto. Qed.

Lemma lay_length lo hi (segs : list (Z * Z * A)) d x :
  (forall y, In y (x :: segs) -> (lo y <= hi y)%Z) -> chained lo hi (x :: segs) ->
  Z.of_nat (length (lay lo hi (x :: segs))) = (hi (last (x :: segs) d) - lo x)%Z /\
  (lo x <= hi (last (x :: segs) d))%Z.
Proof.
  revert x. induction segs as [|y t IH]; intros x H Hc.
  - unfold lay. cbn [flat_map last]. rewrite app_nil_r, repeat_length.
    assert (H0 := H x (or_introl eq_refl)). lia.
  - assert (H0 := H x (or_introl eq_refl)).
    destruct (IH y) as [I1 I2]; [intros; apply H; now right|now apply chained_tail in Hc|].
    destruct Hc as [Hc _].
    change (lay lo hi (x :: y :: t)) with
      (repeat (seg_lab x) (Z.to_nat (hi x - lo x)) ++ lay lo hi (y :: t)).
    rewrite app_length, repeat_length.
    change (last (x :: y :: t) d) with (last (y :: t) d). lia.
Qed.

Lemma lay_frame lo hi (segs : list (Z * Z * A)) x y k :
  (forall y, In y (x :: segs) -> (lo y <= hi y)%Z) -> chained lo hi (x :: segs) ->
  In y (x :: segs) -> (lo y <= lo x + Z.of_nat k < hi y)%Z ->
  nth_error (lay lo hi (x :: segs)) k = Some (seg_lab y).
Proof.
  revert x k. induction segs as [|z t IH]; intros x k H Hc Hy Hk.
  - destruct Hy as [->|[]]. unfold lay. cbn [flat_map]. rewrite app_nil_r.
    apply nth_error_repeat. lia.
  - assert (H0 := H x (or_introl eq_refl)).
    change (lay lo hi (x :: z :: t)) with
      (repeat (seg_lab x) (Z.to_nat (hi x - lo x)) ++ lay lo hi (z :: t)).
    destruct (Z.lt_ge_cases (lo x + Z.of_nat k) (hi x)) as [Hlt|Hge].
    + rewrite nth_error_app1 by (rewrite repeat_length; lia).
      rewrite nth_error_repeat by lia. f_equal. f_equal.
      destruct Hy as [->|Hy]; [auto|].
      exfalso. (* y lies after x *)
      assert (Hle : forall w, In w (z :: t) -> (lo z <= lo w)%Z).
      { apply chained_tail in Hc. assert (H' : forall y, In y (z :: t) -> (lo y <= hi y)%Z)
          by (intros; apply H; now right).
        clear - Hc H'. revert z Hc H'. induction t as [|v t IH]; intros z Hc H' w Hw.
        - destruct Hw as [->|[]]. lia.
        - destruct Hw as [->|Hw]; [lia|].
          assert (Hz := H' z (or_introl eq_refl)).
          assert (Hv : (lo v <= lo w)%Z).
          { apply IH; auto; [now apply chained_tail in Hc|]. intros; apply H'; now right. }
          destruct Hc as [Hc _]. lia. }
      specialize (Hle y Hy). destruct Hc as [Hc _]. lia.
    + rewrite nth_error_app2 by (rewrite repeat_length; lia).
      rewrite repeat_length. apply IH.
      * intros; apply H; now right.
      * now apply chained_tail in Hc.
      * destruct Hy as [->|Hy]; [lia|auto].
      * destruct Hc as [Hc _]. lia.
Qed.

Lemma convert_align_lay (segs : list (Z * Z * A)) :
  convert_align segs = lay seg_start (fun x => (seg_end x + 1)%Z) segs.
Proof.
  induction segs as [|[[s e] u] t IH]; [reflexivity|].
  simpl. rewrite IH. unfold seg_lab, seg_start, seg_end. simpl.
  f_equal. f_equal. lia.
Qed.

Lemma contiguous_chained gap (lo hi : (Z * Z * A) -> Z) (segs : list (Z * Z * A)) :
  (forall x y : Z * Z * A, seg_start y = (seg_end x + gap)%Z -> hi x = lo y) ->
  contiguous gap segs -> chained lo hi segs.
Proof.
  intros H. induction segs as [|[[s e] u] [|[[s' e'] u'] t] IH]; simpl; auto.
  intros [E Hc]. split; [|exact (IH Hc)]. apply H. exact E.
Qed.

(** reading of a label file *)
Definition seg_line (show : Z -> A) (x : Z * Z * A) : list A :=
  [show (seg_start x); show (seg_end x); seg_lab x].

Lemma read_timit_lay parse fr (show : Z -> A) (segs : list (Z * Z * A)) acc :
  (forall z, parse (show z) = Ok z) ->
  foldM (timit_line parse fr) (map (seg_line show) segs) acc =
  Ok (acc ++ lay (fun x => fr (seg_start x)) (fun x => fr (seg_end x)) segs).
Proof.
  intros Hp. revert acc. induction segs as [|x t IH]; intros acc.
  - cbn. now rewrite app_nil_r.
  - cbn [map foldM]. unfold seg_line at 1, timit_line at 1. rewrite !Hp. cbn [bindr].
    rewrite IH. unfold lay. cbn [flat_map]. now rewrite app_assoc.
Qed.

Lemma read_timit_blank parse fr (lines : list (list A)) :
  read_timit_labels parse fr lines =
  read_timit_labels parse fr (filter (fun l => negb (length l =? 0)%nat) lines).
Proof.
  unfold read_timit_labels. generalize (@nil A).
  induction lines as [|[|a l] t IH]; intros acc; [reflexivity| |]; cbn [filter length].
  - cbn. apply IH.
  - cbn [Nat.eqb negb foldM]. destruct (timit_line parse fr acc (a :: l)); cbn [bindr]; auto.
Qed.

Lemma read_timit_bad parse fr (lines : list (list A)) x :
  In x lines -> length x <> 0 -> length x <> 3 ->
  exists e, read_timit_labels parse fr lines = Err e.
Proof.
  unfold read_timit_labels. generalize (@nil A). intros acc Hi H0 H3. revert acc.
  induction lines as [|y t IH]; intros acc; [destruct Hi|].
  cbn [foldM]. destruct Hi as [->|Hi].
  - destruct x as [|a [|b [|c [|d x]]]]; simpl in H0, H3; try congruence; cbn; eauto.
  - destruct (timit_line parse fr acc y); cbn [bindr]; eauto.
Qed.

(** stacking *)
Lemma nth_firstn (B : Type) (l : list B) n i d : i < n -> nth i (firstn n l) d = nth i l d.
Proof.
  revert l i; induction n; intros [|x l] [|i] H; simpl; auto; try lia. apply IHn. lia.
Qed.
Lemma nth_skipn (B : Type) (l : list B) n i d : nth i (skipn n l) d = nth (n + i) l d.
Proof. revert l; induction n; intros [|x l]; simpl; auto. destruct i; auto. Qed.

Lemma list_as_map (B : Type) (l : list B) d n : length l = n -> l = map (fun i => nth i l d) (seq 0 n).
Proof. intros <-. symmetry. apply seq_nth_map. Qed.

Lemma padded_nth (data : list (list A)) c d0 t i d :
  data <> [] -> nth 0 data d = d0 -> t < length data -> i < 2 * c + 1 ->
  nth (t + i) (repeat d0 c ++ data ++ repeat (last data d0) c) d =
  nth (Nat.min (t + i - c) (length data - 1)) data d.
Proof.
  intros Hn H0 Ht Hi.
  destruct (Nat.lt_ge_cases (t + i) c) as [H1|H1].
  - rewrite app_nth1 by (rewrite repeat_length; lia).
    rewrite (nth_indep _ d d0), nth_repeat by (rewrite repeat_length; lia).
    replace (Nat.min (t + i - c) (length data - 1)) with 0 by lia. auto.
  - rewrite app_nth2 by (rewrite repeat_length; lia). rewrite repeat_length.
    destruct (Nat.lt_ge_cases (t + i - c) (length data)) as [H2|H2].
    + rewrite app_nth1 by lia. f_equal. lia.
    + rewrite app_nth2 by lia.
      rewrite (nth_indep _ d (last data d0)), nth_repeat by (rewrite repeat_length; lia).
      replace (Nat.min (t + i - c) (length data - 1)) with (length data - 1) by lia.
      clear - Hn. induction data as [|x l IH]; [congruence|].
      destruct l as [|y l]; [reflexivity|].
      change (last (x :: y :: l) d0) with (last (y :: l) d0). rewrite IH by congruence.
      simpl. now rewrite Nat.sub_0_r.
Qed.

Lemma stack_row (data : list (list A)) c d rows t :
  0 < c -> stack_features data c = Ok rows -> t < length data ->
  nth t rows [] = flat_map (fun i => nth (Nat.min (t + i - c) (length data - 1)) data d)
                           (seq 0 (2 * c + 1)).
Proof.
  intros Hc H Ht. unfold stack_features in H.
  destruct c as [|c']; [lia|]. remember (S c') as c eqn:Ec.
  destruct data as [|d0 data']; [discriminate|]. remember (d0 :: data') as data eqn:Ed.
  injection H as <-.
  rewrite (map_nth_lt _ _ t 0 []) by (now rewrite seq_length).
  rewrite seq_nth by auto. replace (c + t - c) with t by lia.
  rewrite (list_as_map _ (firstn (2 * c + 1) _) d (2 * c + 1)).
  - rewrite flat_map_concat_map. f_equal. apply map_ext_in. intros i Hi. apply in_seq in Hi.
    rewrite nth_firstn by lia. rewrite nth_skipn. apply padded_nth; try lia; subst data; [congruence|reflexivity].
  - rewrite firstn_length, skipn_length, !app_length, !repeat_length. lia.
Qed.

End Seg.

Lemma Forall2_len {A B} (P : A -> B -> Prop) l1 l2 : Forall2 P l1 l2 -> length l1 = length l2.
Proof. induction 1; simpl; auto. Qed.

(** central frames *)
Section CF.
Context {L : Type}.
Variable leq : forall x y : L, {x = y} + {x <> y}.
Variable mapping : list (nat * L).

Lemma cf_loop_run t i start prev cfs ali :
  Forall (fun p => dget Nat.eq_dec mapping p = Some prev) ali ->
  cf_loop leq mapping (ali ++ t) i start prev cfs =
  cf_loop leq mapping t (i + length ali) start prev cfs.
Proof.
  revert i. induction ali as [|p ali IH]; intros i H.
  - now rewrite Nat.add_0_r.
  - inversion H as [|? ? Hp Ht]; subst. cbn [app cf_loop]. rewrite Hp.
    destruct (leq prev prev); [|contradiction]. rewrite IH by auto.
    f_equal. simpl. lia.
Qed.

(** expected central frames of the runs [rs], the current run having begun
    with [start] and the next run beginning at frame [i] *)
Fixpoint cf_expect (start i : nat) (prev : L) (rs : list (L * nat)) : list (L * nat) :=
  match rs with
  | [] => [(prev, (start + (i - 1)) / 2)]
  | (lab, n) :: t => (prev, (start + i) / 2) :: cf_expect (S i) (i + S n) lab t
  end.

Lemma cf_loop_expect rs : forall ali i start prev cfs,
  0 < i -> Forall2 (fun p l => dget Nat.eq_dec mapping p = Some l) ali (unrun rs) ->
  no_repeat (prev :: map fst rs) ->
  exists start' prev' cfs',
    cf_loop leq mapping ali i start prev cfs = Ok (start', prev', cfs') /\
    cfs' ++ [(prev', (start' + (i + length ali - 1)) / 2)] =
    cfs ++ cf_expect start i prev rs.
Proof.
  induction rs as [|[lab n] rs IH]; intros ali i start prev cfs Hi HF Hn.
  - inversion HF; subst. exists start, prev, cfs. split; [reflexivity|].
    simpl. rewrite Nat.add_0_r. reflexivity.
  - destruct Hn as [Hd Hn].
    unfold unrun in HF. cbn [flat_map fst snd] in HF.
    apply Forall2_app_inv_r in HF as (a1 & a2 & HF1 & HF2 & ->).
    cbn [repeat] in HF1. inversion HF1 as [|p ? a1' ? Hp Hr]; subst. clear HF1.
    cbn [app cf_loop]. rewrite Hp. destruct (leq lab prev) as [E|_]; [simpl in Hd; congruence|].
    assert (Hlen : length a1' = n) by (apply Forall2_len in Hr; rewrite repeat_length in Hr; auto).
    rewrite cf_loop_run.
    2:{ clear - Hr. revert a1' Hr. induction n; intros a1' Hr; inversion Hr; subst; constructor; auto. }
    destruct (IH a2 (S i + length a1') (S i) lab (cfs ++ [(prev, (start + i) / 2)]))
      as (s' & p' & c' & E1 & E2); [lia|auto|exact Hn|].
    exists s', p', c'. split; [exact E1|].
    cbn [cf_expect]. cbn [length]. rewrite app_length.
    replace (i + S (length a1' + length a2) - 1) with (S i + length a1' + length a2 - 1) by lia.
    rewrite E2. rewrite <- app_assoc. cbn [app]. do 3 f_equal. lia.
Qed.

Lemma get_cf_expect ali lab n rs :
  Forall2 (fun p l => dget Nat.eq_dec mapping p = Some l) ali (unrun ((lab, n) :: rs)) ->
  no_repeat (map fst ((lab, n) :: rs)) ->
  get_cf leq ali mapping = Ok (cf_expect 0 (S n) lab rs).
Proof.
  intros HF Hn. unfold unrun in HF. cbn [flat_map fst snd] in HF.
  apply Forall2_app_inv_r in HF as (a1 & a2 & HF1 & HF2 & ->).
  cbn [repeat] in HF1. inversion HF1 as [|p ? a1' ? Hp Hr]; subst. clear HF1.
  assert (Hlen : length a1' = n) by (apply Forall2_len in Hr; rewrite repeat_length in Hr; auto).
  unfold get_cf. cbn [app]. rewrite Hp. cbn [cf_loop]. rewrite Hp.
  destruct (leq lab lab); [|contradiction].
  rewrite cf_loop_run.
  2:{ clear - Hr. revert a1' Hr. induction n; intros a1' Hr; inversion Hr; subst; constructor; auto. }
  destruct (cf_loop_expect rs a2 (1 + length a1') 0 lab [])
    as (s' & p' & c' & E1 & E2); [lia|auto|exact Hn|].
  rewrite E1. cbn [bindr]. cbn [length]. rewrite app_length.
  replace (S (length a1' + length a2) - 1) with (1 + length a1' + length a2 - 1) by lia.
  rewrite E2, Hlen. reflexivity.
Qed.

Lemma cf_expect_length rs : forall start i prev,
  length (cf_expect start i prev rs) = S (length rs).
Proof. induction rs as [|[l n] rs IH]; intros; simpl; auto. Qed.

Lemma cf_expect_labels rs : forall start i prev,
  map fst (cf_expect start i prev rs) = prev :: map fst rs.
Proof. induction rs as [|[l n] rs IH]; intros; simpl; f_equal; auto. Qed.

(** k-th central frame, in closed form *)
Lemma cf_expect_nth rs : forall start i prev m d k,
  S m = i -> nth k (cf_expect start i prev rs) d =
  if k =? 0 then (prev, if length rs =? 0 then (start + m) / 2 else (start + i) / 2)
  else if k <=? length rs then
    let a := i + offset rs (k - 1) in
    let b := i + offset rs k in
    (fst (nth (k - 1) rs d), if k =? length rs then (S a + (b - 1)) / 2 else (S a + b) / 2)
  else d.
Proof.
  induction rs as [|[l n] rs IH]; intros start i prev m d k Hm.
  - subst i. destruct k as [|[|k]]; cbn [cf_expect nth Nat.eqb length Nat.leb]; auto.
    do 3 f_equal. lia.
  - destruct k as [|k]; [reflexivity|].
    cbn [cf_expect nth]. rewrite (IH (S i) (i + S n) l (i + n) d k) by lia.
    replace (S k =? 0) with false by reflexivity.
    replace (S k <=? length ((l, n) :: rs)) with (k <=? length rs) by reflexivity.
    replace (S k - 1) with k by lia. cbn [length Nat.eqb].
    destruct k as [|k].
    + cbn [Nat.eqb Nat.leb nth fst offset]. rewrite Nat.add_0_r.
      cbn [snd]. replace (offset rs 0) with 0 by (destruct rs; reflexivity).
      destruct rs as [|[l2 n2] rs]; cbn [length Nat.eqb].
      * do 2 f_equal. lia.
      * do 2 f_equal; lia.
    + replace (S k =? 0) with false by reflexivity.
      destruct (S k <=? length rs) eqn:E; [|reflexivity].
      replace (S k - 1) with k by lia. cbn [nth].
      apply Nat.leb_le in E. destruct rs as [|[l2 n2] rs]; [simpl in E; lia|].
      cbv zeta. cbn [offset snd].
      f_equal. destruct (S k =? length ((l2, n2) :: rs)); f_equal; lia.
Qed.

End CF.

(** expansion of phones into states *)
Lemma state_slice_seq ids n s : s < length ids ->
  state_slice ids n s = seq (s * n) n.
Proof.
  intros H. unfold state_slice.
  assert (E : length ids * n = s * n + (n + (length ids - s - 1) * n)) by nia.
  rewrite E, seq_app, skipn_app, skipn_all2 by (rewrite seq_length; lia).
  rewrite seq_length, Nat.sub_diag. cbn [skipn app]. rewrite Nat.add_0_l.
  rewrite seq_app, firstn_app, seq_length, Nat.sub_diag. cbn [firstn].
  rewrite app_nil_r. apply firstn_all2. now rewrite seq_length.
Qed.

(** the frame conversion of phone_ali in binary64 arithmetic *)
Definition fl (x : R) : R := round radix2 (FLT_exp (-1074) 53) ZnearestE x.
(** int(z * factor) with factor = frate / srate: all the operations round to
    the nearest double, ties to even *)
Definition fr64 (frate srate z : Z) : Z :=
  Ztrunc (fl (fl (IZR z) * fl (fl (IZR frate) / fl (IZR srate)))).

Global Instance prec_gt_0_53 : Prec_gt_0 53.
Proof. reflexivity. Qed.

Lemma fl_le x y : (x <= y)%R -> (fl x <= fl y)%R.
Proof. intros H. apply round_le; auto; typeclasses eauto. Qed.
Lemma fl_0 : fl 0 = 0%R.
Proof. apply round_0. typeclasses eauto. Qed.

Lemma fr64_mono frate srate x y : (0 <= frate)%Z -> (0 < srate)%Z ->
  (x <= y)%Z -> (fr64 frate srate x <= fr64 frate srate y)%Z.
Proof.
  intros H1 H2 H. unfold fr64. apply Ztrunc_le. apply fl_le.
  apply Rmult_le_compat_r.
  - rewrite <- fl_0. apply fl_le. unfold Rdiv. apply Rmult_le_pos.
    + rewrite <- fl_0. apply fl_le. now apply IZR_le.
    + assert (H0 : (0 <= fl (IZR srate))%R) by (rewrite <- fl_0; apply fl_le, IZR_le; lia).
      destruct H0 as [H0|H0]; [now apply Rlt_le, Rinv_0_lt_compat|].
      rewrite <- H0, Rinv_0. lra.
  - now apply fl_le, IZR_le.
Qed.
