(** C60 (run lengths), C61, C62, C63 and the state-label round trip of C69. *)
From Coq Require Import List Arith ZArith Bool Lia Reals Lra.
From Verif Require Import Prelude Edit_Model Edit_Spec Edit_Proofs Bnd_Model Dec_Model
  Dec_Spec Dec_Proofs Dec_Props Seg_Model Seg_Spec Seg_Proofs.
Import ListNotations.

(** ** C60 *)
(** Expanding segments of positive duration with different neighbours to frame
    labels, then collapsing, gives back the labels of the segments. *)
Theorem C60_expand_collapse :
  forall (A : Type) (eq_dec : forall x y : A, {x = y} + {x <> y}) (segs : list (Z * Z * A)),
  (forall x, In x segs -> (seg_start x <= seg_end x)%Z) ->
  no_repeat (map seg_lab segs) ->
  groupby eq_dec (convert_align segs) = map seg_lab segs.
Proof.
  intros A eq_dec segs H Hn. apply groupby_stretch; auto.
  apply convert_align_stretch. exact H.
Qed.

(** Contiguous segments: as many frames as covered, every frame labelled by
    the segment it belongs to. *)
Theorem C60_expand_frames :
  forall (A : Type) (x : Z * Z * A) segs,
  (forall y, In y (x :: segs) -> (seg_start y <= seg_end y)%Z) ->
  contiguous 1 (x :: segs) ->
  Z.of_nat (length (convert_align (x :: segs))) =
    (seg_end (last (x :: segs) x) - seg_start x + 1)%Z /\
  forall y k, In y (x :: segs) ->
    (seg_start y <= seg_start x + Z.of_nat k <= seg_end y)%Z ->
    nth_error (convert_align (x :: segs)) k = Some (seg_lab y).
Proof.
  intros A x segs H Hc. rewrite convert_align_lay.
  assert (Hc' : chained seg_start (fun x => (seg_end x + 1)%Z) (x :: segs)).
  { apply (contiguous_chained 1); auto. }
  assert (H' : forall y, In y (x :: segs) -> (seg_start y <= seg_end y + 1)%Z)
    by (intros y Hy; specialize (H y Hy); lia).
  split.
  - destruct (lay_length _ _ segs x x H' Hc') as [E _]. rewrite E. lia.
  - intros y k Hy Hk. eapply (lay_frame _ (fun x => (seg_end x + 1)%Z)); eauto. lia.
Qed.

(** Conversely collapsing and expanding with the durations of the runs: any
    frame labelling is the expansion of its collapsed labels, and the collapsed
    form is the only such labelling without repetition. *)
Theorem C60_collapse_expand :
  forall (A : Type) (eq_dec : forall x y : A, {x = y} + {x <> y}) (l c : list A),
  (stretch c l /\ no_repeat c) <-> c = groupby eq_dec l.
Proof.
  intros A eq_dec l c. split.
  - intros [H Hn]. symmetry. now apply groupby_stretch.
  - intros ->. apply groupby_spec.
Qed.

Lemma bnd_loop_repeat {A} (eq_dec : forall x y : A, {x = y} + {x <> y}) u n f t :
  bnd_loop eq_dec u f (repeat u n ++ t) = bnd_loop eq_dec u (f + Z.of_nat n) t.
Proof.
  revert f. induction n; intros f; [now rewrite Z.add_0_r|].
  cbn [repeat app bnd_loop]. destruct (eq_dec u u); [|contradiction].
  rewrite IHn. f_equal. lia.
Qed.

Lemma bnd_loop_segs {A} (eq_dec : forall x y : A, {x = y} + {x <> y})
    (segs : list (Z * Z * A)) : forall u f o,
  (forall y, In y segs -> (seg_start y <= seg_end y)%Z) ->
  contiguous 1 segs -> no_repeat (u :: map seg_lab segs) ->
  match segs with [] => True | x :: _ => (f + o = seg_start x)%Z end ->
  bnd_loop eq_dec u f (convert_align segs) = map (fun x => (seg_start x - o)%Z) segs.
Proof.
  induction segs as [|[[s e] l] t IH]; intros u f o H Hc Hn Ho; [reflexivity|].
  destruct Hn as [Hd Hn].
  cbn [convert_align map]. assert (Hs := H _ (or_introl eq_refl)).
  unfold seg_start, seg_end in Hs, Ho. cbn [fst snd] in Hs, Ho.
  replace (Z.to_nat (e - s + 1)) with (S (Z.to_nat (e - s))) by lia.
  cbn [repeat app bnd_loop]. unfold seg_lab in Hd at 1. cbn [snd] in Hd.
  destruct (eq_dec l u) as [->|_]; [congruence|].
  rewrite bnd_loop_repeat. unfold seg_start at 1. cbn [fst snd].
  f_equal; [lia|]. apply IH; auto.
  - intros y Hy. apply H. now right.
  - destruct t as [|[[s' e'] l'] t]; [exact I|]. destruct Hc as [_ Hc]. exact Hc.
  - destruct t as [|[[s' e'] l'] t]; [exact I|]. destruct Hc as [Hc _].
    unfold seg_start. cbn [fst snd]. lia.
Qed.

(** the boundaries of the expansion are the starts of the segments after the
    first one (counted from 1 in the utterance) *)
Theorem C60_boundaries_of_expansion :
  forall (A : Type) (eq_dec : forall x y : A, {x = y} + {x <> y}) (x : Z * Z * A) segs,
  (forall y, In y (x :: segs) -> (seg_start y <= seg_end y)%Z) ->
  contiguous 1 (x :: segs) -> no_repeat (map seg_lab (x :: segs)) ->
  boundaries eq_dec (convert_align (x :: segs)) =
  Ok (map (fun y => (seg_start y - seg_start x + 1)%Z) segs).
Proof.
  intros A eq_dec [[s e] l] segs H Hc Hn.
  assert (Hs := H _ (or_introl eq_refl)). unfold seg_start, seg_end in Hs. cbn [fst snd] in Hs.
  cbn [convert_align]. replace (Z.to_nat (e - s + 1)) with (S (Z.to_nat (e - s))) by lia.
  cbn [repeat app boundaries]. f_equal. rewrite bnd_loop_repeat.
  rewrite (bnd_loop_segs eq_dec segs l _ (s - 1)%Z).
  - apply map_ext. intros y. unfold seg_start at 3. cbn [fst]. lia.
  - intros y Hy. apply H. now right.
  - destruct segs as [|[[s' e'] l'] t]; [exact I|]. destruct Hc as [_ Hc]. exact Hc.
  - exact Hn.
  - destruct segs as [|[[s' e'] l'] t]; [exact I|]. destruct Hc as [Hc _].
    unfold seg_start. cbn [fst snd]. lia.
Qed.

(** ali2trans collapses the whole line, utterance id included: right unless the
    id is also the first label, in which case that label is lost *)
Theorem C60_ali2trans :
  forall (A : Type) (eq_dec : forall x y : A, {x = y} + {x <> y}) (utt : A) ali,
  ali2trans eq_dec (utt :: ali) =
  match groupby eq_dec ali with
  | x :: c => if eq_dec utt x then utt :: c else utt :: x :: c
  | [] => [utt]
  end.
Proof.
  intros A eq_dec utt [|x ali]; [reflexivity|].
  unfold ali2trans. cbn [groupby groupby_from].
  destruct (eq_dec utt x) as [->|]; reflexivity.
Qed.

Example C60_example :
  let segs := [(0, 2, 7%nat); (3, 3, 8%nat); (4, 5, 7%nat)]%Z in
  convert_align segs = [7;7;7;8;7;7] /\ contiguous 1 segs /\
  no_repeat (map seg_lab segs) /\ groupby Nat.eq_dec (convert_align segs) = [7;8;7] /\
  boundaries Nat.eq_dec (convert_align segs) = Ok [4; 5]%Z.
Proof.
  repeat split; simpl; try discriminate.
Qed.

(** ** C61 *)
(** For every monotone conversion [fr] of sample numbers to frame numbers,
    contiguous segments give fr(last end) - fr(first start) labels, the k-th
    being that of the segment whose frame range contains it. *)
Theorem C61_timit_alignment :
  forall (A : Type) (parse : A -> result Z) (show : Z -> A) (fr : Z -> Z) (x : Z * Z * A) segs,
  (forall z, parse (show z) = Ok z) ->
  (forall a b, (a <= b)%Z -> (fr a <= fr b)%Z) ->
  (forall y, In y (x :: segs) -> (seg_start y <= seg_end y)%Z) ->
  contiguous 0 (x :: segs) ->
  exists l,
  read_timit_labels parse fr
    (map (fun y => [show (seg_start y); show (seg_end y); seg_lab y]) (x :: segs)) = Ok l /\
  Z.of_nat (length l) = (fr (seg_end (last (x :: segs) x)) - fr (seg_start x))%Z /\
  forall y k, In y (x :: segs) ->
    (fr (seg_start y) <= fr (seg_start x) + Z.of_nat k < fr (seg_end y))%Z ->
    nth_error l k = Some (seg_lab y).
Proof.
  intros A parse show fr x segs Hp Hm H Hc. eexists. split.
  - apply (read_timit_lay parse fr show (x :: segs) [] Hp).
  - cbn [app].
    assert (Hc' : chained (fun y => fr (seg_start y)) (fun y => fr (seg_end y)) (x :: segs)).
    { apply (contiguous_chained 0); auto. intros a b E. rewrite E. f_equal. lia. }
    assert (H' : forall y, In y (x :: segs) -> (fr (seg_start y) <= fr (seg_end y))%Z)
      by (intros; apply Hm; auto).
    split.
    + destruct (lay_length _ _ segs x x H' Hc') as [E _]. exact E.
    + intros y k Hy Hk. exact (lay_frame _ _ segs x y k H' Hc' Hy Hk).
Qed.

(** the conversion of the code, in binary64 arithmetic with rounding to the
    nearest (no overflow), is monotone for every pair of rates *)
Theorem C61_binary64_monotone :
  forall frate srate, (0 <= frate)%Z -> (0 < srate)%Z ->
  forall a b, (a <= b)%Z -> (fr64 frate srate a <= fr64 frate srate b)%Z.
Proof. intros; now apply fr64_mono. Qed.

(** blank lines are ignored, any other malformed line is an error *)
Theorem C61_malformed :
  forall (A : Type) (parse : A -> result Z) fr (lines : list (list A)),
  read_timit_labels parse fr lines =
    read_timit_labels parse fr (filter (fun l => negb (length l =? 0)) lines) /\
  forall x, In x lines -> length x <> 0 -> length x <> 3 ->
    exists e, read_timit_labels parse fr lines = Err e.
Proof.
  intros A parse fr lines. split; [apply read_timit_blank|].
  intros x H1 H2 H3. now apply (read_timit_bad parse fr lines x).
Qed.

Example C61_example :
  let fr z := (z * 100 / 16000)%Z in
  let parse (a : Z + nat) := match a with inl z => Ok z | inr _ => Err ValueError end in
  read_timit_labels parse fr
    [[inl 0; inl 330; inr 1%nat]; []; [inl 330; inl 500; inr 2%nat]; [inl 500; inl 970; inr 3%nat]]%Z
  = Ok (map inr [1;1;2;3;3;3]).
Proof. reflexivity. Qed.

(** ** C62 *)
Theorem C62_clamped_window :
  forall (A : Type) (data : list (list A)) c rows,
  stack_features data c = Ok rows ->
  length rows = length data /\
  forall t, t < length data ->
    nth t rows [] =
    flat_map (fun i => nth (Nat.min (t + i - c) (length data - 1)) data [])
             (seq 0 (2 * c + 1)).
Proof.
  intros A data c rows H. split.
  - unfold stack_features in H. destruct c; [congruence|].
    destruct data; [discriminate|]. cbv zeta in H.
    apply (f_equal (fun r => match r with Ok x => length x | _ => 0 end)) in H.
    cbv beta iota in H. rewrite map_length, seq_length in H. auto.
  - intros t Ht. destruct c as [|c].
    + injection H as <-. simpl. rewrite app_nil_r. f_equal. lia.
    + apply (stack_row data (S c) []); auto. lia.
Qed.

(** in particular the row width; errors only on empty data *)
Theorem C62_width :
  forall (A : Type) (data : list (list A)) c d, (forall r, In r data -> length r = d) ->
  (data <> [] \/ c = 0) ->
  exists rows, stack_features data c = Ok rows /\
    forall r, In r rows -> length r = (2 * c + 1) * d.
Proof.
  intros A data c d Hd Hne.
  assert (E : exists rows, stack_features data c = Ok rows).
  { unfold stack_features. destruct c; [eauto|]. destruct data; [|eauto].
    destruct Hne; congruence. }
  destruct E as [rows E]. exists rows. split; auto. intros r Hr.
  destruct (C62_clamped_window A data c rows E) as [H1 H2].
  apply (In_nth _ _ []) in Hr as (t & Ht & <-). rewrite H1 in Ht. rewrite H2 by auto.
  assert (Hall : forall i, length (nth (Nat.min (t + i - c) (length data - 1)) data []) = d).
  { intros i. apply Hd, nth_In. lia. }
  rewrite <- (seq_length (2 * c + 1) 0) at 2. generalize (seq 0 (2 * c + 1)).
  induction l as [|i l IH]; [reflexivity|].
  cbn [flat_map length]. rewrite app_length, Hall, IH. lia.
Qed.

Example C62_example :
  stack_features [[1;2];[3;4];[5;6]] 1 =
  Ok [[1;2;1;2;3;4]; [1;2;3;4;5;6]; [3;4;5;6;5;6]].
Proof. reflexivity. Qed.

(** ** C63 *)
(** one central frame per run of labels, carrying its label; it lies in the run
    if the run is the first, the last, or has at least two frames, and it is
    never outside of the utterance *)
Theorem C63_central_frame_partial :
  forall (L : Type) (leq : forall x y : L, {x = y} + {x <> y}) mapping ali
         (rs : list (L * nat)) d,
  rs <> [] -> no_repeat (map fst rs) ->
  Forall2 (fun p l => dget Nat.eq_dec mapping p = Some l) ali (unrun rs) ->
  exists cfs, get_cf leq ali mapping = Ok cfs /\ map fst cfs = map fst rs /\
  forall k, k < length rs ->
    let a := offset rs k in let b := offset rs (S k) in
    let cf := snd (nth k cfs d) in
    cf < length ali /\
    (k = 0 \/ S k = length rs \/ a + 2 <= b -> a <= cf < b).
Proof.
  intros L leq mapping ali rs d Hne Hn HF.
  destruct rs as [|[lab n] rs]; [congruence|].
  exists (cf_expect 0 (S n) lab rs).
  split; [now apply get_cf_expect|]. split; [apply cf_expect_labels|].
  intros k Hk. cbn [length] in Hk.
  assert (Hlen : length ali = offset ((lab, n) :: rs) (S (length rs))).
  { rewrite (Forall2_len _ _ _ HF). clear.
    assert (G : forall l : list (L * nat), length (unrun l) = offset l (length l)).
    { induction l as [|x l IH]; [reflexivity|]. unfold unrun in *. cbn [flat_map length offset].
      rewrite app_length, repeat_length, IH. reflexivity. }
    apply (G ((lab, n) :: rs)). }
  assert (Hmono : forall (l : list (L * nat)) i j, i <= j -> offset l i <= offset l j).
  { induction l as [|x l IH]; intros [|i] [|j] H; simpl; try lia.
    specialize (IH i j). lia. }
  assert (Hstep : forall (l : list (L * nat)) i, i < length l -> offset l i < offset l (S i)).
  { induction l as [|x l IH]; intros [|i] H; simpl in *; try lia.
    specialize (IH i). lia. }
  assert (Hend : offset ((lab, n) :: rs) (S k) <= length ali) by (rewrite Hlen; apply Hmono; lia).
  cbv zeta.
  rewrite (cf_expect_nth rs 0 (S n) lab n d k) by auto.
  destruct k as [|k].
  - cbn [Nat.eqb snd offset]. cbn [offset snd] in Hend.
    replace (offset rs 0) with 0 in * by (destruct rs; reflexivity).
    destruct (length rs =? 0).
    + assert ((0 + n) / 2 <= n) by (apply Nat.div_le_upper_bound; lia). split; lia.
    + assert ((0 + S n) / 2 < S n) by (apply Nat.div_lt_upper_bound; lia). split; lia.
  - assert (Hs := Hstep rs k ltac:(lia)).
    assert (Hlen' : length ali = S n + offset rs (length rs)) by exact Hlen.
    replace (S k =? 0) with false by reflexivity.
    replace (S k <=? length rs) with true by (symmetry; apply Nat.leb_le; lia).
    replace (S k - 1) with k by lia. cbn [snd].
    change (offset ((lab, n) :: rs) (S k)) with (S n + offset rs k) in *.
    change (offset ((lab, n) :: rs) (S (S k))) with (S n + offset rs (S k)) in *.
    cbn [length].
    remember (S n + offset rs k) as a eqn:Ea. remember (S n + offset rs (S k)) as b eqn:Eb.
    assert (Hab : a < b) by lia.
    destruct (S k =? length rs) eqn:E.
    + apply Nat.eqb_eq in E.
      assert (a <= (S a + (b - 1)) / 2) by (apply Nat.div_le_lower_bound; lia).
      assert ((S a + (b - 1)) / 2 < b) by (apply Nat.div_lt_upper_bound; lia). split; lia.
    + apply Nat.eqb_neq in E.
      assert (Hs2 := Hstep rs (S k) ltac:(lia)).
      assert (Hm2 := Hmono rs (S (S k)) (length rs) ltac:(lia)).
      assert ((S a + b) / 2 < S b) by (apply Nat.div_lt_upper_bound; lia).
      assert (a <= (S a + b) / 2) by (apply Nat.div_le_lower_bound; lia).
      split; [lia|]. intros [H1|[H1|H1]]; [lia|lia|].
      assert ((S a + b) / 2 < b) by (apply Nat.div_lt_upper_bound; lia). lia.
Qed.

(** an interior run of one frame gets the frame of the next run *)
Theorem C63_single_frame_refuted :
  exists mapping ali cfs, get_cf Nat.eq_dec ali mapping = Ok cfs /\
  exists lab cf, In (lab, cf) cfs /\
    dget Nat.eq_dec mapping (nth cf ali 0) <> Some lab.
Proof.
  exists [(0, 10); (1, 11); (2, 12)], [0;0;1;2;2], [(10, 1); (11, 3); (12, 4)].
  split; [reflexivity|]. exists 11, 3. split; [simpl; auto|discriminate].
Qed.

Example C63_example :
  get_cf Nat.eq_dec [0;0;1;1;1;2] [(0, 10); (1, 11); (2, 12)]
  = Ok [(10, 1); (11, 4); (12, 5)] /\
  unrun [(10, 1); (11, 2); (12, 0)] = [10;10;11;11;11;12].
Proof. split; reflexivity. Qed.

(** ** C69: prepare_state_labels followed by convert_states_to_phone *)
Theorem C69_prepare_states_round_trip :
  forall ids n utt, 2 <= n -> utt <> [] ->
  (forall s, In s ids -> s < length ids) -> (forall s, In s utt -> In s ids) ->
  exists states, prepare_state_labels ids n utt = Ok states /\
    length states = n * length utt /\
    convert_states states (c2p_ends ids n) (c2p_phone_table ids n) = Ok utt.
Proof.
  intros ids n utt Hn Hne Hid Hin.
  exists (flat_map (fun s => seq (s * n) n) utt). split; [|split].
  - unfold prepare_state_labels.
    assert (E : mapM (fun s => if in_dec Nat.eq_dec s ids then Ok (state_slice ids n s)
                               else Err KeyError) utt = Ok (map (fun s => seq (s * n) n) utt)).
    { clear Hne. induction utt as [|s utt IH]; [reflexivity|].
      cbn [mapM map]. destruct (in_dec Nat.eq_dec s ids) as [i|i].
      - rewrite state_slice_seq by auto. cbn [bindr].
        rewrite IH by (intros; apply Hin; now right). reflexivity.
      - exfalso. apply i, Hin. now left. }
    rewrite E. cbn [bindr]. now rewrite flat_map_concat_map.
  - clear. induction utt as [|s utt IH]; simpl; [lia|].
    rewrite app_length, seq_length, IH. lia.
  - destruct utt as [|s utt]; [congruence|].
    set (mk := fun s => Visit s 0 (seq (s * n) (n - 1))).
    assert (E : flat_map (fun s => seq (s * n) n) (s :: utt) =
                exit_unroll (fun p => p * n + (n - 1)) (map mk (s :: utt))).
    { clear - Hn. induction (s :: utt) as [|x l IH]; [reflexivity|].
      unfold exit_unroll in *. cbn [flat_map map]. rewrite <- IH. f_equal.
      unfold exit_frames, mk. cbn [v_rest v_more v_phone repeat].
      replace n with (n - 1 + 1) at 2 by lia. rewrite seq_app. reflexivity. }
    rewrite E. cbn [map].
    rewrite (C69_convert_states_left_inverse ids n (mk s) (map mk utt)).
    + f_equal. cbn [map]. f_equal. rewrite map_map. apply map_id.
    + lia.
    + intros w Hw. change (mk s :: map mk utt) with (map mk (s :: utt)) in Hw.
      apply in_map_iff in Hw as (x & <- & Hx). split; [exact (Hin x Hx)|].
      intros st Hst. cbn in Hst. apply in_seq in Hst.
      exists (st - x * n). cbn [v_phone mk]. lia.
    + assert (G : forall l, exit_separated (map mk l)).
      { induction l as [|x [|y l] IH]; [exact I|exact I|].
        cbn [map exit_separated]. split; [|exact IH].
        left. cbn. destruct n as [|[|n']]; [lia|lia|]. simpl. discriminate. }
      exact (G (s :: utt)).
Qed.

Example C69_round_trip_example :
  prepare_state_labels [0;1;2] 3 [2;0;0] = Ok [6;7;8;0;1;2;0;1;2] /\
  convert_states [6;7;8;0;1;2;0;1;2] (c2p_ends [0;1;2] 3) (c2p_phone_table [0;1;2] 3)
  = Ok [2;0;0].
Proof. split; reflexivity. Qed.

Print Assumptions C60_expand_collapse.
Print Assumptions C61_timit_alignment.
Print Assumptions C61_binary64_monotone.
Print Assumptions C62_clamped_window.
Print Assumptions C63_central_frame_partial.
Print Assumptions C69_prepare_states_round_trip.
