(** Initialization of the units from a subspace model (C136) and pairing of the
    languages in the training command (C137). *)
From Coq Require Import Reals String List Arith Bool ZArith Lia Lra.
From Verif Require Import Prelude Vec Gs_Model Gs_Proofs Gb_Model Sp_Model Sp_Proofs Pl_Props In_Model.
Import ListNotations.
Local Open Scope nat_scope.

(** ** C136 *)
Lemma gslice_length {A} a b (l : list A) : (a <= b) -> (b <= length l) ->
  length (gslice a b l) = (b - a).
Proof. intros. unfold gslice. rewrite firstn_length, skipn_length. lia. Qed.
Lemma concat_len {A} (f : nat -> list A) k : forall n, (forall u, (u < n) -> length (f u) = k) ->
  length (concat (map f (seq 0 n))) = (n * k).
Proof.
  induction n as [|n IH]; intros H; [reflexivity|]. rewrite seq_S, map_app, concat_app, app_length, IH by (intros; apply H; lia).
  cbn [map concat Nat.add]. rewrite app_nil_r, H by lia. lia.
Qed.
Lemma gslice_tail {A} (pre l : list A) a b : length pre = a -> (a <= b) ->
  gslice a b (pre ++ skipn a l) = gslice a b l.
Proof.
  intros H1 H2. unfold gslice. rewrite skipn_app, skipn_all2 by lia. cbn [app].
  rewrite H1, Nat.sub_diag. reflexivity.
Qed.
Lemma write_tail (pre rows l : list (list R)) a : length pre = a ->
  write_rows a rows (pre ++ skipn a l) = (pre ++ rows) ++ skipn (a + length rows) l.
Proof.
  intros H1. unfold write_rows. rewrite firstn_app, firstn_all2 by lia. rewrite H1, Nat.sub_diag, firstn_O, app_nil_r.
  rewrite skipn_app, skipn_all2 by lia. cbn [app]. rewrite H1, <- app_assoc. do 2 f_equal.
  replace (a + length rows - a) with (length rows) by lia. now rewrite skipn_add.
Qed.
Lemma nth_concat_chunks {A} (f : nat -> list A) k d : forall n u s (rest : list A),
  (forall u, (u < n) -> length (f u) = k) -> (u < n) -> (s < k) ->
  nth (u * k + s) (concat (map f (seq 0 n)) ++ rest) d = nth s (f u) d.
Proof.
  induction n as [|n IH]; intros u s rest H Hu Hs; [lia|].
  rewrite seq_S, map_app, concat_app. cbn [map concat Nat.add]. rewrite app_nil_r, <- app_assoc.
  destruct (Nat.eq_dec u n) as [->|Hne].
  - assert (L : length (concat (map f (seq 0 n))) = (n * k)) by (apply concat_len; intros; apply H; lia).
    rewrite app_nth2 by lia. rewrite L. replace (n * k + s - n * k) with s by lia.
    rewrite app_nth1 by (rewrite H by lia; lia). reflexivity.
  - apply IH; auto; lia.
Qed.
Section Init.
  Variables (nu ns K qm qw : nat) (vs : list (list R)) (m w : list (list R)).
  Definition need : nat := ns * K * qm + ns * qw.
  Definition zipped : nat := Nat.min nu (length vs).
  Hypothesis Lm : nu * ns * K <= length m.
  Hypothesis Lw : nu * ns <= length w.

  Definition blk_m (u : nat) : list (list R) := groups (ns * K) qm (gslice 0 (ns * K * qm) (nth u vs [])).
  Definition blk_w (u : nat) : list (list R) :=
    groups ns qw (gslice (ns * K * qm) (ns * K * qm + ns * qw) (nth u vs [])).

  Lemma combine_seq_nth n (l : list (list R)) : combine (seq 0 n) l =
    map (fun i => (i, nth i l [])) (seq 0 (Nat.min n (length l))).
  Proof.
    clear.
    assert (G : forall n (l : list (list R)) a, combine (seq a n) l =
      map (fun i => (a + i, nth i l [])) (seq 0 (Nat.min n (length l)))).
    { clear. induction n as [|n IH]; intros l a; [reflexivity|]. destruct l as [|v l]; [reflexivity|].
      cbn [seq combine length Nat.min map]. rewrite Nat.add_0_r, IH, <- (seq_shift (Nat.min n (length l)) 0), map_map. f_equal.
      apply map_ext. intros i. cbn [nth]. f_equal. lia. }
    apply (G n l 0).
  Qed.

  Lemma take_rows_ok k q idx (v : list R) : idx + k * q <= length v ->
    take_rows k q idx v = Ok (groups k q (gslice idx (idx + k * q) v)).
  Proof.
    clear. intros H. unfold take_rows. rewrite gslice_length by lia. replace (idx + k * q - idx) with (k * q) by lia.
    now rewrite Nat.eqb_refl.
  Qed.
  Lemma take_rows_short k q idx (v : list R) : idx <= length v -> length v < idx + k * q -> take_rows k q idx v = Err RuntimeError.
  Proof.
    clear. intros Hi H. unfold take_rows. destruct (Nat.eqb_spec (length (gslice idx (idx + k * q) v)) (k * q)); [|reflexivity].
    unfold gslice in e. rewrite firstn_length, skipn_length in e. lia.
  Qed.
  Lemma foldM_app' {A B} (f : B -> A -> result B) l1 : forall l2 st,
    foldM f (l1 ++ l2) st = bindr (foldM f l1 st) (fun s => foldM f l2 s).
  Proof. clear. induction l1 as [|a l1 IH]; intros l2 st; [reflexivity|]. cbn. destruct (f st a); cbn; auto. Qed.

  Lemma blk_m_len u : length (blk_m u) = ns * K.
  Proof. apply groups_length. Qed.
  Lemma blk_w_len u : length (blk_w u) = ns.
  Proof. apply groups_length. Qed.

  Lemma init_prefix : forall k, k <= zipped -> (forall i, i < k -> need <= length (nth i vs [])) ->
    foldM (update_unit ns K qm qw) (map (fun i => (i, nth i vs [])) (seq 0 k)) (m, w) =
    Ok (concat (map blk_m (seq 0 k)) ++ skipn (k * ns * K) m, concat (map blk_w (seq 0 k)) ++ skipn (k * ns) w).
  Proof.
    induction k as [|k IH]; intros Hk Hv; [reflexivity|].
    rewrite seq_S, !map_app, foldM_app', IH by (auto; lia). cbn [bindr map foldM Nat.add]. unfold update_unit. cbn [fst snd].
    assert (Z1 : zipped <= nu) by (unfold zipped; lia).
    assert (L1 : length (concat (map blk_w (seq 0 k))) = k * ns) by (apply concat_len; intros; apply blk_w_len).
    assert (L2 : length (concat (map blk_m (seq 0 k))) = k * ns * K).
    { rewrite (concat_len blk_m (ns * K)); [nia|]. intros. apply blk_m_len. }
    assert (V := Hv k (Nat.lt_succ_diag_r k)). unfold need in V.
    rewrite !gslice_tail by (auto; nia). rewrite !gslice_length by nia.
    replace ((k + 1) * ns * K - k * ns * K) with (ns * K) by nia. replace ((k + 1) * ns - k * ns) with ns by nia.
    rewrite !take_rows_ok by nia. cbn [bindr Nat.add]. fold (blk_m k). fold (blk_w k).
    rewrite !write_tail by auto. rewrite blk_m_len, blk_w_len, !concat_app. cbn [map concat]. rewrite !app_nil_r.
    replace (k * ns * K + ns * K) with (S k * ns * K) by nia. replace (k * ns + ns) with (S k * ns) by nia. reflexivity.
  Qed.

  (** For every number of units, states, components and vectors of the subspace
      model: each unit receives its vector, one row for each density of each of
      its states and then one row of weights for each state; the rows of the
      other units and of the units without vector do not change. *)
  Theorem C136_init_units : (forall i, i < zipped -> need <= length (nth i vs [])) ->
    exists m' w', init_loop nu ns K qm qw vs (m, w) = Ok (m', w') /\
      length m' = length m /\ length w' = length w /\
      (forall i s c d, i < zipped -> s < ns -> c < K -> d < qm ->
        nth d (nth ((i * ns + s) * K + c) m' []) 0%R = nth ((s * K + c) * qm + d) (nth i vs []) 0%R) /\
      (forall i s d, i < zipped -> s < ns -> d < qw ->
        nth d (nth (i * ns + s) w' []) 0%R = nth (ns * K * qm + s * qw + d) (nth i vs []) 0%R) /\
      (forall r, zipped * ns * K <= r -> nth r m' [] = nth r m []) /\
      (forall r, zipped * ns <= r -> nth r w' [] = nth r w []).
  Proof.
    intros Hv.
    exists (concat (map blk_m (seq 0 zipped)) ++ skipn (zipped * ns * K) m),
           (concat (map blk_w (seq 0 zipped)) ++ skipn (zipped * ns) w).
    assert (Z1 : zipped <= nu) by (unfold zipped; lia).
    assert (L1 : length (concat (map blk_w (seq 0 zipped))) = zipped * ns) by (apply concat_len; intros; apply blk_w_len).
    assert (L2 : length (concat (map blk_m (seq 0 zipped))) = zipped * ns * K).
    { rewrite (concat_len blk_m (ns * K)); [nia|]. intros. apply blk_m_len. }
    split.
    { unfold init_loop. rewrite combine_seq_nth. apply init_prefix; auto. }
    assert (B1 : zipped * ns <= nu * ns) by (apply Nat.mul_le_mono_r; lia).
    assert (B2 : zipped * ns * K <= nu * ns * K) by (apply Nat.mul_le_mono_r; lia).
    split. { rewrite app_length, L2, skipn_length. lia. }
    split. { rewrite app_length, L1, skipn_length. lia. }
    split.
    { intros i s c d Hi Hs Hc Hd. replace ((i * ns + s) * K + c) with (i * (ns * K) + (s * K + c)) by nia.
      assert (HB : s * K + c < ns * K) by nia.
      rewrite (nth_concat_chunks blk_m (ns * K)); auto using blk_m_len. unfold blk_m. rewrite groups_nth by auto.
      unfold gslice. rewrite Nat.sub_0_r. cbn [skipn]. apply Pl_Props.nth_firstn_lt'. nia. }
    split.
    { intros i s d Hi Hs Hd.
      rewrite (nth_concat_chunks blk_w ns); auto using blk_w_len. unfold blk_w. rewrite groups_nth by auto.
      unfold gslice. assert (Hb : s * qw + d < ns * qw) by nia. rewrite Pl_Props.nth_firstn_lt' by lia. rewrite nth_skipn. f_equal. lia. }
    split.
    { intros r Hr. rewrite app_nth2 by lia. rewrite L2, nth_skipn. f_equal. lia. }
    { intros r Hr. rewrite app_nth2 by lia. rewrite L1, nth_skipn. f_equal. lia. }
  Qed.

  (** A vector that is too short stops the command. *)
  Theorem C136_short_vector : (exists i, i < zipped /\ length (nth i vs []) < need) ->
    init_loop nu ns K qm qw vs (m, w) = Err RuntimeError.
  Proof.
    intros (i & Hi & Hs).
    assert (E : exists j, j < zipped /\ length (nth j vs []) < need /\ forall k, k < j -> need <= length (nth k vs [])).
    { revert Hi Hs. induction i as [i IH] using lt_wf_ind. intros Hi Hs.
      destruct (List.existsb (fun k => Nat.ltb (length (nth k vs [])) need) (seq 0 i)) eqn:E.
      - apply existsb_exists in E. destruct E as (k & Hk & Lk). apply in_seq in Hk. apply Nat.ltb_lt in Lk.
        apply (IH k); auto; lia.
      - exists i. split; [exact Hi|]. split; [exact Hs|]. intros k Hk. destruct (le_lt_dec need (length (nth k vs []))) as [H|H]; auto.
        exfalso. apply Bool.not_true_iff_false in E. apply E. apply existsb_exists. exists k. split; [apply in_seq; lia|].
        apply Nat.ltb_lt. exact H. }
    clear i Hi Hs. destruct E as (j & Hj & Hs & Hk). unfold init_loop. rewrite combine_seq_nth. fold zipped.
    assert (Z1 : zipped <= nu) by (unfold zipped; lia).
    replace (seq 0 zipped) with (seq 0 j ++ j :: seq (S j) (zipped - S j)).
    2:{ change (j :: seq (S j) (zipped - S j)) with (seq j (S (zipped - S j))).
        replace (S (zipped - S j)) with (zipped - j) by lia. symmetry.
        rewrite <- (seq_app j (zipped - j) 0) || idtac. replace zipped with (j + (zipped - j)) at 1 by lia. apply seq_app. }
    rewrite map_app, foldM_app', init_prefix by (auto; lia). cbn [bindr map foldM]. unfold update_unit at 1. cbn [fst snd].
    assert (L1 : length (concat (map blk_w (seq 0 j))) = j * ns) by (apply concat_len; intros; apply blk_w_len).
    assert (L2 : length (concat (map blk_m (seq 0 j))) = j * ns * K).
    { rewrite (concat_len blk_m (ns * K)); [nia|]. intros. apply blk_m_len. }
    rewrite !gslice_tail by (auto; nia). rewrite !gslice_length by nia.
    replace ((j + 1) * ns * K - j * ns * K) with (ns * K) by nia. replace ((j + 1) * ns - j * ns) with ns by nia.
    unfold need in Hs. destruct (le_lt_dec (ns * K * qm) (length (nth j vs []))) as [H|H].
    - rewrite take_rows_ok by lia. cbn [bindr]. rewrite take_rows_short by lia. reflexivity.
    - rewrite take_rows_short by lia. reflexivity.
  Qed.
End Init.

(** --same: every unit receives the first vector. *)
Lemma maybe_same_nth vs i : i < length vs -> nth i (maybe_same true vs) [] = hd [] vs.
Proof.
  intros H. unfold maybe_same. rewrite (nth_indep _ [] (hd [] vs)) by (now rewrite map_length).
  rewrite (map_nth (fun _ => hd [] vs) vs []). reflexivity.
Qed.
Theorem C136_same : forall nu ns K qm qw vs m w, nu * ns * K <= length m -> nu * ns <= length w -> length vs = nu ->
  (vs <> [] -> ns * K * qm + ns * qw <= length (hd [] vs)) ->
  exists m' w', init_loop nu ns K qm qw (maybe_same true vs) (m, w) = Ok (m', w') /\
    (forall i j s c d, i < nu -> j < nu -> s < ns -> c < K -> d < qm ->
      nth d (nth ((i * ns + s) * K + c) m' []) 0%R = nth d (nth ((j * ns + s) * K + c) m' []) 0%R) /\
    (forall i j s d, i < nu -> j < nu -> s < ns -> d < qw ->
      nth d (nth (i * ns + s) w' []) 0%R = nth d (nth (j * ns + s) w' []) 0%R).
Proof.
  intros nu ns K qm qw vs m w Lm Lw Lv Hv.
  assert (Lz : zipped nu (maybe_same true vs) = nu) by (unfold zipped, maybe_same; rewrite map_length; lia).
  destruct (C136_init_units nu ns K qm qw (maybe_same true vs) m w Lm Lw) as (m' & w' & E & _ & _ & Am & Aw & _).
  { intros i Hi. rewrite Lz in Hi. rewrite maybe_same_nth by lia. apply Hv. intros ->. cbn in Lv. lia. }
  exists m', w'. split; [exact E|]. rewrite Lz in *. split.
  - intros i j s c d Hi Hj Hs Hc Hd. rewrite !Am by auto. now rewrite !maybe_same_nth by lia.
  - intros i j s d Hi Hj Hs Hd. rewrite !Aw by auto. now rewrite !maybe_same_nth by lia.
Qed.

(** The languages saved by the hierarchical command *)
Lemma sget_sset_eq {A} k (v : A) d : sget k (sset k v d) = Ok v.
Proof.
  induction d as [|[k' v'] d IH]; cbn; [now rewrite String.eqb_refl|].
  destruct (String.eqb k k') eqn:E; cbn; rewrite E; auto.
Qed.
Lemma sget_sset_neq {A} k k1 (v : A) d : k1 <> k -> sget k1 (sset k v d) = sget k1 d.
Proof.
  intros H. induction d as [|[k' v'] d IH]; cbn.
  - destruct (String.eqb_spec k1 k); [congruence|reflexivity].
  - destruct (String.eqb_spec k k') as [->|Hn]; cbn; [|now rewrite IH].
    destruct (String.eqb_spec k1 k'); [congruence|reflexivity].
Qed.
Theorem C136_languages : forall adapt ini lang root src tgt h g out h',
  hinit_langs adapt ini lang root src tgt h = Ok (g, out, h') ->
  sget (match ini with Some l => l | None => lang end) (match ini with Some _ => src | None => out end) = Ok g /\
  match adapt with Some l => sget lang out = sget l src | None => out = tgt end /\
  (forall l, l <> lang -> sget l out = sget l tgt) /\
  lg_root (h' g) = root /\ (forall a, lg_post (h' a) = lg_post (h a)) /\ (forall a, a <> g -> h' a = h a).
Proof.
  intros adapt ini lang root src tgt h g out h' H. unfold hinit_langs in H.
  destruct (match adapt with None => Ok tgt | Some l => bindr (sget l src) (fun g => Ok (sset lang g tgt)) end)
    as [t|] eqn:Ea; [|discriminate]. cbn [bindr] in H.
  destruct (match ini with Some l => sget l src | None => sget lang t end) as [g'|] eqn:Ei; [|discriminate].
  cbn [bindr] in H. injection H as <- <- <-. repeat split.
  - destruct ini; exact Ei.
  - destruct adapt as [l|]; [|now injection Ea as <-]. destruct (sget l src) as [gl|] eqn:El; [|discriminate].
    cbn in Ea. injection Ea as <-. apply sget_sset_eq.
  - intros l Hl. destruct adapt as [l'|]; [|now injection Ea as <-]. destruct (sget l' src) as [gl|] eqn:El; [|discriminate].
    cbn in Ea. injection Ea as <-. now apply sget_sset_neq.
  - unfold set_root. now rewrite Nat.eqb_refl.
  - intros a. unfold set_root. destruct (Nat.eqb g' a); reflexivity.
  - intros a Ha. unfold set_root. destruct (Nat.eqb_spec g' a); [congruence|reflexivity].
Qed.
(** Without --init-from the saved model of the language has the multilingual
    root; with it and without --adapt-from it keeps the one of its file. *)
Theorem C136_saved_root_partial : forall adapt lang root src tgt h g out h',
  hinit_langs adapt None lang root src tgt h = Ok (g, out, h') -> exists a, sget lang out = Ok a /\ lg_root (h' a) = root.
Proof.
  intros. apply C136_languages in H. destruct H as (A & _ & _ & B & _). exists g. auto.
Qed.
Theorem C136_saved_root_refuted : forall l lang root src tgt h a b, sget lang tgt = Ok a -> sget l src = Ok b -> a <> b ->
  lg_root (h a) <> root ->
  exists h', hinit_langs None (Some l) lang root src tgt h = Ok (b, tgt, h') /\ sget lang tgt = Ok a /\ lg_root (h' a) <> root.
Proof.
  intros l lang root src tgt h a b Ha Hb Hne Hr. exists (set_root h b root). unfold hinit_langs. cbn [bindr]. rewrite Hb.
  repeat split; auto. unfold set_root. destruct (Nat.eqb_spec b a); [congruence|exact Hr].
Qed.
Example C136_example : 
  init_loop 2 1 2 1 2 [[1;2;3;4];[5;6;7;8]]%R ([[0];[0];[0];[0];[9]]%R, [[0;0];[0;0];[9;9]]%R) =
    Ok ([[1];[2];[5];[6];[9]]%R, [[3;4];[7;8];[9;9]]%R) /\
  init_loop 2 1 2 1 2 [[1;2;3;4];[5;6;7]]%R ([[0];[0];[0];[0]]%R, [[0;0];[0;0]]%R) = Err RuntimeError.
Proof. split; reflexivity. Qed.

(** ** C137 *)
(** The training command takes the first longest group. *)
Lemma best_spec lens : forall pre n0 k0 , 
  (nth_error (pre ++ lens) k0 = Some n0) -> (forall j n, nth_error pre j = Some n -> n <= n0) ->
  let r := fold_left (fun (best : nat * nat) ik => if Nat.ltb (fst best) (snd ik) then (snd ik, fst ik) else best)
                     (combine (seq (length pre) (length lens)) lens) (n0, k0) in
  nth_error (pre ++ lens) (snd r) = Some (fst r) /\ (forall j n, nth_error (pre ++ lens) j = Some n -> n <= fst r).
Proof.
  induction lens as [|x lens IH]; intros pre n0 k0 H0 Hp.
  - cbn. rewrite app_nil_r in *. auto.
  - cbn [length seq combine fold_left]. cbn [fst snd].
    assert (Ea : pre ++ x :: lens = (pre ++ [x]) ++ lens) by (rewrite <- app_assoc; reflexivity).
    assert (Es : S (length pre) = length (pre ++ [x])) by (rewrite app_length; cbn; lia).
    assert (Hn : nth_error (pre ++ x :: lens) (length pre) = Some x) by (rewrite nth_error_app2, Nat.sub_diag by lia; reflexivity).
    assert (Hp' : forall n1, n0 <= n1 -> x <= n1 -> forall j n, nth_error (pre ++ [x]) j = Some n -> n <= n1).
    { intros n1 A B j n Hj. destruct (lt_dec j (length pre)) as [L|L].
      - rewrite nth_error_app1 in Hj by auto. apply Hp in Hj. lia.
      - rewrite nth_error_app2 in Hj by lia. destruct (j - length pre) as [|[|q]]; cbn in Hj; try discriminate.
        injection Hj as <-. exact B. }
    rewrite Ea in *. rewrite Es. destruct (Nat.ltb_spec n0 x) as [L|L].
    + apply (IH (pre ++ [x]) x (length pre)); [exact Hn|apply Hp'; lia].
    + apply (IH (pre ++ [x]) n0 k0); [exact H0|apply Hp'; lia].
Qed.
Theorem C137_train_group : forall lens g n, nth_error lens g = Some n ->
  exists k nk, train_group lens g = Ok k /\ nth_error lens k = Some nk /\ forall j nj, nth_error lens j = Some nj -> nj <= nk.
Proof.
  intros lens g n H. unfold train_group. rewrite H.
  destruct (best_spec lens [] n g) as [A B]; [exact H| intros [|j] x Hx; discriminate|].
  eexists. eexists. split; [reflexivity|]. split; [exact A|exact B].
Qed.
Lemma train_group_same lens g n : nth_error lens g = Some n -> (forall j nj, nth_error lens j = Some nj -> nj <= n) ->
  train_group lens g = Ok g.
Proof.
  intros H B. unfold train_group. rewrite H. f_equal.
  assert (G : forall l, (forall p, In p l -> snd p <= n) ->
    fold_left (fun (best : nat * nat) ik => if Nat.ltb (fst best) (snd ik) then (snd ik, fst ik) else best) l (n, g) = (n, g)).
  { induction l as [|p l IH]; intros Hl; [reflexivity|]. cbn [fold_left fst].
    destruct (Nat.ltb_spec n (snd p)) as [L|L]; [exfalso; specialize (Hl p (or_introl eq_refl)); lia|].
    apply IH. intros q Hq. apply Hl. now right. }
  rewrite G; [reflexivity|]. intros [i x] Hp. apply in_combine_r in Hp. cbn. apply In_nth_error in Hp. destruct Hp as [j Hj]. eauto.
Qed.
(** When the group of the units is the longest and has two units at least, or
    when the two groups are exchanged by both commands, they work on the same
    emissions. *)
Theorem C137_same_group_partial : forall lens ns g n, 0 < ns -> nth_error lens g = Some n ->
  ((forall j nj, nth_error lens j = Some nj -> nj <= n) /\ 2 <= n / ns \/
   exists other, length lens = 2 /\ nth_error lens (1 - g) = Some other /\ n < other /\ n / ns < 2) ->
  exists k, train_group lens g = Ok k /\ init_group lens ns g = Ok (Z.of_nat k).
Proof.
  intros lens ns g n Hns Hg H.
  assert (Pg : py_nth lens (Z.of_nat g) = Ok n).
  { unfold py_nth. destruct (Z.ltb_spec (Z.of_nat g) 0); [lia|]. destruct (Z.ltb_spec (Z.of_nat g) 0); [lia|].
    now rewrite Nat2Z.id, Hg. }
  destruct H as [[B H2]|(other & L2 & Ho & Hlt & H2)].
  - exists g. split; [eapply train_group_same; eauto|]. unfold init_group. rewrite Pg. cbn [bindr].
    destruct (Nat.eqb_spec ns 0); [lia|]. destruct (Nat.ltb_spec (n / ns) 2); [lia|reflexivity].
  - assert (Hg2 : g < 2) by (rewrite <- L2; apply nth_error_Some; congruence).
    assert (Po : py_nth lens (1 - Z.of_nat g) = Ok other).
    { unfold py_nth. destruct (Z.ltb_spec (1 - Z.of_nat g) 0); [lia|]. destruct (Z.ltb_spec (1 - Z.of_nat g) 0); [lia|].
      replace (Z.to_nat (1 - Z.of_nat g)) with (1 - g) by lia. now rewrite Ho. }
    exists (1 - g). split.
    + unfold train_group. rewrite Hg. destruct lens as [|x [|y [|z lens]]]; cbn in L2; try lia.
      destruct g as [|[|g]]; [| |lia]; cbn in Hg, Ho; injection Hg as <-; injection Ho as <-; cbn [length seq combine fold_left fst snd Nat.sub].
      * rewrite Nat.ltb_irrefl. cbn [fst snd]. destruct (Nat.ltb_spec x y); [reflexivity|lia].
      * destruct (Nat.ltb_spec y x); [|lia]. cbn [fst snd]. destruct (Nat.ltb_spec x y); [lia|reflexivity].
    + unfold init_group. rewrite Pg. cbn [bindr]. destruct (Nat.eqb_spec ns 0); [lia|].
      destruct (Nat.ltb_spec (n / ns) 2); [|lia]. rewrite Po. cbn [bindr]. f_equal. lia.
Qed.
(** Two units in the first group, more in the second: init works on the first
    and training on the second. *)
Theorem C137_same_group_refuted : forall ns k, 0 < ns -> 2 < k ->
  init_group [2 * ns; k * ns] ns 0 = Ok 0%Z /\ train_group [2 * ns; k * ns] 0 = Ok 1.
Proof.
  intros ns k Hns Hk. split.
  - unfold init_group. cbn [py_nth Z.of_nat]. unfold py_nth. cbn [Z.ltb Z.compare Z.to_nat nth_error bindr].
    destruct (Nat.eqb_spec ns 0); [lia|]. rewrite Nat.div_mul by lia. reflexivity.
  - unfold train_group. cbn [nth_error length seq combine fold_left fst snd]. rewrite Nat.ltb_irrefl. cbn [fst snd].
    destruct (Nat.ltb_spec (2 * ns) (k * ns)); [reflexivity|nia].
Qed.

(** All the languages use the multilingual root. *)
Theorem C137_train_roots : forall root langs h l a, sget l langs = Ok a -> lg_root (train_roots root langs h a) = root.
Proof.
  intros root langs h l a H.
  assert (K : forall ls h, lg_root (h a) = root -> lg_root (train_roots root ls h a) = root).
  { induction ls as [|[l' b] ls IH]; intros h' Hh; [exact Hh|]. cbn. apply IH. unfold set_root. cbn.
    destruct (Nat.eqb b a); [reflexivity|exact Hh]. }
  revert h. induction langs as [|[l' b] langs IH]; intros h; [discriminate|]. cbn in H. cbn.
  destruct (String.eqb l l').
  - injection H as ->. apply K. unfold set_root. cbn. now rewrite Nat.eqb_refl.
  - now apply IH.
Qed.

(** The posteriors follow the models when the two dictionaries have the same
    keys in the same order, as when both are made by mksphoneloop. *)
Lemma sget_nth {A} (d : list (string * A)) i l a : NoDup (map fst d) -> nth_error d i = Some (l, a) -> sget l d = Ok a.
Proof.
  revert i. induction d as [|[k v] d IH]; intros i Hn Hi; [destruct i; discriminate|]. inversion Hn as [|? ? Hk Hd]; subst.
  destruct i as [|i]; cbn in Hi.
  - injection Hi as -> ->. cbn. now rewrite String.eqb_refl.
  - cbn. destruct (String.eqb_spec l k) as [->|]; [|eauto]. exfalso. apply Hk. apply nth_error_In in Hi.
    apply (in_map fst) in Hi. exact Hi.
Qed.
Theorem C137_pairing_partial : forall (U P : Type) gsms (units : list (string * U)) (posts : list (string * P)) ms,
  NoDup (map fst gsms) -> map fst gsms = map fst posts -> models_and_submodels gsms units = Ok ms ->
  length ms = length (all_latent_posts posts) /\
  forall i g u p, nth_error ms i = Some (g, u) -> nth_error (all_latent_posts posts) i = Some p ->
    exists l, sget l gsms = Ok g /\ sget l units = Ok u /\ sget l posts = Ok p.
Proof.
  intros U P gsms units posts ms Hn Hk Hm.
  assert (F : Forall2 (fun lg gu => sget (fst lg) units = Ok (snd gu) /\ fst gu = snd lg) gsms ms).
  { clear Hn Hk. revert ms Hm. unfold models_and_submodels. induction gsms as [|[l g] gsms IH]; intros ms Hm; cbn in Hm.
    - injection Hm as <-. constructor.
    - destruct (sget l units) as [u|] eqn:E; cbn in Hm; [|discriminate].
      destruct (mapM _ gsms) as [ms'|]; cbn in Hm; [|discriminate]. injection Hm as <-. constructor; auto. }
  assert (Lk : length gsms = length posts) by (rewrite <- (map_length fst gsms), Hk, map_length; reflexivity).
  assert (Lm : length gsms = length ms) by (clear - F; induction F; cbn; auto).
  split; [unfold all_latent_posts; rewrite map_length; lia|].
  intros i g u p Hi Hp. unfold all_latent_posts in Hp. rewrite nth_error_map in Hp.
  destruct (nth_error posts i) as [[l p']|] eqn:Ep; cbn in Hp; [|discriminate]. injection Hp as ->.
  exists l. assert (El : nth_error (map fst gsms) i = Some l) by (rewrite Hk, nth_error_map, Ep; reflexivity).
  rewrite nth_error_map in El. destruct (nth_error gsms i) as [[l' g']|] eqn:Eg; cbn in El; [|discriminate].
  injection El as ->.
  assert (X : sget l units = Ok u /\ g = g').
  { clear - F Eg Hi. revert i Eg Hi. induction F as [|lg gu gsms ms H F IH]; intros [|i] Eg Hi; cbn in Eg, Hi; try discriminate.
    - injection Eg as ->. injection Hi as ->. cbn in H. destruct H; auto.
    - eauto. }
  destruct X as [X ->]. split; [eapply sget_nth; eauto|]. split; [exact X|].
  eapply sget_nth; [|exact Ep]. now rewrite <- Hk.
Qed.
(** Otherwise the posteriors of one language are used for the units of another. *)
Theorem C137_pairing_refuted : exists gsms (units : list (string * nat)) (posts : list (string * nat)) ms i g u p,
  NoDup (map fst gsms) /\ NoDup (map fst posts) /\ (forall l, In l (map fst gsms) <-> In l (map fst posts)) /\
  models_and_submodels gsms units = Ok ms /\ nth_error ms i = Some (g, u) /\ nth_error (all_latent_posts posts) i = Some p /\
  forall l, sget l gsms = Ok g -> sget l posts <> Ok p.
Proof.
  exists [("fr", 1); ("de", 2)]%string, [("fr", 1); ("de", 2)]%string, [("de", 2); ("fr", 1)]%string.
  eexists. exists 0, 1, 1, 2. split; [repeat constructor; cbn; intuition discriminate|].
  split; [repeat constructor; cbn; intuition discriminate|]. split; [cbn; tauto|].
  split; [reflexivity|]. split; [reflexivity|]. split; [reflexivity|].
  intros l. cbn. destruct (String.eqb_spec l "fr") as [->|]; [cbn; congruence|].
  destruct (String.eqb l "de"); [congruence|discriminate].
Qed.
Example C137_example :
  init_group [3; 150] 3 0 = Ok 1%Z /\ train_group [3; 150] 0 = Ok 1 /\
  init_group [3; 3; 9] 3 2 = Ok 2%Z /\ init_group [9; 3; 3] 3 2 = Ok (-1)%Z.
Proof. repeat split; reflexivity. Qed.

Print Assumptions C136_init_units.
Print Assumptions C136_short_vector.
Print Assumptions C136_same.
Print Assumptions C136_languages.
Print Assumptions C136_saved_root_partial.
Print Assumptions C136_saved_root_refuted.
Print Assumptions C137_train_group.
Print Assumptions C137_same_group_partial.
Print Assumptions C137_same_group_refuted.
Print Assumptions C137_train_roots.
Print Assumptions C137_pairing_partial.
Print Assumptions C137_pairing_refuted.
