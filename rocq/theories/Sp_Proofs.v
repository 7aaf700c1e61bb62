(** Proofs about the subspace phone-loop commands. *)
From Coq Require Import Reals String List Arith Bool ZArith Lra Lia Permutation Sorted.
From Verif Require Import Prelude Vec Edit_Model Dec_Model Set_Model Set_Spec Set_Index
  Graph_Model Graph_Spec Graph_Proofs Dist_Model Dist_Proofs Opt_Model LMat Gs_Model Gs_Proofs
  Gb_Model Gb_Spec Gb_Proofs Sp_Model.
Import ListNotations.
Local Open Scope R_scope.

Lemma map_repeat_c {A B} (f : A -> B) x n : map f (repeat x n) = repeat (f x) n.
Proof. induction n as [|n IH]; [reflexivity|]. cbn. now rewrite IH. Qed.

Lemma nth_repeat_any {A} (x d : A) n k : (k < n)%nat -> nth k (repeat x n) d = x.
Proof. revert k. induction n as [|n IH]; intros [|k] H; cbn; auto; [lia|lia|apply IH; lia]. Qed.

Lemma nth_skipn {A} (l : list A) n i d : nth i (skipn n l) d = nth (n + i) l d.
Proof. revert l. induction n as [|n IH]; intros [|a l]; cbn; auto. destruct i; reflexivity. Qed.

Lemma In_firstn {A} (x : A) i l : In x (firstn i l) -> In x l.
Proof. intros H. rewrite <- (firstn_skipn i l). apply in_app_iff. now left. Qed.

Lemma In_skipn {A} (x : A) i l : In x (skipn i l) -> In x l.
Proof. intros H. rewrite <- (firstn_skipn i l). apply in_app_iff. now right. Qed.

(** ** Number of states *)

Lemma nstates_fold t : forall n0,
  (n0 <= fold_left (fun n (arc : nat * nat * R) => Nat.max n (snd (fst arc) - 1)) t n0)%nat /\
  (forall a, In a t -> (snd (fst a) - 1 <= fold_left (fun n (arc : nat * nat * R) => Nat.max n (snd (fst arc) - 1)) t n0)%nat) /\
  (fold_left (fun n (arc : nat * nat * R) => Nat.max n (snd (fst arc) - 1)) t n0 = n0 \/
   exists a, In a t /\ fold_left (fun n (arc : nat * nat * R) => Nat.max n (snd (fst arc) - 1)) t n0 = (snd (fst a) - 1)%nat).
Proof.
  induction t as [|a t IH]; intros n0; cbn [fold_left].
  - split; [lia|]. split; [intros a []|now left].
  - destruct (IH (Nat.max n0 (snd (fst a) - 1))) as (I1 & I2 & I3). split; [lia|]. split.
    + intros b [<-|Hb]; [lia|auto].
    + destruct I3 as [I3|(b & Hb & I3)].
      * rewrite I3. destruct (Nat.max_spec n0 (snd (fst a) - 1)) as [[_ E]|[_ E]]; rewrite E; [right|now left].
        exists a. split; [now left|reflexivity].
      * right. exists b. split; [now right|exact I3].
Qed.

Lemma nstates_contiguous t n : contiguous t n ->
  (exists a, In a t /\ snd (fst a) = (n - 1)%nat) -> nstates_of t = (n - 2)%nat.
Proof.
  intros Hc (a & Ha & Ea). unfold nstates_of. destruct (nstates_fold t 0) as (_ & H2 & H3).
  pose proof (H2 a Ha) as H. rewrite Ea in H.
  destruct H3 as [H3|(b & Hb & H3)].
  - lia.
  - assert (snd (fst b) < n)%nat by (apply Hc; exists b; auto). lia.
Qed.

(** ** Units of a group *)

(** Number of states of the units of a group. *)
Definition emitting_of (gconf : list (string * list (nat * nat * R))) (g : string) : nat :=
  match sget g gconf with Ok t => (length (state_ids t) - 2)%nat | Err _ => O end.

Lemma mkphones_loop_tots gconf : (forall g t, In (g, t) gconf -> regular t) ->
  forall grouped st k' units' tots',
  foldM (mkgroup gconf) grouped st = Ok (k', units', tots') ->
  tots' = snd st ++ map (fun gn : string * list string => (length (snd gn) * emitting_of gconf (fst gn))%nat) grouped.
Proof.
  intros Hreg. induction grouped as [|[g names] grouped IH]; intros [[k units] tots] k' units' tots' H.
  - cbn [foldM] in H. inv H. cbn [map snd]. now rewrite app_nil_r.
  - cbn [foldM] in H. destruct (mkgroup gconf (k, units, tots) (g, names)) as [st|] eqn:Es; [|discriminate]. cbn [bindr] in H.
    apply mkgroup_inv in Es. destruct Es as (t & k1 & us1 & tot & Et & Ec & _ & _ & ->). cbn [fst snd] in *.
    destruct (Hreg g t (sget_in _ _ _ Et)) as (n & Hn & Hc).
    unfold create_group in Ec. destruct (create_group_count t n Hn Hc names k units 0) as (u' & E).
    rewrite E in Ec. cbn [Nat.add] in Ec. injection Ec as <- <- <-. apply IH in H. cbn [snd] in H. cbn [map fst snd].
    rewrite H, <- app_assoc. cbn [app]. unfold emitting_of at 2. rewrite Et.
    now rewrite (contiguous_ids t n Hc), seq_length.
Qed.

Lemma find_group_spec {A} name (conf : list (string * A)) i :
  find_group name conf = Ok i ->
  (exists x, nth_error conf i = Some (name, x)) /\
  forall j x, (j < i)%nat -> nth_error conf j <> Some (name, x).
Proof.
  revert i. induction conf as [|[g x] conf IH]; intros i H; cbn [find_group fst] in H; [discriminate|].
  destruct (String.eqb g name) eqn:E.
  - inv H. apply String.eqb_eq in E. subst g. split; [exists x; reflexivity|intros j y Hj; lia].
  - destruct (find_group name conf) as [k|] eqn:Ek; [|discriminate]. cbn [bindr] in H. inv H.
    destruct (IH k eq_refl) as [I1 I2]. split; [exact I1|]. intros [|j] y Hj.
    + cbn. intros Hs. inv Hs. rewrite String.eqb_refl in E. discriminate.
    + cbn. apply I2. lia.
Qed.

Lemma find_group_ok {A} name (conf : list (string * A)) :
  In name (map fst conf) -> exists i, find_group name conf = Ok i.
Proof.
  induction conf as [|[g x] conf IH]; cbn [map fst find_group In]; [tauto|]. intros H.
  destruct (String.eqb g name) eqn:E; [eauto|]. apply String.eqb_neq in E.
  destruct IH as (i & Ei); [destruct H; [contradiction|assumption]|]. rewrite Ei. cbn [bindr]. eauto.
Qed.

Lemma mkphones_group_size conf lines ul units tots g t i n :
  NoDup (map fst conf) -> (forall g t, In (g, t) conf -> regular t) ->
  mapM unit_line lines = Ok ul -> mkphones conf lines = Ok (units, tots) ->
  find_group g conf = Ok i -> nth_error conf i = Some (g, t) -> (2 <= n)%nat -> contiguous t n ->
  nth i tots 0%nat = (length (filter (fun u => String.eqb (snd u) g) ul) * (n - 2))%nat.
Proof.
  intros Hnd Hreg Hul Hm Hi Ht Hn Hc. unfold mkphones in Hm. rewrite groups_conf_distinct in Hm by auto.
  destruct (group_units conf lines) as [d|] eqn:Ed; [|discriminate]. cbn [bindr] in Hm.
  unfold group_units in Ed.
  assert (Hg0 : In g (map fst conf)).
  { apply nth_error_In in Ht. apply in_map_iff. exists (g, t). auto. }
  assert (Hkeys : map fst d = map fst conf).
  { assert (G : forall lines (d0 d : list (string * list string)), foldM (fun d toks =>
           bindr (unit_line toks) (fun ng =>
           bindr (sget (snd ng) d) (fun names =>
           Ok (sset (snd ng) (names ++ [fst ng]) d)))) lines d0 = Ok d -> map fst d = map fst d0).
    { clear. induction lines as [|toks lines IH]; intros d0 d H; cbn [foldM] in H; [now inv H|].
      destruct (unit_line toks) as [[nm gr]|]; [|discriminate]. cbn [bindr fst snd] in H.
      destruct (sget gr d0) as [names|] eqn:E; [|discriminate]. cbn [bindr] in H.
      rewrite (IH _ _ H). apply sset_keys. apply sget_in in E. apply in_map_iff. exists (gr, names). auto. }
    rewrite (G _ _ _ Ed), map_map. reflexivity. }
  assert (Hgd : sget g (map (fun gc : string * list (nat * nat * R) => (fst gc, @nil string)) conf) = Ok []).
  { clear - Hg0. induction conf as [|[a b] conf IH]; [inversion Hg0|]. cbn [map fst sget].
    destruct (String.eqb g a) eqn:E; [reflexivity|]. apply IH. destruct Hg0 as [H|H]; [|exact H].
    cbn in H. subst a. rewrite String.eqb_refl in E. discriminate. }
  pose proof (group_units_names lines _ d ul g [] Hul Ed Hgd) as Hn'. cbn [app] in Hn'.
  destruct (foldM _ d (0%nat, [], [])) as [[[k us] ts]|] eqn:Ef; [|discriminate]. cbn [bindr] in Hm. inv Hm.
  apply mkphones_loop_tots in Ef; [|exact Hreg]. cbn [snd app] in Ef. subst tots.
  assert (Hdi : nth_error d i = Some (g, map fst (filter (fun u => String.eqb (snd u) g) ul))).
  { apply sget_in in Hn'. apply In_nth_error in Hn'. destruct Hn' as (j & Hj).
    assert (Ej : nth_error (map fst d) j = Some g) by (rewrite nth_error_map, Hj; reflexivity).
    assert (Ei : nth_error (map fst d) i = Some g) by (rewrite Hkeys, nth_error_map, Ht; reflexivity).
    assert (i = j); [|congruence].
    apply (proj1 (NoDup_nth_error (map fst d))); [now rewrite Hkeys| |congruence].
    apply nth_error_Some. congruence. }
  apply (map_nth_error (fun gn : string * list string => (length (snd gn) * emitting_of conf (fst gn))%nat)) in Hdi.
  apply nth_error_nth with (d := 0%nat) in Hdi. rewrite Hdi. cbn [fst snd]. rewrite map_length. f_equal.
  unfold emitting_of. rewrite (sget_nodup g conf t); auto.
  - now rewrite (contiguous_ids t n Hc), seq_length.
  - apply nth_error_In in Ht. exact Ht.
Qed.

(** ** Views of the units *)

Lemma iterate_units_ok p cf q d nf c n ns nu :
  length nf = (length cf * n)%nat -> (0 < length cf)%nat -> (0 < n)%nat -> (0 < ns)%nat ->
  (nu * ns <= length cf)%nat ->
  iterate_units (Mix p cf (Leaf q d nf c)) nu ns =
  Ok (map (fun u => ISet (Mix 0 (firstn ns (skipn (u * ns) cf))
                             (Leaf 0 d (firstn (ns * n) (skipn (u * ns * n) nf)) c))) (seq 0 nu)).
Proof.
  intros Hl Hc Hn Hs Hu. unfold iterate_units.
  assert (G : forall l, (forall u, In u l -> (u < nu)%nat) ->
    mapM (fun idx => getitem (Mix p cf (Leaf q d nf c))
            (KSlice (Some (Z.of_nat (idx * ns))) (Some (Z.of_nat ((idx + 1) * ns))) None)) l =
    Ok (map (fun u => ISet (Mix 0 (firstn ns (skipn (u * ns) cf))
                             (Leaf 0 d (firstn (ns * n) (skipn (u * ns * n) nf)) c))) l)).
  { induction l as [|u l IH]; intros H; [reflexivity|]. cbn [mapM map].
    rewrite (mix_getslice p cf q d nf c n) by (auto; try nia; pose proof (H u (or_introl eq_refl)); nia).
    cbn [bindr]. rewrite IH by (intros; apply H; now right). cbn [bindr].
    replace ((u + 1) * ns - u * ns)%nat with ns by nia. reflexivity. }
  apply G. intros u Hu'. apply in_seq in Hu'. lia.
Qed.

Lemma concat_chunks {A} ns (l : list A) : forall nu, (nu * ns <= length l)%nat ->
  concat (map (fun u => firstn ns (skipn (u * ns) l)) (seq 0 nu)) = firstn (nu * ns) l.
Proof.
  induction nu as [|nu IH]; intros H; [reflexivity|]. rewrite seq_S, map_app, concat_app, IH by nia.
  cbn [map concat Nat.add]. rewrite app_nil_r.
  rewrite <- (firstn_skipn (nu * ns) l) at 3. rewrite firstn_app, firstn_firstn, firstn_length.
  rewrite Nat.min_r by nia. f_equal. f_equal. nia.
Qed.

(** ** Initial statistics *)

Lemma zero_params K : (0 < K)%nat -> INR (K - 1) <= exp 20 ->
  cat_params_from_pdfvec (vzeros K) = repeat (/ INR K) K.
Proof.
  intros HK Hb. destruct K as [|k]; [lia|]. unfold vzeros.
  assert (E : repeat 0 (S k) = repeat 0 k ++ [0]) by (rewrite <- repeat_cons; reflexivity).
  unfold cat_params_from_pdfvec. rewrite E, removelast_last.
  assert (L : exp (- cat_log_norm (repeat 0 k)) = / INR (S k)).
  { destruct k as [|k].
    - cbn. rewrite Ropp_0, exp_0. field.
    - unfold cat_log_norm. cbn [repeat].
      replace (rsum (map exp (0 :: repeat 0 k))) with (INR (S k)).
      2:{ change (0 :: repeat 0 k) with (repeat 0 (S k)). clear.
          induction (S k) as [|j IH]; [reflexivity|]. cbn [repeat map rsum]. rewrite <- IH, exp_0, S_INR. lra. }
      assert (P : 0 < INR (S k)) by (apply lt_0_INR; lia).
      rewrite softplus_exact.
      + rewrite exp_ln by exact P. rewrite exp_Ropp, exp_ln by lra. f_equal. rewrite (S_INR (S k)). lra.
      + replace 20 with (ln (exp 20)) by apply ln_exp. replace (S (S k) - 1)%nat with (S k) in Hb by lia.
        destruct (Rle_lt_or_eq_dec _ _ Hb) as [H|H]; [left; now apply ln_increasing|rewrite H; right; reflexivity]. }
  rewrite L. rewrite map_repeat_c, exp_0, Rmult_1_l. rewrite <- repeat_cons. reflexivity.
Qed.

Section InitUnits.
  Variables (nu ns K D : nat) (w m : mat).
  Hypothesis Hns : (0 < ns)%nat.
  Hypothesis HK : (0 < K)%nat.
  Hypothesis Hb : INR (K - 1) <= exp 20.
  Hypothesis Lw : (nu * ns <= length w)%nat.
  Hypothesis Lm : (nu * ns * K <= length m)%nat.
  Hypothesis Rw : Forall (fun r => length r = K) w.
  Hypothesis Rm : Forall (fun r => length r = D) m.

  Definition new_w (u : nat) : mat := init_weights_stats (gslice (u * ns) ((u + 1) * ns) w).
  Definition mrow (u : nat) : list R :=
    colsum D (map (vscale (/ INR K)) (gslice (u * ns * K) ((u + 1) * ns * K) m)).
  Definition new_m (u : nat) : mat := repeat (mrow u) (ns * K).

  Lemma gslice_length {A} a b (l : list A) : (a <= b)%nat -> (b <= length l)%nat ->
    length (gslice a b l) = (b - a)%nat.
  Proof. intros. unfold gslice. rewrite firstn_length, skipn_length. lia. Qed.

  Lemma new_w_length u : (u < nu)%nat -> length (new_w u) = ns.
  Proof. intros H. unfold new_w, init_weights_stats. rewrite map_length, gslice_length; nia. Qed.

  Lemma map2_vscale_repeat x (l : mat) : map2 vscale (repeat x (length l)) l = map (vscale x) l.
  Proof. induction l as [|a l IH]; [reflexivity|]. cbn. now rewrite IH. Qed.

  Lemma means_row u : (u < nu)%nat ->
    init_means_precisions_stats (gslice (u * ns * K) ((u + 1) * ns * K) m)
      (gslice (u * ns) ((u + 1) * ns) (map (fun r => vzeros (length r)) w)) = Ok (new_m u).
  Proof.
    intros Hu. unfold init_means_precisions_stats.
    assert (E : concat (map cat_params_from_pdfvec
              (gslice (u * ns) ((u + 1) * ns) (map (fun r => vzeros (length r)) w))) =
            repeat (/ INR K) (ns * K)).
    { assert (Em : map (fun r : list R => vzeros (length r)) w = repeat (vzeros K) (length w)).
      { clear - Rw. induction Rw as [|r w Hr H IH]; [reflexivity|]. cbn. now rewrite Hr, IH. }
      rewrite Em. unfold gslice.
      assert (Es : forall n k, skipn k (repeat (vzeros K) n) = repeat (vzeros K) (n - k)).
      { clear. induction n as [|n IH]; intros [|k]; [reflexivity|reflexivity|reflexivity|apply IH]. }
      assert (Ef : forall n k, (k <= n)%nat -> firstn k (repeat (vzeros K) n) = repeat (vzeros K) k).
      { clear. induction n as [|n IH]; intros [|k] H; cbn; auto; [lia|]. rewrite IH by lia. reflexivity. }
      rewrite Es, Ef by nia. replace ((u + 1) * ns - u * ns)%nat with ns by nia.
      rewrite map_repeat_c, zero_params by auto. clear. induction ns as [|n IH]; [reflexivity|].
      cbn [repeat concat]. rewrite IH. symmetry. apply (repeat_app (/ INR K) K (n * K)). }
    rewrite E. cbv zeta. rewrite repeat_length, gslice_length by nia.
    replace ((u + 1) * ns * K - u * ns * K)%nat with (ns * K)%nat by nia. rewrite Nat.eqb_refl.
    assert (Lg : length (gslice (u * ns * K) ((u + 1) * ns * K) m) = (ns * K)%nat) by (rewrite gslice_length; nia).
    assert (Eh : length (hd [] (gslice (u * ns * K) ((u + 1) * ns * K) m)) = D).
    { assert (HF : Forall (fun r : list R => length r = D) (gslice (u * ns * K) ((u + 1) * ns * K) m)).
      { unfold gslice. apply Forall_forall. intros r Hr. apply In_firstn in Hr. apply In_skipn in Hr.
        rewrite Forall_forall in Rm. auto. }
      destruct (gslice (u * ns * K) ((u + 1) * ns * K) m) as [|r l]; [cbn in Lg; nia|].
      inversion HF; auto. }
    rewrite Eh.
    assert (Er : map2 vscale (repeat (/ INR K) (ns * K)) (gslice (u * ns * K) ((u + 1) * ns * K) m) =
                 map (vscale (/ INR K)) (gslice (u * ns * K) ((u + 1) * ns * K) m))
      by (rewrite <- Lg; apply map2_vscale_repeat).
    rewrite Er. unfold new_m. fold (mrow u). rewrite <- Lg.
    assert (G : forall (x : list R) (l : mat), map (fun _ => x) l = repeat x (length l)).
    { clear. intros x l. induction l as [|a l IH]; [reflexivity|]. cbn. now rewrite IH. }
    now rewrite G.
  Qed.

  Lemma concat_len {A} (f : nat -> list A) k : forall n, (forall u, (u < n)%nat -> length (f u) = k) ->
    length (concat (map f (seq 0 n))) = (n * k)%nat.
  Proof.
    induction n as [|n IH]; intros H; [reflexivity|]. rewrite seq_S, map_app, concat_app, app_length, IH by (intros; apply H; lia).
    cbn [map concat Nat.add]. rewrite app_nil_r, H by lia. lia.
  Qed.

  Lemma gslice_tail {A} (pre l : list A) a b : length pre = a -> (a <= b)%nat ->
    gslice a b (pre ++ skipn a l) = gslice a b l.
  Proof.
    intros H1 H2. unfold gslice. rewrite skipn_app, skipn_all2 by lia. cbn [app].
    rewrite H1, Nat.sub_diag. reflexivity.
  Qed.

  Lemma write_tail (pre rows l : mat) a : length pre = a ->
    write_rows a rows (pre ++ skipn a l) = (pre ++ rows) ++ skipn (a + length rows) l.
  Proof.
    intros H1. unfold write_rows. rewrite firstn_app, firstn_all2 by lia. rewrite H1, Nat.sub_diag, firstn_O, app_nil_r.
    rewrite skipn_app, skipn_all2 by lia. cbn [app]. rewrite H1, <- app_assoc. do 2 f_equal.
    replace (a + length rows - a)%nat with (length rows) by lia. now rewrite skipn_add.
  Qed.

  Lemma init_units_prefix : forall k, (k <= nu)%nat ->
    foldM (init_unit ns K (map (fun r => vzeros (length r)) w)) (seq 0 k) (w, m) =
    Ok (concat (map new_w (seq 0 k)) ++ skipn (k * ns) w,
        concat (map new_m (seq 0 k)) ++ skipn (k * ns * K) m).
  Proof.
    induction k as [|k IH]; intros Hk; [reflexivity|].
    assert (Fa : forall l1 l2 st, foldM (init_unit ns K (map (fun r => vzeros (length r)) w)) (l1 ++ l2) st =
      bindr (foldM (init_unit ns K (map (fun r => vzeros (length r)) w)) l1 st)
            (fun s => foldM (init_unit ns K (map (fun r => vzeros (length r)) w)) l2 s)).
    { induction l1 as [|a l1 IHl]; intros l2 st; [reflexivity|]. cbn [app foldM].
      destruct (init_unit ns K _ st a); cbn [bindr]; auto. }
    rewrite seq_S, Fa, IH by lia. cbn [bindr foldM Nat.add]. unfold init_unit.
    assert (L1 : length (concat (map new_w (seq 0 k))) = (k * ns)%nat)
      by (apply concat_len; intros; apply new_w_length; lia).
    assert (L2 : length (concat (map new_m (seq 0 k))) = (k * ns * K)%nat).
    { rewrite (concat_len new_m (ns * K)); [nia|]. intros. unfold new_m. apply repeat_length. }
    rewrite !gslice_tail by (auto; nia). fold (new_w k). rewrite means_row by lia. cbn [bindr].
    rewrite !write_tail by auto. rewrite new_w_length by lia.
    assert (L3 : length (new_m k) = (ns * K)%nat) by apply repeat_length. rewrite L3.
    rewrite !map_app, !concat_app. cbn [map concat]. rewrite !app_nil_r.
    replace (k * ns + ns)%nat with (S k * ns)%nat by nia.
    replace (k * ns * K + ns * K)%nat with (S k * ns * K)%nat by nia. reflexivity.
  Qed.

  Lemma nth_concat_chunks {A} (f : nat -> list A) k d : forall n u s (rest : list A),
    (forall u, (u < n)%nat -> length (f u) = k) -> (u < n)%nat -> (s < k)%nat ->
    nth (u * k + s) (concat (map f (seq 0 n)) ++ rest) d = nth s (f u) d.
  Proof.
    induction n as [|n IH]; intros u s rest H Hu Hs; [lia|].
    rewrite seq_S, map_app, concat_app. cbn [map concat Nat.add]. rewrite app_nil_r, <- app_assoc.
    destruct (Nat.eq_dec u n) as [->|Hne].
    - assert (L : length (concat (map f (seq 0 n))) = (n * k)%nat) by (apply concat_len; intros; apply H; lia).
      rewrite app_nth2 by lia. rewrite L. replace (n * k + s - n * k)%nat with s by lia.
      rewrite app_nth1 by (rewrite H by lia; lia). reflexivity.
    - apply IH; auto; lia.
  Qed.

  Lemma gslice_sum {A} (f : A -> R) a b (l : list A) d : (a <= b)%nat -> (b <= length l)%nat ->
    sumf f (gslice a b l) = sumf (fun s => f (nth (a + s) l d)) (seq 0 (b - a)).
  Proof.
    intros H1 H2. unfold gslice.
    rewrite (sumf_ext (fun s => f (nth (a + s) l d)) (fun s => f (nth s (skipn a l) d)))
      by (intros; now rewrite nth_skipn).
    assert (Ls : (b - a <= length (skipn a l))%nat) by (rewrite skipn_length; lia).
    revert Ls. generalize (skipn a l). generalize (b - a)%nat. clear.
    induction n as [|n IH]; intros l H; [reflexivity|]. destruct l as [|x l]; [cbn in H; lia|].
    cbn [firstn seq]. rewrite !sumf_cons. cbn [nth]. f_equal. rewrite IH by (cbn in H; lia).
    rewrite <- seq_shift, sumf_map. reflexivity.
  Qed.

  Lemma init_units_values :
    exists w' m', init_units nu ns K w m = Ok (w', m') /\
      length w' = length w /\ length m' = length m /\
      (forall u s k, (u < nu)%nat -> (s < ns)%nat -> (k < K)%nat ->
         let C := sumf (fun s => nth (K - 1) (nth (u * ns + s) w []) 0) (seq 0 ns) in
         length (nth (u * ns + s) w' []) = K /\
         nth k (nth (u * ns + s) w' []) 0 = if Nat.eqb (S k) K then C / 3 else C / (3 * INR K)) /\
      (forall u j, (u < nu)%nat -> (j < ns * K)%nat ->
         length (nth (u * (ns * K) + j) m' []) = D /\
         forall i, (i < D)%nat ->
         nth i (nth (u * (ns * K) + j) m' []) 0 =
         / INR K * sumf (fun j => nth i (nth (u * (ns * K) + j) m []) 0) (seq 0 (ns * K))) /\
      (forall r, (nu * ns <= r)%nat -> nth r w' [] = nth r w []) /\
      (forall r, (nu * ns * K <= r)%nat -> nth r m' [] = nth r m []).
  Proof.
    exists (concat (map new_w (seq 0 nu)) ++ skipn (nu * ns) w),
           (concat (map new_m (seq 0 nu)) ++ skipn (nu * ns * K) m).
    assert (L1 : length (concat (map new_w (seq 0 nu))) = (nu * ns)%nat)
      by (apply concat_len; intros; apply new_w_length; lia).
    assert (L2 : length (concat (map new_m (seq 0 nu))) = (nu * (ns * K))%nat).
    { apply (concat_len new_m (ns * K)). intros. unfold new_m. apply repeat_length. }
    split; [apply init_units_prefix; lia|]. split; [rewrite app_length, L1, skipn_length; lia|].
    split; [rewrite app_length, L2, skipn_length; nia|]. split; [|split; [|split]].
    - intros u s k Hu Hs Hk C.
      pose proof (nth_concat_chunks new_w ns [] nu u s (skipn (nu * ns) w) new_w_length Hu Hs) as En.
      cbv zeta. unfold mat in *. rewrite En.
      unfold new_w, init_weights_stats.
      set (sl := gslice (u * ns) ((u + 1) * ns) w).
      assert (Ls : length sl = ns) by (unfold sl; rewrite gslice_length; nia).
      assert (HF : Forall (fun r : list R => length r = K) sl).
      { unfold sl, gslice. apply Forall_forall. intros r Hr. apply In_firstn in Hr. apply In_skipn in Hr.
        rewrite Forall_forall in Rw. auto. }
      assert (Eh : length (hd [] sl) = K).
      { destruct sl as [|r l]; [cbn in Ls; lia|]. inversion HF; auto. }
      assert (EC : rsum (map (fun r => last r 0) sl) = C).
      { change (sumf (fun r : list R => last r 0) sl = C).
        rewrite (sumf_ext _ (fun r => nth (K - 1) r 0)).
        - unfold sl, C. rewrite (gslice_sum _ _ _ w []) by nia.
          replace ((u + 1) * ns - u * ns)%nat with ns by nia. reflexivity.
        - intros r Hr. rewrite Forall_forall in HF. specialize (HF r Hr). rewrite <- HF.
          destruct r as [|a r] using rev_ind; [cbn in HF; lia|]. rewrite last_last, app_length. cbn [length].
          rewrite app_nth2 by lia. replace (length r + 1 - 1 - length r)%nat with 0%nat by lia. reflexivity. }
      rewrite Eh, EC. unfold set_last.
      set (row := removelast _ ++ _).
      assert (Er : nth s (map (fun _ : list R => row) sl) [] = row).
      { rewrite (nth_indep _ [] row) by (rewrite map_length; lia).
        clear. revert s. induction sl as [|a l IH]; intros [|s]; cbn; auto. }
      rewrite Er. unfold row. clear Er row.
      assert (Erep : forall x n, removelast (repeat x n) = repeat (x : R) (n - 1)).
      { clear. intros x n. destruct n as [|n]; [reflexivity|].
        assert (E : repeat x (S n) = repeat x n ++ [x]) by (rewrite <- repeat_cons; reflexivity).
        rewrite E, removelast_last. f_equal. lia. }
      rewrite Erep. split; [rewrite app_length, repeat_length; cbn; lia|].
      destruct (Nat.eqb (S k) K) eqn:E.
      + apply Nat.eqb_eq in E. rewrite app_nth2 by (rewrite repeat_length; lia). rewrite repeat_length.
        replace (k - (K - 1))%nat with 0%nat by lia. reflexivity.
      + apply Nat.eqb_neq in E. rewrite app_nth1 by (rewrite repeat_length; lia). apply nth_repeat_any. lia.
    - intros u j Hu Hj. 
      pose proof (nth_concat_chunks new_m (ns * K) [] nu u j (skipn (nu * ns * K) m)
                    (fun u _ => repeat_length (mrow u) (ns * K)) Hu Hj) as En.
      unfold mat in *. rewrite En.
      unfold new_m. rewrite nth_repeat_any by auto. unfold mrow.
      assert (HF : Forall (fun r : list R => length r = D)
                (map (vscale (/ INR K)) (gslice (u * ns * K) ((u + 1) * ns * K) m))).
      { apply Forall_forall. intros r Hr. apply in_map_iff in Hr. destruct Hr as (r' & <- & Hr).
        rewrite vscale_length. unfold gslice in Hr. apply In_firstn in Hr. apply In_skipn in Hr.
        rewrite Forall_forall in Rm. auto. }
      split; [now rewrite colsum_length|]. intros i Hi.
      rewrite colsum_nth by auto. rewrite sumf_map.
      rewrite (sumf_ext _ (fun r => / INR K * nth i r 0)) by (intros; apply vscale_nth).
      rewrite sumf_scal_l. f_equal. rewrite (gslice_sum _ _ _ m []) by nia.
      replace ((u + 1) * ns * K - u * ns * K)%nat with (ns * K)%nat by nia.
      apply sumf_ext. intros. do 2 f_equal. nia.
    - intros r Hr. rewrite app_nth2 by lia. rewrite L1, nth_skipn. f_equal. lia.
    - intros r Hr. rewrite app_nth2 by nia. rewrite L2, nth_skipn. f_equal. nia.
  Qed.
End InitUnits.

(** ** Classes *)

Lemma insert_str_perm s l : Permutation (insert_str s l) (s :: l).
Proof.
  induction l as [|x l IH]; cbn [insert_str]; [reflexivity|]. destruct (String.leb s x); [reflexivity|].
  rewrite IH. apply perm_swap.
Qed.

Lemma sort_str_perm l : Permutation (sort_str l) l.
Proof.
  induction l as [|x l IH]; cbn [sort_str fold_right]; [reflexivity|]. rewrite insert_str_perm. now constructor.
Qed.

Definition sle (a b : string) : Prop := String.leb a b = true.

Lemma insert_str_sorted s l : Sorted sle l -> Sorted sle (insert_str s l).
Proof.
  induction l as [|x l IH]; intros H; cbn [insert_str]; [repeat constructor|].
  destruct (String.leb s x) eqn:E.
  - constructor; [exact H|]. constructor. exact E.
  - assert (Exs : sle x s) by (destruct (String.leb_total s x) as [H'|H']; [congruence|exact H']).
    inversion_clear H as [|? ? H1 H2]. constructor; [auto|].
    destruct l as [|y l]; cbn [insert_str]; [constructor; exact Exs|].
    destruct (String.leb s y); constructor; [exact Exs|]. inversion H2; auto.
Qed.

Lemma sort_str_sorted l : Sorted sle (sort_str l).
Proof. induction l as [|x l IH]; [constructor|]. now apply insert_str_sorted. Qed.

Lemma read_classes_spec : forall lines pairs d1 d2,
  mapM unit_line lines = Ok pairs -> NoDup (map fst (d1 ++ pairs)) -> NoDup (map fst d2) ->
  exists d2', foldM (fun (st : list (string * string) * list (string * string)) toks => match toks with
         | [unit; uclass] => Ok (sset unit uclass (fst st), sset uclass unit (snd st))
         | _ => Err ValueError
         end) lines (d1, d2) = Ok (d1 ++ pairs, d2') /\ NoDup (map fst d2') /\
    forall c, In c (map fst d2') <-> In c (map fst d2) \/ In c (map snd pairs).
Proof.
  induction lines as [|toks lines IH]; intros pairs d1 d2 Hm H1 H2.
  - cbn [mapM] in Hm. inv Hm. exists d2. cbn [foldM map]. rewrite app_nil_r. split; [reflexivity|].
    split; [exact H2|]. intros c. cbn. tauto.
  - cbn [mapM] in Hm. destruct toks as [|u [|c [|? ?]]]; try discriminate. cbn [unit_line bindr] in Hm.
    destruct (mapM unit_line lines) as [ps|] eqn:E; [|discriminate]. cbn [bindr] in Hm. inv Hm.
    cbn [foldM fst snd bindr].
    assert (Hf : ~ In u (map fst d1)).
    { intros H. rewrite map_app in H1. cbn [map fst] in H1. apply NoDup_remove_2 in H1. apply H1.
      apply in_app_iff. now left. }
    rewrite sset_fresh by exact Hf.
    destruct (IH ps (d1 ++ [(u, c)]) (sset c u d2) eq_refl) as (d2' & E' & N & K).
    + rewrite <- app_assoc. exact H1.
    + now apply sset_nodup.
    + exists d2'. split; [rewrite E', <- app_assoc; reflexivity|]. split; [exact N|].
      intros c'. rewrite K, sset_in_keys. cbn [map snd In]. intuition.
Qed.

Lemma class2idx_get (d2 : list (string * string)) : NoDup (map fst d2) ->
  forall c k, nth_error (sort_str (map fst d2)) k = Some c -> sget c (class2idx d2) = Ok k.
Proof.
  intros Hnd c k Hk. unfold class2idx.
  assert (Hs : NoDup (sort_str (map fst d2))) by (eapply Permutation_NoDup; [symmetry; apply sort_str_perm|exact Hnd]).
  assert (Hl : length d2 = length (sort_str (map fst d2)))
    by (rewrite (Permutation_length (sort_str_perm _)), map_length; reflexivity).
  rewrite Hl. revert Hs Hk. generalize (sort_str (map fst d2)). clear. intros cs Hnd Hk.
  assert (G : forall l a d, NoDup (map fst (d : list (string * nat)) ++ l) ->
    fold_left (fun d (ic : nat * string) => sset (snd ic) (fst ic) d) (combine (seq a (length l)) l) d =
    d ++ map (fun ic => (snd ic, fst ic)) (combine (seq a (length l)) l)).
  { induction l as [|x l IH]; intros a d Hd; cbn [length seq combine fold_left map fst snd].
    - now rewrite app_nil_r.
    - rewrite sset_fresh.
      + rewrite IH.
        * rewrite <- app_assoc. reflexivity.
        * rewrite map_app, <- app_assoc. exact Hd.
      + intros H. apply NoDup_remove_2 in Hd. apply Hd. apply in_app_iff. now left. }
  rewrite (G cs 0%nat []) by exact Hnd. cbn [app].
  apply sget_nodup.
  - rewrite map_map. cbn [fst].
    assert (E : forall (l : list string) a, map (fun x : nat * string => snd x) (combine (seq a (length l)) l) = l).
    { induction l as [|x l IH]; intros a; cbn; [reflexivity|]. now rewrite IH. }
    now rewrite E.
  - apply in_map_iff. exists (k, c). split; [reflexivity|].
    assert (E : forall (l : list string) a j x, nth_error l j = Some x -> In ((a + j)%nat, x) (combine (seq a (length l)) l)).
    { induction l as [|y l IH]; intros a [|j] x H; cbn in *; try discriminate.
      - left. inv H. f_equal. lia.
      - right. replace (a + S j)%nat with (S a + j)%nat by lia. now apply IH. }
    apply (E cs 0%nat k c Hk).
Qed.

Definition listed (pairs : list (string * string)) (u : string) : bool :=
  match sget u pairs with Ok _ => true | Err _ => false end.

Lemma upd_length {A} k (v : A) l : length (upd k v l) = length l.
Proof. revert k. induction l as [|a l IH]; intros [|k]; cbn; auto. Qed.

Lemma upd_nth {A} k (v : A) l i d : (k < length l)%nat ->
  nth i (upd k v l) d = if Nat.eqb i k then v else nth i l d.
Proof.
  revert k i. induction l as [|a l IH]; intros [|k] [|i] H; cbn in *; try lia; try reflexivity.
  rewrite IH by lia. reflexivity.
Qed.

Section Labels.
  Variables (pairs : list (string * string)) (c2i : list (string * nat)) (nunits : nat).
  Hypothesis Hall : forall u c, sget u pairs = Ok c -> exists k, sget c c2i = Ok k.

  Definition lab (u : string) : nat :=
    match sget u pairs with
    | Ok c => match sget c c2i with Ok k => k | Err _ => O end
    | Err _ => O
    end.

  Let stepf := (fun (st : list nat * nat) unit =>
           let '(labels, unit_idx) := st in
           match sget unit pairs with
           | Err _ => Ok (labels, unit_idx)
           | Ok uclass =>
             bindr (sget uclass c2i) (fun k =>
             if Nat.ltb unit_idx nunits then Ok (upd unit_idx k labels, S unit_idx)
             else Err IndexError)
           end).

  Lemma labels_loop : forall names labels idx, length labels = nunits ->
    (idx + length (filter (listed pairs) names) <= nunits)%nat ->
    exists labels', foldM stepf names (labels, idx) = Ok (labels', (idx + length (filter (listed pairs) names))%nat) /\
      length labels' = nunits /\
      forall i, nth i labels' O =
        if (idx <=? i) && (i <? idx + length (filter (listed pairs) names))
        then lab (nth (i - idx) (filter (listed pairs) names) EmptyString) else nth i labels O.
  Proof.
    induction names as [|u names IH]; intros labels idx Hl Hb.
    - exists labels. cbn [foldM filter length]. rewrite Nat.add_0_r. split; [reflexivity|]. split; [exact Hl|].
      intros i. destruct (Nat.leb_spec idx i), (Nat.ltb_spec i idx); cbn [andb]; try reflexivity. lia.
    - cbn [foldM filter]. cbn [filter] in Hb. unfold stepf at 1. cbn [fst snd].
      destruct (sget u pairs) as [c|] eqn:E.
      + assert (El : listed pairs u = true) by (unfold listed; now rewrite E). rewrite El in *.
        destruct (Hall u c E) as (k & Ek). rewrite Ek. cbn [bindr]. cbn [length] in Hb.
        assert (Hi : (idx <? nunits)%nat = true) by (apply Nat.ltb_lt; lia). rewrite Hi. cbn [bindr].
        destruct (IH (upd idx k labels) (S idx)) as (labels' & E' & L' & N').
        { now rewrite upd_length. }
        { lia. }
        exists labels'. cbn [length]. split; [rewrite E'; do 2 f_equal; lia|]. split; [exact L'|].
        intros i. rewrite N'. rewrite upd_nth by lia.
        destruct (Nat.leb_spec (S idx) i), (Nat.ltb_spec i (S idx + length (filter (listed pairs) names))),
          (Nat.leb_spec idx i), (Nat.ltb_spec i (idx + S (length (filter (listed pairs) names)))); cbn [andb]; try lia.
        * replace (i - idx)%nat with (S (i - S idx)) by lia. reflexivity.
        * destruct (Nat.eqb_spec i idx); [lia|reflexivity].
        * destruct (Nat.eqb_spec i idx); [|lia]. subst i. rewrite Nat.sub_diag. cbn [nth].
          unfold lab. now rewrite E, Ek.
        * destruct (Nat.eqb_spec i idx); [lia|reflexivity].
      + assert (El : listed pairs u = false) by (unfold listed; now rewrite E). rewrite El in *.
        cbn [bindr]. apply IH; auto.
  Qed.

  Lemma labels_overflow : forall names labels idx, length labels = nunits -> (idx <= nunits)%nat ->
    (nunits < idx + length (filter (listed pairs) names))%nat ->
    foldM stepf names (labels, idx) = Err IndexError.
  Proof.
    induction names as [|u names IH]; intros labels idx Hl Hi Hb; [cbn [filter length] in Hb; lia|].
    cbn [foldM filter]. cbn [filter] in Hb. unfold stepf at 1. cbn [fst snd].
    destruct (sget u pairs) as [c|] eqn:E.
    - assert (El : listed pairs u = true) by (unfold listed; now rewrite E). rewrite El in *.
      destruct (Hall u c E) as (k & Ek). rewrite Ek. cbn [bindr]. cbn [length] in Hb.
      destruct (Nat.ltb_spec idx nunits) as [H|H]; cbn [bindr]; [|reflexivity].
      apply IH; rewrite ?upd_length; auto; lia.
    - assert (El : listed pairs u = false) by (unfold listed; now rewrite E). rewrite El in *.
      cbn [bindr]. apply IH; auto.
  Qed.
End Labels.

(** ** Training history *)

Lemma vec_eq_nth (u v : list R) n : length u = n -> length v = n ->
  (forall k, (k < n)%nat -> nth k u 0 = nth k v 0) -> u = v.
Proof. intros H1 H2 H. apply vec_ext; [congruence|]. intros k Hk. apply H. lia. Qed.

Lemma vadd_length' u v n : length u = n -> length v = n -> length (vadd u v) = n.
Proof. intros. unfold vadd. rewrite map2_length. lia. Qed.
Lemma vsub_length' u v n : length u = n -> length v = n -> length (vsub u v) = n.
Proof. intros. unfold vsub. rewrite map2_length. lia. Qed.

Lemma new_nparams_length lrate p n : length (p_prior p) = n -> length (p_post p) = n ->
  length (p_stats p) = n -> length (new_nparams lrate p) = n.
Proof.
  intros H1 H2 H3. unfold new_nparams. apply vadd_length'; [auto|]. rewrite vscale_length.
  apply vsub_length'; [|auto]. now apply vadd_length'.
Qed.

Lemma param_stats_update lrate p n : length (p_prior p) = n -> length (p_post p) = n ->
  length (p_stats p) = n ->
  param_stats (ngu lrate p) = vadd (vscale (1 - lrate) (param_stats p)) (vscale lrate (p_stats p)).
Proof.
  intros H1 H2 H3. unfold param_stats, ngu. cbn [p_post p_prior set_post].
  apply (vec_eq_nth _ _ n).
  - apply vsub_length'; [|auto]. now apply new_nparams_length.
  - apply vadd_length'; rewrite vscale_length; [now apply vsub_length'|auto].
  - intros k Hk. unfold new_nparams.
    repeat (rewrite ?vsub_nth, ?vadd_nth, ?vscale_nth by
      (rewrite ?vscale_length; rewrite ?(vadd_length' _ _ n), ?(vsub_length' _ _ n) by
        (auto; rewrite ?vscale_length; auto using vadd_length', vsub_length'); lia)).
    ring.
Qed.
