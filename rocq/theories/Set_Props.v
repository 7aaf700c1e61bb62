(** Properties of model sets (C12-C15, C78, C79). *)
From Coq Require Import Reals List Arith Bool Lia Lra ZArith.
From Verif Require Import Prelude Vec Edit_Model Edit_Proofs Dec_Model Dec_Proofs
  Set_Model Set_Spec Set_Proofs Set_Index.
Import ListNotations.
Local Open Scope R_scope.

Ltac req :=
  match goal with
  | |- @eq R _ _ => lra
  | |- _ :: _ = _ :: _ => apply (f_equal2 cons); req
  | |- (_, _) = (_, _) => apply (f_equal2 pair); req
  | |- Ok _ = Ok _ => apply f_equal; req
  | |- _ => reflexivity
  end.

(** ** C12: DynamicallyOrderedModelSet *)
Theorem C12_credit K order r k :
  (forall o, In o order -> (o < K)%nat) -> length r = length order ->
  nth k (scatter K order r) 0 =
  sumf (fun i => if Nat.eqb (nth i order 0%nat) k then nth i r 0 else 0) (seq 0 (length order)).
Proof.
  intros Ho Hl. rewrite scatter_nth by auto.
  rewrite (combine_index order r 0%nat 0) by auto. rewrite sumf_map. reflexivity.
Qed.

Theorem C12_mass_conserved K order r :
  (forall o, In o order -> (o < K)%nat) -> length r = length order ->
  length (scatter K order r) = K /\ rsum (scatter K order r) = rsum r.
Proof.
  intros Ho Hl. split; [apply scatter_length|].
  rewrite (rsum_nth (scatter K order r)), scatter_length.
  rewrite (scatter_weighted (fun _ v => v)) by auto.
  rewrite (combine_index order r 0%nat 0) by auto. rewrite sumf_map. simpl.
  rewrite (rsum_nth r), Hl. reflexivity.
Qed.

Theorem C12_weighted_likelihood K order r (llh : nat -> R) :
  (forall o, In o order -> (o < K)%nat) -> length r = length order ->
  sumf (fun i => nth i r 0 * llh (nth i order 0%nat)) (seq 0 (length order)) =
  sumf (fun k => nth k (scatter K order r) 0 * llh k) (seq 0 K).
Proof.
  intros Ho Hl. rewrite (scatter_weighted (fun k v => v * llh k)) by (auto; intros; ring).
  rewrite (combine_index order r 0%nat 0) by auto. rewrite sumf_map. reflexivity.
Qed.

(** The likelihoods and the statistics are those of the emissions listed by the
    order, whatever the underlying set. *)
Theorem C12_likelihood m order x : wf m ->
  (forall o, In o order -> (o < size m)%nat) ->
  dyn_ellh m order x = Ok (map (fun k => em_llh x (nth k (denote m) e0)) order).
Proof. intros Hw Ho. rewrite dyn_ellh_denote by auto. unfold reorder. now rewrite map_map. Qed.

Theorem C12_statistics m d order stats resps p rows cols :
  wf m -> NoDup (params m) -> accepts d m ->
  (forall o, In o order -> (o < size m)%nat) ->
  Forall (fun x => length x = d) stats -> length stats = length resps ->
  shape m p = Some (rows, cols) ->
  exists M, dget Nat.eq_dec (dyn_accumulate m order stats resps) p = Some M /\
    length M = rows /\
    forall k, (k < rows)%nat -> length (nth k M []) = cols /\
      forall i, (i < cols)%nat ->
        nth i (nth k M []) 0 =
        acc_total (p, k) i (map (fun o => nth o (denote m) e0) order) stats resps.
Proof. apply dyn_accumulate_denote. Qed.

Theorem C12_bad_order m order x :
  (exists o, In o order /\ (size m <= o)%nat) -> dyn_ellh m order x = Err IndexError.
Proof. apply dyn_ellh_err. Qed.

Example C12_example :
  scatter 3 [2; 0; 2; 2]%nat [1/2; 1/4; 1/8; 1/8] = [1/4; 0; 3/4] /\
  dyn_ellh (Leaf 7 1 [[1]; [2]; [5]] 0) [2; 0; 2]%nat [3] = Ok [15; 3; 15] /\
  dyn_ellh (Leaf 7 1 [[1]; [2]; [5]] 0) [2; 3]%nat [3] = Err IndexError.
Proof.
  unfold scatter, dyn_ellh, dot, vmul, lin. simpl. split; [|split; [|reflexivity]].
  - unfold rsum, dot; simpl; req.
  - unfold rsum, dot; simpl; req.
Qed.

(** ** C13: JointModelSet *)
Theorem C13_length l : size (Joint l) = fold_right Nat.add 0%nat (map size l).
Proof. induction l as [|m t IH]; [reflexivity|]. simpl. f_equal. exact IH. Qed.

Theorem C13_likelihood_concat l x :
  ellh (Joint l) x = concat (map (fun m => ellh m x) l) /\ length (ellh (Joint l) x) = size (Joint l).
Proof.
  split; [|apply ellh_length]. induction l as [|m t IH]; [reflexivity|]. simpl. f_equal. exact IH.
Qed.

(** Element k is the emission whose likelihood is column k. *)
Fixpoint single_llh (x : list R) (s : single) : R :=
  match s with
  | SComp nf c => dot x nf + c
  | SMix cf subs => ln (rsum (joint_probs cf (map (single_llh x) subs)))
  end.

Lemma single_llh_erase x e : single_llh x (erase e) = em_llh x e.
Proof.
  induction e as [p k nf c|p k cf subs IH] using em_rect'; [reflexivity|].
  cbn [erase single_llh em_llh]. f_equal. f_equal. f_equal. rewrite map_map.
  apply map_ext_in. rewrite Forall_forall in IH. exact IH.
Qed.

Theorem C13_element_likelihood l k : wf (Joint l) -> indexable (Joint l) ->
  (k < size (Joint l))%nat ->
  exists s, getitem (Joint l) (KInt (Z.of_nat k)) = Ok (ISingle s) /\
    forall x, single_llh x s = nth k (ellh (Joint l) x) 0.
Proof.
  intros Hw Hi Hk. exists (erase (nth k (denote (Joint l)) e0)). split.
  - now apply getitem_denote.
  - intros x. rewrite ellh_denote by auto. rewrite single_llh_erase.
    rewrite (map_nth_lt _ _ _ e0); [reflexivity|]. now rewrite denote_length.
Qed.

Theorem C13_index_errors l z :
  ((z < 0)%Z -> getitem (Joint l) (KInt z) = Err ValueError) /\
  ((Z.of_nat (size (Joint l)) <= z)%Z -> getitem (Joint l) (KInt z) = Err IndexError).
Proof. apply joint_index_errors. Qed.

Lemma accs_other l start stats resps acc p : ~ In p (params (Joint l)) ->
  dget Nat.eq_dec (accs l start stats resps acc) p = dget Nat.eq_dec acc p.
Proof.
  revert start acc; induction l as [|m t IH]; intros start acc H; [reflexivity|].
  simpl in H. rewrite in_app_iff in H. cbn [accs]. rewrite IH by (intros H'; apply H; now right).
  rewrite dget_dupdate by apply accumulate_NoDup.
  destruct (dget Nat.eq_dec (accumulate m stats _) p) eqn:E; [|reflexivity].
  exfalso. apply H. left. eapply accumulate_keys. rewrite E. discriminate.
Qed.

Lemma accs_app l1 l2 start stats resps acc :
  accs (l1 ++ l2) start stats resps acc =
  accs l2 (start + size (Joint l1)) stats resps (accs l1 start stats resps acc).
Proof.
  revert start acc; induction l1 as [|m t IH]; intros start acc.
  - simpl. now rewrite Nat.add_0_r.
  - cbn [app accs]. rewrite IH. f_equal.
    change (size (Joint (m :: t))) with (size m + size (Joint t))%nat. lia.
Qed.

(** Each sub-set gets exactly the columns of its own components. *)
Theorem C13_accumulate_columns l1 m l2 stats resps p :
  In p (params m) -> ~ In p (params (Joint l1)) -> ~ In p (params (Joint l2)) ->
  Forall (fun r => (size (Joint (l1 ++ m :: l2)) <= length r)%nat) resps ->
  dget Nat.eq_dec (accumulate (Joint (l1 ++ m :: l2)) stats resps) p =
  dget Nat.eq_dec (accumulate m stats
    (map (fun r => map (fun j => nth (size (Joint l1) + j) r 0) (seq 0 (size m))) resps)) p.
Proof.
  intros Hp H1 H2 HF. rewrite accumulate_joint, accs_app. cbn [accs]. rewrite accs_other by auto.
    rewrite dget_dupdate by apply accumulate_NoDup. rewrite accs_other by auto. cbn [dget Nat.add].
    replace (map (fun r => map (fun j => nth (size (Joint l1) + j) r 0) (seq 0 (size m))) resps)
      with (columns (size (Joint l1)) (size m) resps).
    - destruct (dget Nat.eq_dec (accumulate m stats _) p); reflexivity.
    - unfold columns. apply map_ext_in. intros r Hr. rewrite Forall_forall in HF.
      specialize (HF r Hr). apply slice_as_nth.
      assert (E : size (Joint (l1 ++ m :: l2)) = (size (Joint l1) + (size m + size (Joint l2)))%nat).
      { clear. induction l1 as [|a t IH]; [reflexivity|].
        change (size (Joint ((a :: t) ++ m :: l2))) with (size a + size (Joint (t ++ m :: l2)))%nat.
        change (size (Joint (a :: t))) with (size a + size (Joint t))%nat. lia. }
      lia.
Qed.

Example C13_example :
  let A := Leaf 1 1 [[1]; [2]] 0 in let B := Leaf 2 1 [[5]] 0 in
  size (Joint [A; B]) = 3%nat /\
  getitem (Joint [A; B]) (KInt 2) = Ok (ISingle (SComp [5] 0)) /\
  getitem (Joint [A; B]) (KInt 3) = Err IndexError /\
  getitem (Joint [A; B]) (KInt (-1)) = Err ValueError /\
  accumulate (Joint [A; B]) [[10]] [[1/2; 1/4; 1/4]] = [(1%nat, [[5]; [5/2]]); (2%nat, [[5/2]])].
Proof.
  cbv zeta. split; [reflexivity|]. split; [reflexivity|]. split; [reflexivity|]. split; [reflexivity|].
  unfold accumulate, dupdate, resps_t_stats, colsum, vadd, vscale. simpl. req.
Qed.

(** ** C14: RepeatedModelSet *)
Theorem C14_columns m r x b k : (b < r)%nat -> (k < size m)%nat ->
  nth (b * size m + k) (ellh (Rep m r) x) 0 = nth k (ellh m x) 0 /\
  length (ellh (Rep m r) x) = (size m * r)%nat.
Proof.
  intros Hb Hk. split; [|apply (ellh_length (Rep m r))]. cbn [ellh].
  rewrite nth_concat_repeat; rewrite ellh_length; [|nia].
  f_equal. rewrite Nat.add_comm, Nat.mod_add, Nat.mod_small by lia. reflexivity.
Qed.

Theorem C14_element m r z : (0 < size m)%nat ->
  getitem (Rep m r) (KInt z) = getitem m (KInt (z mod Z.of_nat (size m))).
Proof. apply rep_getitem. Qed.

(** Every integer is accepted as an index: iterating over the set never stops. *)
Theorem C14_index_never_out_of_range_refuted m r z : wf m -> indexable m -> (0 < size m)%nat ->
  exists s, getitem (Rep m r) (KInt z) = Ok (ISingle s).
Proof. apply rep_getitem_always. Qed.

Theorem C14_accumulate m r stats resps :
  (0 < r)%nat -> Forall (fun row => length row = (size m * r)%nat) resps ->
  exists resps', accumulate (Rep m r) stats resps = accumulate m stats resps' /\
    length resps' = length resps /\
    forall t, (t < length resps)%nat ->
      length (nth t resps' []) = size m /\
      forall k, (k < size m)%nat ->
        nth k (nth t resps' []) 0 =
        sumf (fun b => nth (b * size m + k) (nth t resps []) 0) (seq 0 r).
Proof.
  intros Hr Hf. eexists. split; [reflexivity|]. split; [apply map_length|].
  intros t Ht. rewrite (map_nth_lt _ _ _ []) by auto.
  assert (Hl : length (nth t resps []) = (size m * r)%nat).
  { rewrite Forall_forall in Hf. apply Hf. now apply nth_In. }
  rewrite Hl, Nat.div_mul by lia.
  assert (HB : Forall (fun l => length l = size m) (blocks r (size m) (nth t resps [])))
    by (apply blocks_row_length; lia).
  split; [now apply colsum_length|]. intros k Hk. rewrite colsum_nth by auto.
  unfold blocks. rewrite sumf_map. apply sumf_ext. intros b Hb. apply in_seq in Hb.
  rewrite firstn_nth, skipn_nth by lia. reflexivity.
Qed.

Theorem C14_weighted_likelihood_conserved m r x row : (0 < r)%nat -> length row = (size m * r)%nat ->
  dot row (ellh (Rep m r) x) =
  dot (colsum (size m) (blocks r (length row / r) row)) (ellh m x).
Proof.
  intros Hr Hl.
  assert (HB : Forall (fun l => length l = size m) (blocks r (size m) row))
    by (apply blocks_row_length; lia).
  rewrite Hl, Nat.div_mul by lia.
  rewrite dot_nth by (rewrite Hl; symmetry; apply (ellh_length (Rep m r))).
  rewrite dot_nth by (rewrite colsum_length, ellh_length; auto).
  rewrite colsum_length, Hl, (Nat.mul_comm (size m) r), sumf_seq_mul, sumf_swap by auto.
  apply sumf_ext. intros k Hk. apply in_seq in Hk. rewrite colsum_nth by (auto; lia).
  unfold blocks. rewrite sumf_map, <- sumf_scal_r. apply sumf_ext. intros b Hb. apply in_seq in Hb.
  rewrite firstn_nth, skipn_nth by lia. f_equal. apply C14_columns; lia.
Qed.

Example C14_example :
  let A := Leaf 1 1 [[1]; [2]] 0 in
  ellh (Rep A 2) [10] = [10; 20; 10; 20] /\
  getitem (Rep A 2) (KInt 3) = Ok (ISingle (SComp [2] 0)) /\
  getitem (Rep A 2) (KInt 4) = Ok (ISingle (SComp [1] 0)) /\
  accumulate (Rep A 2) [[10]] [[1/2; 1/4; 1/8; 1/8]] = [(1%nat, [[25/4]; [15/4]])].
Proof.
  cbv zeta. split; [|split; [reflexivity|split; [reflexivity|]]].
  - unfold ellh, lin, dot, vmul, rsum. simpl. req.
  - unfold accumulate, resps_t_stats, colsum, vadd, vscale, blocks, vzeros. simpl. req.
Qed.

(** ** C15: MixtureSet *)
Theorem C15_likelihood p cf m x i n : wf m -> (0 < n)%nat -> (0 < length cf)%nat ->
  size m = (length cf * n)%nat -> Forall (fun w => length w = n) cf -> (i < length cf)%nat ->
  nth i (ellh (Mix p cf m) x) 0 =
  ln (sumf (fun j => exp (cat_logprob (nth i cf []) j + nth (i * n + j) (ellh m x) 0)) (seq 0 n)).
Proof.
  intros Hw Hn Hc Hs Hf Hi. cbn [ellh]. unfold ncpm. rewrite Hs, div_size by auto.
  rewrite (map_nth_lt _ _ _ []) by
    (unfold weighted; rewrite map2_length, blocks_length, log_weights_length; lia).
  rewrite weighted_nth by (rewrite ?ellh_length; auto).
  pose proof (nth_length_cf cf n i Hf Hi) as Hlk.
  unfold cat_logprobs. rewrite Hlk, map2_map, logsumexp_eq, map_map; [reflexivity|].
  destruct n; [lia|discriminate].
Qed.

(** The responsibilities given to the components of mixture i are positive
    fractions of the responsibility of mixture i and add up to it. *)
Theorem C15_joint_responsibilities cf m x r i n : wf m -> (0 < n)%nat ->
  size m = (length cf * n)%nat -> Forall (fun w => length w = n) cf -> length r = length cf ->
  (i < length cf)%nat ->
  rsum (nth i (joint_resps cf m x r) []) = nth i r 0 /\
  forall j, (j < n)%nat -> exists w, 0 < w <= 1 /\
    nth j (nth i (joint_resps cf m x r) []) 0 = nth i r 0 * w /\
    w = exp (cat_logprob (nth i cf []) j + nth (i * n + j) (ellh m x) 0) /
        sumf (fun j => exp (cat_logprob (nth i cf []) j + nth (i * n + j) (ellh m x) 0)) (seq 0 n).
Proof.
  intros Hw Hn Hs Hf Hr Hi. rewrite (joint_resps_nth cf m x r i n) by auto.
  pose proof (nth_length_cf cf n i Hf Hi) as Hlk.
  assert (Hlen : length (nth i cf []) = length (subs_of m n i)) by (rewrite subs_of_length; auto).
  assert (Hne : subs_of m n i <> []).
  { intros E0. apply (f_equal (@length _)) in E0. rewrite subs_of_length in E0. simpl in E0. lia. }
  assert (HJ : joint_probs (nth i cf []) (map (em_llh x) (subs_of m n i)) =
    map (fun j => exp (cat_logprob (nth i cf []) j + nth (i * n + j) (ellh m x) 0)) (seq 0 n)).
  { unfold joint_probs, cat_logprobs, subs_of. rewrite Hlk, map_map, map2_map.
    apply map_ext_in. intros j Hj. apply in_seq in Hj. f_equal. f_equal.
    rewrite ellh_denote by auto. rewrite (map_nth_lt _ _ _ e0); [reflexivity|].
    rewrite denote_length, Hs. nia. }
  split.
  - rewrite rsum_vscale, em_post_sum by auto. ring.
  - intros j Hj. exists (nth j (em_post x (nth i cf []) (subs_of m n i)) 0).
    assert (Hin : In (nth j (em_post x (nth i cf []) (subs_of m n i)) 0)
                     (em_post x (nth i cf []) (subs_of m n i))).
    { apply nth_In. rewrite em_post_length; rewrite ?subs_of_length; auto. }
    split; [split|split].
    + now apply em_post_nonneg in Hin.
    + rewrite <- (em_post_sum x (nth i cf []) (subs_of m n i)) by auto.
      rewrite rsum_sumf. 
      apply (sumf_ge_term (fun v => v)); [|exact Hin].
      intros v Hv. left. eapply em_post_nonneg; eauto.
    + apply vscale_nth.
    + unfold em_post. rewrite HJ. rewrite (map_nth_lt _ _ _ 0) by (rewrite map_length, seq_length; lia).
      rewrite (map_nth_lt _ _ _ 0%nat) by (rewrite seq_length; lia). rewrite seq_nth by lia. reflexivity.
Qed.

(** Statistics of the weights of mixture i: counts of all components but the
    last, then the total mass of the mixture. *)
Theorem C15_weights_statistics p cf m d stats resps n :
  wf m -> NoDup (p :: params m) -> accepts d m -> (0 < n)%nat -> (0 < length cf)%nat ->
  size m = (length cf * n)%nat -> Forall (fun w => length w = n) cf ->
  Forall (fun x => length x = d) stats -> length stats = length resps ->
  Forall (fun r => length r = length cf) resps ->
  exists M, dget Nat.eq_dec (accumulate (Mix p cf m) stats resps) p = Some M /\
    forall k, (k < length cf)%nat ->
      nth (n - 1) (nth k M []) 0 = sumf (fun r => nth k r 0) resps.
Proof.
  intros Hw Hnd Ha Hn Hc Hs Hf Hst Hl Hr.
  assert (HW : wf (Mix p cf m)) by (simpl; split; [auto|split; [auto|exists n; auto]]).
  assert (HS : shape (Mix p cf m) p = Some (length cf, n)).
  { simpl. rewrite Nat.eqb_refl, denote_length, Hs, div_size by auto. reflexivity. }
  destruct (accumulate_denote (Mix p cf m) d stats resps p (length cf) n) as (M & HM & H1 & H2); auto.
  exists M. split; [exact HM|]. intros k Hk. destruct (H2 k Hk) as [_ B]. rewrite B by lia.
  unfold acc_total. rewrite (rsum_map2_index _ _ _ [] []) by auto.
  unfold sumf at 2. rewrite <- (map_nth_seq (fun r => nth k r 0) resps []), <- Hl.
  change (rsum (map (fun k0 => nth k (nth k0 resps []) 0) (seq 0 (length stats))))
    with (sumf (fun k0 => nth k (nth k0 resps []) 0) (seq 0 (length stats))).
  apply sumf_ext. intros t Ht. apply in_seq in Ht.
  assert (Hrl : length (nth t resps []) = length cf).
  { rewrite Forall_forall in Hr. apply Hr. apply nth_In. lia. }
  fold (S_row (p, k) (n - 1) (denote (Mix p cf m)) (nth t stats []) (nth t resps [])).
  rewrite (mix_row (p, k) (n - 1) p cf m _ _ n) by auto. cbn [fst snd].
  rewrite Nat.eqb_refl. destruct (Nat.ltb_spec k (length cf)); [|lia]. cbn [andb].
  destruct (Nat.eqb_spec (S (n - 1)) n); [|lia]. inversion_clear Hnd.
  rewrite S_row_other by auto. ring.
Qed.

Theorem C15_element p cf q d nf c k n :
  length nf = (length cf * n)%nat -> (0 < length cf)%nat -> (k < length cf)%nat ->
  getitem (Mix p cf (Leaf q d nf c)) (KInt (Z.of_nat k)) =
  Ok (ISingle (SMix (nth k cf [])
        (map (fun j => SComp (nth (k * n + j) nf []) c) (seq 0 n)))).
Proof.
  intros. rewrite (getitem_mix_leaf p cf q d nf c k n) by auto. do 3 f_equal.
  rewrite (slice_as_nth nf _ n []) by nia. now rewrite map_map.
Qed.

Theorem C15_slice_partial p cf q d nf c n a b :
  length nf = (length cf * n)%nat -> (0 < length cf)%nat -> (0 < n)%nat ->
  (a < b)%nat -> (b <= length cf)%nat ->
  exists m', getitem (Mix p cf (Leaf q d nf c))
               (KSlice (Some (Z.of_nat a)) (Some (Z.of_nat b)) None) = Ok (ISet m') /\
    map erase (denote m') =
    firstn (b - a) (skipn a (map erase (denote (Mix p cf (Leaf q d nf c))))).
Proof.
  intros. eexists. split; [apply (mix_getslice p cf q d nf c n); auto; lia|].
  now apply mix_slice_denote.
Qed.

(** mixtureset[-1] is a mixture with the last weights and no component. *)
Theorem C15_negative_index_refuted p cf q d nf c n :
  length nf = (length cf * n)%nat -> (0 < length cf)%nat -> (0 < n)%nat ->
  getitem (Mix p cf (Leaf q d nf c)) (KInt (-1)) = Ok (ISingle (SMix (last cf []) [])).
Proof. apply mix_getitem_minus_one. Qed.

(** mixtureset[:] keeps all the weights but only the first len(self)
    components: with more than one component per mixture the result has not
    the emissions of the set. *)
Theorem C15_full_slice_refuted p cf q d nf c n :
  length nf = (length cf * n)%nat -> (0 < length cf)%nat -> (1 < n)%nat ->
  exists m', getitem (Mix p cf (Leaf q d nf c)) (KSlice None None None) = Ok (ISet (Mix 0 cf m')) /\
    (size m' < size (Leaf q d nf c))%nat /\ size m' = length cf.
Proof.
  intros Hs Hc Hn. eexists. split; [apply (mix_getslice_full p cf q d nf c n); auto; lia|].
  simpl. rewrite firstn_length. nia.
Qed.

(** A step selects whole mixtures in the weights but single components. *)
Theorem C15_step_slice_refuted :
  getitem (Mix 0 [[1; 1]; [2; 2]; [3; 3]; [4; 4]] (Leaf 1 1 [[11]; [12]; [21]; [22]; [31]; [32]; [41]; [42]] 0))
    (KSlice (Some 0%Z) (Some 4%Z) (Some 2%Z)) =
  Ok (ISet (Mix 0 [[1; 1]; [3; 3]] (Leaf 0 1 [[11]; [31]] 0))).
Proof. reflexivity. Qed.

(** A mixture set over a joint or a repeated set cannot be indexed at all. *)
Theorem C15_nested_index_refuted p cf m r l k : (k < length cf)%nat ->
  getitem (Mix p cf (Rep m r)) (KInt (Z.of_nat k)) = Err TypeError /\
  getitem (Mix p cf (Joint l)) (KInt (Z.of_nat k)) = Err TypeError.
Proof. intros. split; [now apply mix_over_rep|now apply mix_over_joint]. Qed.

(** Two mixtures of two components; the statistics show E log w = (-1, -1). *)
Example C15_example :
  let m := Mix 0 [[0; -1]; [0; -1]] (Leaf 1 1 [[0]; [0]; [1]; [1]] 0) in
  wf m /\ size m = 2%nat /\
  (forall x, nth 0 (ellh m [x]) 0 = ln (2 * exp (-1))) /\
  getitem m (KInt 1) = Ok (ISingle (SMix [0; -1] [SComp [1] 0; SComp [1] 0])) /\
  joint_resps [[0; -1]; [0; -1]] (Leaf 1 1 [[0]; [0]; [1]; [1]] 0) [7] [1/2; 1/3] = 
    [[1/4; 1/4]; [1/6; 1/6]].
Proof.
  cbv zeta.
  assert (HF : Forall (fun w : list R => length w = 2%nat) [[0; -1]; [0; -1]]) by (repeat constructor).
  assert (HL : wf (Leaf 1 1 [[0]; [0]; [1]; [1]] 0)) by (repeat constructor).
  split.
  { split; [exact HL|]. split; [simpl; lia|]. exists 2%nat. split; [lia|]. split; [reflexivity|exact HF]. }
  split; [reflexivity|]. split.
  { intros x. rewrite (C15_likelihood 0 _ _ [x] 0 2) by (auto; simpl; lia). f_equal.
    unfold sumf, ellh, lin, dot, vmul, rsum, cat_logprob. simpl.
    replace (0 + -1 + (x * 0 + 0 + 0)) with (-1) by ring.
    replace (-1 + (x * 0 + 0 + 0)) with (-1) by ring. ring. }
  split; [reflexivity|].
  assert (HP : forall i k, (i < 2)%nat -> (k < 2)%nat ->
    nth k (nth i (joint_resps [[0; -1]; [0; -1]] (Leaf 1 1 [[0]; [0]; [1]; [1]] 0) [7] [1/2; 1/3]) []) 0 =
    nth i [1/2; 1/3] 0 * (1/2)).
  { intros i k Hi Hk.
    destruct (C15_joint_responsibilities [[0; -1]; [0; -1]] (Leaf 1 1 [[0]; [0]; [1]; [1]] 0) [7] [1/2; 1/3] i 2)
      as [_ H]; auto.
    destruct (H k Hk) as (w & _ & -> & ->). f_equal.
    assert (E : forall j, (j < 2)%nat ->
      cat_logprob (nth i [[0; -1]; [0; -1]] []) j + nth (i * 2 + j) (ellh (Leaf 1 1 [[0]; [0]; [1]; [1]] 0) [7]) 0
      = match i with O => -1 | _ => 6 end).
    { intros j Hj. destruct i as [|[|i]]; [| |lia]; destruct j as [|[|j]]; try lia;
      unfold cat_logprob, ellh, lin, dot, vmul, rsum; simpl; lra. }
    rewrite E by auto. unfold sumf. simpl seq. cbn [map rsum fold_right]. rewrite !E by lia.
    unfold rsum. cbn [fold_right].
    pose proof (exp_pos (match i with O => -1 | _ => 6 end)). field. lra. }
  assert (HJl : length (joint_resps [[0; -1]; [0; -1]] (Leaf 1 1 [[0]; [0]; [1]; [1]] 0) [7] [1/2; 1/3]) = 2%nat)
    by reflexivity.
  assert (HJr : Forall (fun l => length l = 2%nat)
    (joint_resps [[0; -1]; [0; -1]] (Leaf 1 1 [[0]; [0]; [1]; [1]] 0) [7] [1/2; 1/3]))
    by (apply joint_rows; auto).
  revert HP HJl HJr. generalize (joint_resps [[0; -1]; [0; -1]] (Leaf 1 1 [[0]; [0]; [1]; [1]] 0) [7] [1/2; 1/3]).
  intros J HP HJl HJr.
  destruct J as [|a [|b [|]]]; try discriminate HJl.
  inversion_clear HJr. inversion_clear H0. clear H2.
  destruct a as [|a0 [|a1 [|]]]; try discriminate H. destruct b as [|b0 [|b1 [|]]]; try discriminate H1.
  pose proof (HP 0 0 ltac:(lia) ltac:(lia))%nat. pose proof (HP 0 1 ltac:(lia) ltac:(lia))%nat.
  pose proof (HP 1 0 ltac:(lia) ltac:(lia))%nat. pose proof (HP 1 1 ltac:(lia) ltac:(lia))%nat.
  simpl in *. req.
Qed.

(** ** C78: any nesting computes the likelihoods and the statistics of the
    emissions it stands for *)
Theorem C78_likelihood m x : wf m ->
  ellh m x = map (em_llh x) (denote m) /\ length (denote m) = size m.
Proof. intros H. split; [now apply ellh_denote|apply denote_length]. Qed.

Theorem C78_statistics m d stats resps p rows cols :
  wf m -> NoDup (params m) -> accepts d m ->
  Forall (fun x => length x = d) stats -> length stats = length resps ->
  Forall (fun r => length r = size m) resps ->
  shape m p = Some (rows, cols) ->
  exists M, dget Nat.eq_dec (accumulate m stats resps) p = Some M /\
    length M = rows /\
    forall k, (k < rows)%nat -> length (nth k M []) = cols /\
      forall i, (i < cols)%nat ->
        nth i (nth k M []) 0 = acc_total (p, k) i (denote m) stats resps.
Proof. apply accumulate_denote. Qed.

(** and only for its own parameters, all of them *)
Theorem C78_keys m d stats resps p :
  wf m -> NoDup (params m) -> accepts d m ->
  Forall (fun x => length x = d) stats -> length stats = length resps ->
  Forall (fun r => length r = size m) resps ->
  (dget Nat.eq_dec (accumulate m stats resps) p <> None <-> In p (params m)).
Proof.
  intros Hw Hn Ha Hs Hl Hr. split; [apply accumulate_keys|]. intros Hp.
  apply shape_params in Hp. destruct Hp as [[rows cols] Hp].
  destruct (accumulate_denote m d stats resps p rows cols) as (M & HM & _); auto.
  rewrite HM. discriminate.
Qed.

Theorem C78_indexing m k : wf m -> indexable m -> (k < size m)%nat ->
  getitem m (KInt (Z.of_nat k)) = Ok (ISingle (erase (nth k (denote m) e0))).
Proof. apply getitem_denote. Qed.

(** Two copies of a set, followed by another set. *)
Example C78_example :
  let m := Joint [Rep (Leaf 1 1 [[1]; [2]] 0) 2; Leaf 2 1 [[5]] 0] in
  wf m /\ NoDup (params m) /\ accepts 1 m /\
  denote m = [EComp 1 0 [1] 0; EComp 1 1 [2] 0; EComp 1 0 [1] 0; EComp 1 1 [2] 0; EComp 2 0 [5] 0] /\
  acc_total (1%nat, 1%nat) 0 (denote m) [[10]] [[1/2; 1/4; 1/8; 1/16; 1/16]] = 10 * (1/4 + 1/16) /\
  accumulate m [[10]] [[1/2; 1/4; 1/8; 1/16; 1/16]] =
    [(1%nat, [[10 * (5/8)]; [10 * (5/16)]]); (2%nat, [[10/16]])].
Proof.
  cbv zeta. split; [repeat constructor|]. split; [|split; [simpl; auto|split; [reflexivity|split]]].
  - repeat constructor; simpl; intuition discriminate.
  - unfold acc_total, rsum. simpl. lra.
  - unfold accumulate, dupdate, resps_t_stats, colsum, vadd, vscale, blocks, vzeros, columns.
    simpl. req.
Qed.

(** ** C79: sets of a JointModelSet sharing a parameter.  The dictionary update
    keeps the statistics of the last set only. *)
Theorem C79_last_set_wins_partial l m stats resps p :
  dget Nat.eq_dec (accumulate m stats (columns (size (Joint l)) (size m) resps)) p <> None ->
  dget Nat.eq_dec (accumulate (Joint (l ++ [m])) stats resps) p =
  dget Nat.eq_dec (accumulate m stats (columns (size (Joint l)) (size m) resps)) p.
Proof.
  intros H. rewrite accumulate_joint, accs_app. cbn [accs].
  rewrite dget_dupdate by apply accumulate_NoDup. cbn [Nat.add].
  destruct (dget Nat.eq_dec (accumulate m stats _) p); congruence.
Qed.

Theorem C79_shared_statistics_lost_refuted :
  let A := Leaf 1 1 [[1]; [2]] 0 in
  exists stats resps,
    accumulate (Joint [A; A]) stats resps <> accumulate (Rep A 2) stats resps /\
    accumulate (Joint [A; A]) stats resps = [(1%nat, [[0]; [0]])] /\
    acc_total (1%nat, 0%nat) 0 (denote (Joint [A; A])) stats resps = 10 /\
    denote (Joint [A; A]) = denote (Rep A 2).
Proof.
  cbv zeta. exists [[10]], [[1; 0; 0; 0]].
  assert (E : accumulate (Joint [Leaf 1 1 [[1]; [2]] 0; Leaf 1 1 [[1]; [2]] 0]) [[10]] [[1; 0; 0; 0]]
    = [(1%nat, [[0]; [0]])]).
  { unfold accumulate, dupdate, resps_t_stats, colsum, vadd, vscale, columns. simpl. req. }
  split; [|split; [exact E|split; [|reflexivity]]].
  - rewrite E. unfold accumulate, resps_t_stats, colsum, vadd, vscale, blocks, vzeros. simpl.
    intros H. injection H as H. lra.
  - unfold acc_total, rsum. simpl. lra.
Qed.

Print Assumptions C12_statistics.
Print Assumptions C13_accumulate_columns.
Print Assumptions C15_weights_statistics.
Print Assumptions C78_statistics.
