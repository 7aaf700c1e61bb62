(** Re-ordering and indexing of model sets. *)
From Coq Require Import Reals List Arith Bool Lia Lra ZArith.
From Verif Require Import Prelude Vec Edit_Model Edit_Proofs Dec_Model Dec_Proofs
  Set_Model Set_Spec Set_Proofs.
Import ListNotations.
Local Open Scope R_scope.

(** ** Scattering responsibilities *)
Lemma add_at_length k v l : length (add_at k v l) = length l.
Proof. revert k; induction l as [|a l IH]; intros [|k]; simpl; auto. Qed.

Lemma add_at_nth j v l k : (j < length l)%nat ->
  nth k (add_at j v l) 0 = nth k l 0 + (if Nat.eqb j k then v else 0).
Proof.
  revert j k; induction l as [|a l IH]; intros [|j] [|k] H; simpl in *; try lia; try lra.
  apply IH. lia.
Qed.

Lemma scatter_gen order r acc k : (forall o, In o order -> (o < length acc)%nat) ->
  nth k (fold_left (fun acc ov => add_at (fst ov) (snd ov) acc) (combine order r) acc) 0 =
  nth k acc 0 + sumf (fun ov => if Nat.eqb (fst ov) k then snd ov else 0) (combine order r).
Proof.
  revert r acc; induction order as [|o order IH]; intros [|v r] acc H; simpl;
    try (rewrite ?sumf_nil; lra).
  rewrite IH by (intros; rewrite add_at_length; apply H; now right).
  rewrite add_at_nth by (apply H; now left). rewrite sumf_cons. simpl. lra.
Qed.

Lemma scatter_length K order r : length (scatter K order r) = K.
Proof.
  unfold scatter. rewrite <- (vzeros_length K) at 2. generalize (vzeros K).
  induction (combine order r) as [|ov l IH]; intros acc; simpl; auto.
  rewrite IH. apply add_at_length.
Qed.

Lemma scatter_nth K order r k : (forall o, In o order -> (o < K)%nat) ->
  nth k (scatter K order r) 0 =
  sumf (fun ov => if Nat.eqb (fst ov) k then snd ov else 0) (combine order r).
Proof.
  intros H. unfold scatter. rewrite scatter_gen, vzeros_nth by (rewrite vzeros_length; auto). lra.
Qed.

Lemma combine_index {A B} (l : list A) (m : list B) da db : length l = length m ->
  combine l m = map (fun i => (nth i l da, nth i m db)) (seq 0 (length l)).
Proof.
  revert m; induction l as [|a l IH]; intros [|b m] H; simpl in *; try discriminate; auto.
  f_equal. rewrite (IH m) by congruence. rewrite <- seq_shift, map_map. reflexivity.
Qed.

(** Sum of a linear functional after scattering. *)
Lemma scatter_weighted (f : nat -> R -> R) K order r :
  (forall o, In o order -> (o < K)%nat) ->
  (forall k a b, f k (a + b) = f k a + f k b) ->
  sumf (fun k => f k (nth k (scatter K order r) 0)) (seq 0 K) =
  sumf (fun ov => f (fst ov) (snd ov)) (combine order r).
Proof.
  intros H Hf.
  assert (H0 : forall k, f k 0 = 0) by (intros k; pose proof (Hf k 0 0) as E; rewrite Rplus_0_l in E; lra).
  rewrite (sumf_ext _ (fun k => sumf (fun ov => if Nat.eqb (fst ov) k then f k (snd ov) else 0) (combine order r))).
  - rewrite sumf_swap. apply sumf_ext. intros [o v] Ho. apply in_combine_l in Ho. simpl.
    rewrite (sumf_seq_single _ K o); [now rewrite Nat.eqb_refl|auto|].
    intros k Hk Hne. destruct (Nat.eqb_spec o k); [congruence|reflexivity].
  - intros k _. rewrite scatter_nth by auto. clear -Hf H0. 
    induction (combine order r) as [|ov l IH]; [rewrite !sumf_nil; auto|].
    rewrite !sumf_cons, Hf, IH. destruct (Nat.eqb (fst ov) k); rewrite ?H0; reflexivity.
Qed.

Definition reorder (es : list em) (order : list nat) : list em :=
  map (fun k => nth k es e0) order.

Lemma combine_map_l {A B C} (g : A -> B) l (m : list C) (h : B -> C -> R) :
  rsum (map2 h (map g l) m) = sumf (fun ov => h (g (fst ov)) (snd ov)) (combine l m).
Proof.
  revert m; induction l as [|a l IH]; intros [|b m]; simpl; auto.
  rewrite sumf_cons. simpl. f_equal. apply IH.
Qed.

Lemma scatter_row q i m x order r : (forall o, In o order -> (o < size m)%nat) ->
  S_row q i (denote m) x (scatter (size m) order r) = S_row q i (reorder (denote m) order) x r.
Proof.
  intros H. unfold S_row.
  rewrite (rsum_map2_index _ _ _ e0 0) by (rewrite denote_length, scatter_length; auto).
  rewrite denote_length.
  rewrite (scatter_weighted (fun k v => em_acc q x i (nth k (denote m) e0) v)); auto.
  - unfold reorder. now rewrite combine_map_l.
  - intros k a b. apply em_acc_plus.
Qed.

Lemma dyn_accumulate_denote m d order stats resps p rows cols :
  wf m -> NoDup (params m) -> accepts d m -> (forall o, In o order -> (o < size m)%nat) ->
  Forall (fun x => length x = d) stats -> length stats = length resps ->
  shape m p = Some (rows, cols) ->
  exists M, dget Nat.eq_dec (dyn_accumulate m order stats resps) p = Some M /\
    length M = rows /\
    forall k, (k < rows)%nat -> length (nth k M []) = cols /\
      forall i, (i < cols)%nat ->
        nth i (nth k M []) 0 = acc_total (p, k) i (reorder (denote m) order) stats resps.
Proof.
  intros Hw Hnd Ha Ho Hst Hl Hsh. unfold dyn_accumulate.
  destruct (accumulate_denote m d stats (map (scatter (size m) order) resps) p rows cols)
    as (M & HM & H1 & H2); auto.
  - now rewrite map_length.
  - apply Forall_forall. intros r Hr. apply in_map_iff in Hr. destruct Hr as (r' & <- & _).
    apply scatter_length.
  - exists M. split; [exact HM|]. split; [exact H1|]. intros k Hk. destruct (H2 k Hk) as [A B].
    split; [exact A|]. intros i Hi. rewrite B by auto. apply acc_total_ext; [apply map_length|].
    intros t Ht1 Ht2. rewrite map_length in Ht2.
    rewrite (map_nth_lt _ _ _ []) by auto. now apply scatter_row.
Qed.

Lemma mapM_ok {A B} (f : A -> result B) (g : A -> B) l :
  (forall a, In a l -> f a = Ok (g a)) -> mapM f l = Ok (map g l).
Proof.
  induction l as [|a l IH]; intros H; [reflexivity|]. simpl. rewrite (H a) by now left.
  simpl. rewrite IH by (intros; apply H; now right). reflexivity.
Qed.

Lemma dyn_ellh_ok m order x : (forall o, In o order -> (o < size m)%nat) ->
  dyn_ellh m order x = Ok (map (fun k => nth k (ellh m x) 0) order).
Proof.
  intros H. unfold dyn_ellh. apply mapM_ok. intros k Hk.
  destruct (Nat.ltb_spec k (size m)); [reflexivity|]. specialize (H k Hk). lia.
Qed.

Lemma dyn_ellh_denote m order x : wf m -> (forall o, In o order -> (o < size m)%nat) ->
  dyn_ellh m order x = Ok (map (em_llh x) (reorder (denote m) order)).
Proof.
  intros Hw H. rewrite dyn_ellh_ok by auto. f_equal. unfold reorder. rewrite map_map.
  apply map_ext_in. intros k Hk. rewrite ellh_denote by auto.
  rewrite (map_nth_lt _ _ _ e0); [reflexivity|]. rewrite denote_length. auto.
Qed.

Lemma dyn_ellh_err m order x : (exists o, In o order /\ (size m <= o)%nat) ->
  dyn_ellh m order x = Err IndexError.
Proof.
  intros (o & Ho & Hs). unfold dyn_ellh. induction order as [|a order IH]; [destruct Ho|].
  simpl. destruct (Nat.ltb_spec a (size m)).
  - simpl. destruct Ho as [->|Ho]; [lia|]. rewrite IH by auto. reflexivity.
  - reflexivity.
Qed.

(** ** Indexing *)
Fixpoint indexable (m : mset) : Prop :=
  match m with
  | Leaf _ _ _ _ => True
  | Joint l => (fix ixs l := match l with [] => True | m :: t => indexable m /\ ixs t end) l
  | Rep m _ => indexable m
  | Mix _ _ (Leaf _ _ _ _) => True
  | Mix _ _ _ => False
  end.

Lemma py_nth_ok {A} (l : list A) k d : (k < length l)%nat -> py_nth l (Z.of_nat k) d = Ok (nth k l d).
Proof.
  intros H. unfold py_nth.
  destruct (Z.ltb_spec (Z.of_nat k) (- Z.of_nat (length l))); [lia|].
  destruct (Z.leb_spec (Z.of_nat (length l)) (Z.of_nat k)); [lia|]. simpl.
  destruct (Z.ltb_spec (Z.of_nat k) 0); [lia|]. now rewrite Nat2Z.id.
Qed.

Lemma every_one {A} (l : list A) : every 1 0 l = l.
Proof. induction l; simpl; congruence. Qed.

Lemma py_slice_ok {A} (l : list A) a b : (a <= b)%nat -> (b <= length l)%nat ->
  py_slice l (Some (Z.of_nat a)) (Some (Z.of_nat b)) None = Ok (firstn (b - a) (skipn a l)).
Proof.
  intros H1 H2. unfold py_slice, py_bound. cbn [Z.leb Z.compare].
  destruct (Z.ltb_spec (Z.of_nat a) 0); [lia|]. destruct (Z.ltb_spec (Z.of_nat b) 0); [lia|].
  rewrite !Nat2Z.id, !Nat.min_r by lia. change (Z.to_nat 1) with 1%nat. now rewrite every_one.
Qed.

Lemma py_slice_ok1 {A} (l : list A) a b : (a <= b)%nat -> (b <= length l)%nat ->
  py_slice l (Some (Z.of_nat a)) (Some (Z.of_nat b)) (Some 1%Z) = Ok (firstn (b - a) (skipn a l)).
Proof.
  intros H1 H2. rewrite <- (py_slice_ok l a b) by auto. reflexivity.
Qed.

Lemma map_firstn_skipn {A B} (f : A -> B) n a l :
  map f (firstn n (skipn a l)) = firstn n (skipn a (map f l)).
Proof. now rewrite skipn_map, firstn_map. Qed.

Lemma slice_as_nth {A} (l : list A) a n d : (a + n <= length l)%nat ->
  firstn n (skipn a l) = map (fun j => nth (a + j) l d) (seq 0 n).
Proof.
  intros H. apply (nth_ext _ _ d d).
  - rewrite map_length, seq_length, firstn_length, skipn_length. lia.
  - intros k Hk. rewrite firstn_length, skipn_length in Hk.
    rewrite firstn_nth, skipn_nth by lia.
    rewrite (map_nth_lt _ _ _ 0%nat) by (rewrite seq_length; lia).
    rewrite seq_nth by lia. reflexivity.
Qed.

Lemma getitem_mix_leaf p cf q d nf c k n :
  length nf = (length cf * n)%nat -> (0 < length cf)%nat -> (k < length cf)%nat ->
  getitem (Mix p cf (Leaf q d nf c)) (KInt (Z.of_nat k)) =
  Ok (ISingle (SMix (nth k cf []) (map (fun nf => SComp nf c) (firstn n (skipn (k * n) nf))))).
Proof.
  intros Hs Hc Hk. cbn [getitem ncpm]. unfold ncpm. cbn [size]. rewrite Hs, div_size by auto.
  rewrite py_nth_ok by auto. cbn [bindr].
  replace (Z.of_nat k * Z.of_nat n)%Z with (Z.of_nat (k * n)) by lia.
  replace ((Z.of_nat k + 1) * Z.of_nat n)%Z with (Z.of_nat (S k * n)) by nia.
  rewrite py_slice_ok by nia. cbn [bindr singles].
  replace (S k * n - k * n)%nat with n by nia. reflexivity.
Qed.

Fixpoint look (z : Z) (l : list mset) (total : Z) : result item :=
  match l with
  | [] => Err IndexError
  | m :: t =>
      if (z <? total + Z.of_nat (size m))%Z then getitem m (KInt (z - total))
      else look z t (total + Z.of_nat (size m))%Z
  end.

Lemma getitem_joint l z :
  getitem (Joint l) (KInt z) = if (z <? 0)%Z then Err ValueError else look z l 0.
Proof.
  simpl. destruct (z <? 0)%Z; [reflexivity|]. generalize 0%Z.
  induction l as [|m t IH]; intros s; [reflexivity|]. simpl.
  destruct (z <? s + Z.of_nat (size m))%Z; [reflexivity|]. apply IH.
Qed.

Theorem getitem_denote m k : wf m -> indexable m -> (k < size m)%nat ->
  getitem m (KInt (Z.of_nat k)) = Ok (ISingle (erase (nth k (denote m) e0))).
Proof.
  revert k; induction m as [p d nf c|l IH|m r IH|p cf m IH] using mset_rect'; intros k Hw Hi Hk.
  - simpl in Hk |- *. rewrite py_nth_ok by auto. simpl.
    rewrite (map_nth_lt _ _ _ 0%nat) by (rewrite seq_length; lia). rewrite seq_nth by lia. reflexivity.
  - rewrite getitem_joint. destruct (Z.ltb_spec (Z.of_nat k) 0); [lia|]. clear H.
    assert (G : forall s : nat,
      look (Z.of_nat (s + k)) l (Z.of_nat s) = Ok (ISingle (erase (nth k (denote (Joint l)) e0)))).
    { clear -IH Hw Hi Hk. revert k Hk. induction IH as [|m t Hm Ht IHt]; intros k Hk s; [simpl in Hk; lia|].
      simpl in Hw, Hi. destruct Hw as [Hw1 Hw2]. destruct Hi as [Hi1 Hi2].
      change (denote (Joint (m :: t))) with (denote m ++ denote (Joint t)).
      change (size (Joint (m :: t))) with (size m + size (Joint t))%nat in Hk.
      cbn [look]. destruct (Z.ltb_spec (Z.of_nat (s + k)) (Z.of_nat s + Z.of_nat (size m))).
      - rewrite app_nth1 by (rewrite denote_length; lia).
        replace (Z.of_nat (s + k) - Z.of_nat s)%Z with (Z.of_nat k) by lia. apply Hm; auto. lia.
      - rewrite app_nth2 by (rewrite denote_length; lia). rewrite denote_length.
        rewrite <- (IHt Hw2 Hi2 (k - size m)%nat ltac:(lia) (s + size m)%nat). f_equal; lia. }
    exact (G 0%nat).
  - simpl in Hw, Hi, Hk. destruct Hw as [Hw Hr]. cbn [getitem].
    destruct (Nat.eqb_spec (size m) 0); [lia|].
    rewrite <- Nat2Z.inj_mod, IH by (auto; apply Nat.mod_upper_bound; auto).
    cbn [denote]. rewrite denote_length.
    rewrite (map_nth_lt _ _ _ 0%nat) by (rewrite seq_length; lia). rewrite seq_nth by lia. reflexivity.
  - destruct m as [q d nf c| | |]; try (simpl in Hi; contradiction).
    simpl in Hw. destruct Hw as (Hw & Hc & n & Hn & Hs & Hf).
    simpl in Hk. rewrite (getitem_mix_leaf p cf q d nf c k n) by auto.
    cbn [denote]. rewrite map_length, seq_length, Hs, div_size by auto.
    rewrite (map_nth_lt _ _ _ 0%nat) by (rewrite seq_length; lia). rewrite seq_nth by lia.
    cbn [Nat.add erase]. do 3 f_equal. rewrite (slice_as_nth nf _ n []) by nia. rewrite !map_map.
    apply map_ext_in. intros j Hj. apply in_seq in Hj.
    rewrite (map_nth_lt _ _ _ 0%nat) by (rewrite seq_length; nia). rewrite seq_nth by nia. reflexivity.
Qed.

Lemma joint_index_errors l z :
  ((z < 0)%Z -> getitem (Joint l) (KInt z) = Err ValueError) /\
  ((Z.of_nat (size (Joint l)) <= z)%Z -> getitem (Joint l) (KInt z) = Err IndexError).
Proof.
  rewrite getitem_joint. split; intros H.
  - destruct (Z.ltb_spec z 0); [reflexivity|lia].
  - destruct (Z.ltb_spec z 0); [lia|].
    assert (G : forall s, (s + Z.of_nat (size (Joint l)) <= z)%Z -> look z l s = Err IndexError).
    { clear H H0. induction l as [|m t IH]; intros s H; [reflexivity|].
      change (size (Joint (m :: t))) with (size m + size (Joint t))%nat in H.
      cbn [look]. destruct (Z.ltb_spec z (s + Z.of_nat (size m))); [lia|]. apply IH. lia. }
    apply G. lia.
Qed.

Lemma rep_getitem m r z : (0 < size m)%nat ->
  getitem (Rep m r) (KInt z) = getitem m (KInt (z mod Z.of_nat (size m))).
Proof. intros H. cbn [getitem]. destruct (Nat.eqb_spec (size m) 0); [lia|reflexivity]. Qed.

Lemma rep_getitem_always m r z : wf m -> indexable m -> (0 < size m)%nat ->
  exists s, getitem (Rep m r) (KInt z) = Ok (ISingle s).
Proof.
  intros Hw Hi H. rewrite rep_getitem by auto.
  pose proof (Z.mod_pos_bound z (Z.of_nat (size m)) ltac:(lia)).
  replace (z mod Z.of_nat (size m))%Z with (Z.of_nat (Z.to_nat (z mod Z.of_nat (size m)))) by lia.
  rewrite getitem_denote by (auto; lia). eauto.
Qed.

Lemma mix_getitem_minus_one p cf q d nf c n :
  length nf = (length cf * n)%nat -> (0 < length cf)%nat -> (0 < n)%nat ->
  getitem (Mix p cf (Leaf q d nf c)) (KInt (-1)) = Ok (ISingle (SMix (last cf []) [])).
Proof.
  intros Hs Hc Hn. cbn [getitem]. unfold ncpm. cbn [size]. rewrite Hs, div_size by auto.
  unfold py_nth. destruct (Z.ltb_spec (-1) (- Z.of_nat (length cf))); [lia|].
  destruct (Z.leb_spec (Z.of_nat (length cf)) (-1)); [lia|]. cbn [orb bindr].
  destruct (Z.ltb_spec (-1) 0); [|lia].
  replace (Z.to_nat (-1 + Z.of_nat (length cf))) with (pred (length cf)) by lia.
  rewrite <- last_nth. replace ((-1 + 1) * Z.of_nat n)%Z with 0%Z by lia.
  unfold py_slice. cbn [Z.leb Z.compare]. unfold py_bound at 1. cbn [Z.ltb Z.compare].
  change (Z.to_nat 0) with 0%nat. rewrite Nat.min_0_r. reflexivity.
Qed.

Lemma mix_getslice_full p cf q d nf c n :
  length nf = (length cf * n)%nat -> (0 < length cf)%nat -> (0 < n)%nat ->
  getitem (Mix p cf (Leaf q d nf c)) (KSlice None None None) =
  Ok (ISet (Mix 0 cf (Leaf 0 d (firstn (length cf) nf) c))).
Proof.
  intros Hs Hc Hn. cbn [getitem]. unfold py_slice at 1. cbn [Z.leb Z.compare bindr py_bound].
  change (Z.to_nat 1) with 1%nat. rewrite every_one. rewrite Nat.sub_0_r. cbn [skipn].
  rewrite firstn_all. change 0%Z with (Z.of_nat 0).
  rewrite py_slice_ok1 by (rewrite ?Hs; nia). cbn [bindr skipn]. now rewrite Nat.sub_0_r.
Qed.

Lemma mix_getslice p cf q d nf c n a b :
  length nf = (length cf * n)%nat -> (0 < length cf)%nat -> (0 < n)%nat ->
  (a <= b)%nat -> (b <= length cf)%nat ->
  getitem (Mix p cf (Leaf q d nf c)) (KSlice (Some (Z.of_nat a)) (Some (Z.of_nat b)) None) =
  Ok (ISet (Mix 0 (firstn (b - a) (skipn a cf)) (Leaf 0 d (firstn ((b - a) * n) (skipn (a * n) nf)) c))).
Proof.
  intros Hs Hc Hn Hab Hb. cbn [getitem]. unfold ncpm. cbn [size]. rewrite Hs, div_size by auto.
  rewrite py_slice_ok by auto. cbn [bindr].
  replace (Z.of_nat a * Z.of_nat n)%Z with (Z.of_nat (a * n)) by lia.
  replace (Z.of_nat b * Z.of_nat n)%Z with (Z.of_nat (b * n)) by lia.
  rewrite py_slice_ok1 by nia. cbn [bindr]. now rewrite Nat.mul_sub_distr_r.
Qed.

(** The emissions of a non-empty slice are the slice of the emissions. *)
Lemma mix_leaf_erase p cf q d nf c n : length nf = (length cf * n)%nat -> (0 < length cf)%nat ->
  map erase (denote (Mix p cf (Leaf q d nf c))) =
  map (fun i => SMix (nth i cf []) (map (fun nf => SComp nf c) (firstn n (skipn (i * n) nf))))
      (seq 0 (length cf)).
Proof.
  intros Hs Hc. cbn [denote]. rewrite map_length, seq_length, Hs, div_size, map_map by auto.
  apply map_ext_in. intros i Hi. apply in_seq in Hi. cbn [erase]. f_equal.
  rewrite (slice_as_nth nf _ n []) by nia. rewrite !map_map.
  apply map_ext_in. intros j Hj. apply in_seq in Hj.
  rewrite (map_nth_lt _ _ _ 0%nat) by (rewrite seq_length; nia). rewrite seq_nth by nia. reflexivity.
Qed.

Lemma mix_slice_denote p p' cf q q' d nf c n a b :
  length nf = (length cf * n)%nat -> (0 < length cf)%nat -> (0 < n)%nat ->
  (a < b)%nat -> (b <= length cf)%nat ->
  map erase (denote (Mix p' (firstn (b - a) (skipn a cf))
                        (Leaf q' d (firstn ((b - a) * n) (skipn (a * n) nf)) c))) =
  firstn (b - a) (skipn a (map erase (denote (Mix p cf (Leaf q d nf c))))).
Proof.
  intros Hs Hc Hn Hab Hb.
  assert (L : length (firstn (b - a) (skipn a cf)) = (b - a)%nat)
    by (rewrite firstn_length, skipn_length; lia).
  rewrite (mix_leaf_erase p' _ q' d _ c n).
  2:{ rewrite L, firstn_length, skipn_length. nia. }
  2:{ rewrite L. lia. }
  rewrite (mix_leaf_erase p cf q d nf c n) by auto. rewrite L.
  rewrite (slice_as_nth _ a (b - a) (SComp [] 0)) by (rewrite map_length, seq_length; lia).
  apply map_ext_in. intros i Hi. apply in_seq in Hi.
  rewrite (map_nth_lt _ _ _ 0%nat) by (rewrite seq_length; lia). rewrite seq_nth by lia.
  rewrite firstn_nth, skipn_nth by lia. cbn [Nat.add]. f_equal. f_equal.
  rewrite skipn_firstn_comm, skipn_skipn_add, firstn_firstn.
  rewrite Nat.min_l by nia. f_equal. f_equal. lia.
Qed.

Lemma mix_over_joint p cf l k : (k < length cf)%nat ->
  getitem (Mix p cf (Joint l)) (KInt (Z.of_nat k)) = Err TypeError.
Proof. intros H. cbn [getitem]. rewrite py_nth_ok by auto. reflexivity. Qed.

Lemma mix_over_rep p cf m r k : (k < length cf)%nat ->
  getitem (Mix p cf (Rep m r)) (KInt (Z.of_nat k)) = Err TypeError.
Proof. intros H. cbn [getitem]. rewrite py_nth_ok by auto. reflexivity. Qed.
