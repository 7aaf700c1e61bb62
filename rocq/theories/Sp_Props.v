(** Properties of the subspace phone-loop commands. *)
From Coq Require Import Reals String List Arith Bool ZArith Lra Lia Permutation Sorted.
From Verif Require Import Prelude Vec Edit_Model Dec_Model Set_Model Set_Spec Set_Index
  Graph_Model Graph_Spec Graph_Proofs Dist_Model Dist_Spec Dist_Proofs KL_Proofs Opt_Model LMat Gs_Model Gs_Proofs
  Gb_Model Gb_Spec Gb_Proofs Sp_Model Sp_Proofs.
Import ListNotations.
Local Open Scope R_scope.

(** ** C120: units of the group *)

(** The number of units found by mksphoneloop in the emissions made by
    mkphones is the number of units of that group in the inventory. *)
Theorem C120_units_partial : forall conf lines ul units tots g t i n,
  NoDup (map fst conf) -> (forall g t, In (g, t) conf -> regular t) ->
  mapM unit_line lines = Ok ul -> mkphones conf lines = Ok (units, tots) ->
  find_group g conf = Ok i -> nth_error conf i = Some (g, t) ->
  (3 <= n)%nat -> contiguous t n -> (exists a, In a t /\ snd (fst a) = (n - 1)%nat) ->
  nstates_of t = (n - 2)%nat /\
  nunits_of (nth i tots 0%nat) (nstates_of t) =
    Ok (length (filter (fun u => String.eqb (snd u) g) ul)).
Proof.
  intros conf lines ul units tots g t i n Hnd Hreg Hul Hm Hi Ht Hn Hc Ha.
  pose proof (nstates_contiguous t n Hc Ha) as E. split; [exact E|].
  rewrite (mkphones_group_size conf lines ul units tots g t i n) by (auto; lia). rewrite E.
  unfold nunits_of. destruct (Nat.eqb_spec (n - 2) 0); [lia|]. now rewrite Nat.div_mul by lia.
Qed.

Theorem C120_group_found : forall (conf : list (string * list (nat * nat * R))) g,
  NoDup (map fst conf) ->
  (forall t, In (g, t) conf -> exists i, find_group g conf = Ok i /\ nth_error conf i = Some (g, t)) /\
  (~ In g (map fst conf) -> find_group g conf = Err ValueError).
Proof.
  intros conf g Hnd. split.
  - intros t Ht. destruct (find_group_ok g conf) as (i & Hi).
    { apply in_map_iff. exists (g, t). auto. }
    exists i. split; [exact Hi|]. destruct (find_group_spec g conf i Hi) as [(t' & Ht') _]. rewrite Ht'.
    do 2 f_equal. apply nth_error_In in Ht'. pose proof (sget_nodup g conf t Hnd Ht) as E.
    pose proof (sget_nodup g conf t' Hnd Ht') as E'. congruence.
  - intros H. induction conf as [|[a b] conf IH]; [reflexivity|]. cbn [find_group fst map In] in *.
    destruct (String.eqb_spec a g); [tauto|]. inversion_clear Hnd. now rewrite IH by tauto.
Qed.

(** With ids that are not consecutive the unit HMM has two emitting states but
    mksphoneloop counts four; a topology without emitting state stops it. *)
Theorem C120_gaps_refuted :
  let t := [(0, 1, 1); (1, 2, 1); (2, 5, 1)]%nat in
  let t := map (fun a : nat * nat * nat => (fst a, INR (snd a))) t in
  (exists g k, create_unit_graph t 0 = Ok (g, k) /\ k = 2%nat) /\ nstates_of t = 4%nat.
Proof.
  cbv zeta. split; [|reflexivity]. eexists. eexists. split; [reflexivity|]. reflexivity.
Qed.

Theorem C120_no_emitting_state : forall t len, contiguous t 2 -> nunits_of len (nstates_of t) = Err ZeroDivisionError.
Proof.
  intros t len Hc. unfold nstates_of. destruct (nstates_fold t 0) as (_ & _ & [E|(a & Ha & E)]); rewrite E; [reflexivity|].
  assert (snd (fst a) < 2)%nat by (apply Hc; exists a; auto).
  replace (snd (fst a) - 1)%nat with 0%nat by lia. reflexivity.
Qed.

Definition bakis3 : list (nat * nat * R) := 
  [(0%nat, 1%nat, 1); (1%nat, 1%nat, 1/2); (1%nat, 2%nat, 1/2); (2%nat, 2%nat, 1/2); (2%nat, 3%nat, 1/2)].

Example C120_ex :
  exists units tots, mkphones [("sil", bakis3); ("ph", bakis3)]%string
      [["a"; "ph"]; ["s"; "sil"]; ["b"; "ph"]; ["c"; "ph"]]%string = Ok (units, tots) /\
    tots = [2; 6]%nat /\
    find_group "ph"%string [("sil", bakis3); ("ph", bakis3)]%string = Ok 1%nat /\
    nunits_of (nth 1 tots 0%nat) (nstates_of bakis3) = Ok 3%nat.
Proof. eexists. eexists. repeat (split; [reflexivity|]). reflexivity. Qed.

(** ** C121: the views of the units *)

Theorem C121_partition : forall p cf q d nf c n ns,
  length nf = (length cf * n)%nat -> (0 < length cf)%nat -> (0 < n)%nat -> (0 < ns)%nat ->
  exists nu sets, nunits_of (size (Mix p cf (Leaf q d nf c))) ns = Ok nu /\
    iterate_units (Mix p cf (Leaf q d nf c)) nu ns = Ok (map ISet sets) /\
    length sets = nu /\
    Forall (fun s => size s = ns) sets /\
    concat (map (fun s => map erase (denote s)) sets) =
      firstn (nu * ns) (map erase (denote (Mix p cf (Leaf q d nf c)))) /\
    (length cf mod ns = 0 -> concat (map (fun s => map erase (denote s)) sets) =
      map erase (denote (Mix p cf (Leaf q d nf c))))%nat.
Proof.
  intros p cf q d nf c n ns Hl Hc Hn Hs.
  set (nu := (length cf / ns)%nat).
  assert (Hu : (nu * ns <= length cf)%nat) by (unfold nu; rewrite Nat.mul_comm; apply Nat.mul_div_le; lia).
  exists nu, (map (fun u => Mix 0 (firstn ns (skipn (u * ns) cf))
                             (Leaf 0 d (firstn (ns * n) (skipn (u * ns * n) nf)) c)) (seq 0 nu)).
  split; [|split; [|split; [|split]]].
  - unfold nunits_of. destruct (Nat.eqb_spec ns 0); [lia|]. reflexivity.
  - rewrite (iterate_units_ok p cf q d nf c n) by auto. now rewrite map_map.
  - now rewrite map_length, seq_length.
  - apply Forall_forall. intros s Hs'. apply in_map_iff in Hs'. destruct Hs' as (u & <- & Hu').
    apply in_seq in Hu'. cbn [size]. rewrite firstn_length, skipn_length. nia.
  - assert (E : concat (map (fun s => map erase (denote s))
        (map (fun u => Mix 0 (firstn ns (skipn (u * ns) cf))
                             (Leaf 0 d (firstn (ns * n) (skipn (u * ns * n) nf)) c)) (seq 0 nu))) =
        firstn (nu * ns) (map erase (denote (Mix p cf (Leaf q d nf c))))).
    { assert (Ld : length (map erase (denote (Mix p cf (Leaf q d nf c)))) = length cf).
      { cbn [denote]. now rewrite !map_length, seq_length. }
      rewrite <- (concat_chunks ns) by (rewrite Ld; exact Hu). f_equal. rewrite map_map.
      apply map_ext_in. intros u Hu'. apply in_seq in Hu'.
      pose proof (mix_slice_denote p 0 cf q 0 d nf c n (u * ns) ((u + 1) * ns) Hl Hc Hn) as H.
      replace ((u + 1) * ns - u * ns)%nat with ns in H by nia. apply H; nia. }
    split; [exact E|]. intros Hm. rewrite E. apply firstn_all2. cbn [denote].
    rewrite !map_length, seq_length. unfold nu.
    pose proof (Nat.div_mod (length cf) ns). nia.
Qed.

(** Another modelset than mixtures: a joint set cannot be cut. *)
Theorem C121_joint_set : forall l nu ns, (0 < nu)%nat -> iterate_units (Joint l) nu ns = Err TypeError.
Proof. intros l nu ns H. destruct nu; [lia|]. reflexivity. Qed.

Example C121_ex :
  exists nu s1 s2, nunits_of 5 2 = Ok nu /\
    iterate_units (Mix 0 [[1]; [2]; [3]; [4]; [5]] (Leaf 1 1 [[1]; [2]; [3]; [4]; [5]] 0)) nu 2 =
    Ok [ISet s1; ISet s2] /\ size s1 = 2%nat /\
    map erase (denote s2) = [SMix [3] [SComp [3] 0]; SMix [4] [SComp [4] 0]].
Proof. eexists. eexists. eexists. repeat (split; [reflexivity|]). reflexivity. Qed.

(** ** C122: initial statistics of the units *)

Theorem C122_values_partial : forall nu ns K D (w m : mat),
  (0 < ns)%nat -> (0 < K)%nat -> INR (K - 1) <= exp 20 ->
  (nu * ns <= length w)%nat -> (nu * ns * K <= length m)%nat ->
  Forall (fun r => length r = K) w -> Forall (fun r => length r = D) m ->
  exists w' m', init_units nu ns K w m = Ok (w', m') /\
    length w' = length w /\ length m' = length m /\
    (forall u s k, (u < nu)%nat -> (s < ns)%nat -> (k < K)%nat ->
       let C := sumf (fun s => nth (K - 1) (nth (u * ns + s) w []) 0) (seq 0 ns) in
       length (nth (u * ns + s) w' []) = K /\
       nth k (nth (u * ns + s) w' []) 0 = if Nat.eqb (S k) K then C / 3 else C / (3 * INR K)) /\
    (forall u j, (u < nu)%nat -> (j < ns * K)%nat ->
       length (nth (u * (ns * K) + j) m' []) = D /\
       forall i, (i < D)%nat ->
       nth i (nth (u * (ns * K) + j) m' []) 0 =
       / INR K * sumf (fun j => nth i (nth (u * (ns * K) + j) m []) 0) (seq 0 (ns * K))) /\
    (forall r, (nu * ns <= r)%nat -> nth r w' [] = nth r w []) /\
    (forall r, (nu * ns * K <= r)%nat -> nth r m' [] = nth r m []).
Proof. intros. apply init_units_values; auto. Qed.

(** Total count of the states of a unit, and total of a statistic of its
    components. *)
Definition unit_count (K ns u : nat) (w : mat) : R :=
  sumf (fun s => nth (K - 1) (nth (u * ns + s) w []) 0) (seq 0 ns).
Definition unit_total (K ns u i : nat) (m : mat) : R :=
  sumf (fun j => nth i (nth (u * (ns * K) + j) m []) 0) (seq 0 (ns * K)).

(** The statistics of the weights are uniform; the total count is kept for
    three states, in general it is multiplied by ns / 3.  The statistics of
    the components are multiplied by ns. *)
Theorem C122_totals_partial : forall nu ns K D (w m : mat),
  (0 < ns)%nat -> (0 < K)%nat -> INR (K - 1) <= exp 20 ->
  (nu * ns <= length w)%nat -> (nu * ns * K <= length m)%nat ->
  Forall (fun r => length r = K) w -> Forall (fun r => length r = D) m ->
  exists w' m', init_units nu ns K w m = Ok (w', m') /\
    forall u, (u < nu)%nat ->
      unit_count K ns u w' = INR ns / 3 * unit_count K ns u w /\
      (ns = 3%nat -> unit_count K ns u w' = unit_count K ns u w) /\
      (forall s, (s < ns)%nat -> nth (u * ns + s) w' [] =
         cat_suff_stats (repeat (unit_count K ns u w / (3 * INR K)) K)) /\
      (forall i, (i < D)%nat -> unit_total K ns u i m' = INR ns * unit_total K ns u i m).
Proof.
  intros nu ns K D w m Hns HK Hb Lw Lm Rw Rm.
  destruct (init_units_values nu ns K D w m Hns HK Hb Lw Lm Rw Rm) as (w' & m' & E & _ & _ & Hw & Hm & _).
  exists w', m'. split; [exact E|]. intros u Hu.
  assert (T : unit_count K ns u w' = INR ns / 3 * unit_count K ns u w).
  { unfold unit_count at 1. rewrite (sumf_ext _ (fun _ => unit_count K ns u w / 3)).
    - rewrite sumf_const, seq_length. field.
    - intros s Hs. apply in_seq in Hs. destruct (Hw u s (K - 1)%nat) as [_ Hv]; try lia. rewrite Hv.
      destruct (Nat.eqb_spec (S (K - 1)) K); [reflexivity|lia]. }
  split; [exact T|]. split; [|split].
  - intros H3. rewrite T, H3. cbn. field.
  - intros s Hs. destruct (Hw u s 0%nat Hu Hs HK) as [Hlen _].
    assert (HKr : 0 < INR K) by (now apply lt_0_INR).
    set (x := unit_count K ns u w / (3 * INR K)).
    assert (Ls : length (cat_suff_stats (repeat x K)) = K).
    { unfold cat_suff_stats, set_last. destruct K as [|k]; [lia|].
      assert (Er : repeat x (S k) = repeat x k ++ [x]) by (rewrite <- repeat_cons; reflexivity).
      rewrite Er, removelast_last, app_length, repeat_length. cbn. lia. }
    apply (vec_eq_nth _ _ K); [exact Hlen|exact Ls|].
    intros k Hk. destruct (Hw u s k Hu Hs Hk) as [_ Hv]. rewrite Hv. clear Hv.
    unfold cat_suff_stats, set_last. fold (unit_count K ns u w).
    assert (Erep : removelast (repeat x K) = repeat x (K - 1)).
    { destruct K as [|k']; [lia|].
      assert (Er : repeat x (S k') = repeat x k' ++ [x]) by (rewrite <- repeat_cons; reflexivity).
      rewrite Er, removelast_last. f_equal. lia. }
    rewrite Erep. destruct (Nat.eqb_spec (S k) K).
    + rewrite app_nth2 by (rewrite repeat_length; lia). rewrite repeat_length.
      replace (k - (K - 1))%nat with 0%nat by lia. cbn [nth].
      assert (Es : forall y n, rsum (repeat y n) = INR n * y).
      { clear. intros y n. induction n as [|n IH]; [cbn; lra|]. cbn [repeat rsum]. rewrite IH, S_INR. lra. }
      rewrite Es. unfold x. field. lra.
    + rewrite app_nth1 by (rewrite repeat_length; lia). now rewrite nth_repeat_any by lia.
  - intros i Hi. unfold unit_total at 1.
    rewrite (sumf_ext _ (fun _ => / INR K * unit_total K ns u i m)).
    + rewrite sumf_const, seq_length, mult_INR. field. apply not_0_INR. lia.
    + intros j Hj. apply in_seq in Hj. destruct (Hm u j Hu) as [_ Hv]; [lia|]. rewrite Hv by exact Hi. reflexivity.
Qed.

(** Two states with ten frames each: the weights count 20/3 frames for each
    state, the components 40 frames. *)
Theorem C122_totals_refuted :
  exists w m w' m', init_units 1 2 1 w m = Ok (w', m') /\
    unit_count 1 2 0 w = 20 /\ unit_total 1 2 0 0 m = 20 /\
    unit_count 1 2 0 w' <> unit_count 1 2 0 w /\ unit_total 1 2 0 0 m' <> unit_total 1 2 0 0 m.
Proof.
  exists [[10]; [10]], [[10]; [10]].
  destruct (C122_totals_partial 1 2 1 1 [[10]; [10]] [[10]; [10]]) as (w' & m' & E & H);
    try (cbn; lia); try (repeat (apply Forall_cons; [reflexivity|]); apply Forall_nil).
  { cbn. left. apply exp_pos. }
  exists w', m'. split; [exact E|]. destruct (H 0%nat) as (H1 & _ & _ & H2); [lia|].
  specialize (H2 0%nat (Nat.lt_0_succ 0)).
  assert (A : unit_count 1 2 0 [[10]; [10]] = 20) by (unfold unit_count, sumf; cbn; lra).
  assert (B : unit_total 1 2 0 0 [[10]; [10]] = 20) by (unfold unit_total, sumf; cbn; lra).
  split; [exact A|]. split; [exact B|]. rewrite H1, H2, A, B. cbn. split; lra.
Qed.

(** With K components and the total C of a unit of three states in both
    parameters, a component counts C / K frames, its weight C / (3 K). *)
Theorem C122_consistency_refuted :
  exists w m w' m', init_units 1 3 2 w m = Ok (w', m') /\
    (forall s k, (s < 3)%nat -> (k < 2)%nat ->
       nth 0 (nth (s * 2 + k) m []) 0 = if Nat.eqb k 0 then nth 0 (nth s w []) 0
                                        else nth 1 (nth s w []) 0 - nth 0 (nth s w []) 0) /\
    nth 0 (nth 0 w' []) 0 <> nth 0 (nth 0 m' []) 0.
Proof.
  exists [[1; 3]; [1; 3]; [1; 3]], [[1]; [2]; [1]; [2]; [1]; [2]].
  destruct (C122_values_partial 1 3 2 1 [[1; 3]; [1; 3]; [1; 3]] [[1]; [2]; [1]; [2]; [1]; [2]])
    as (w' & m' & E & _ & _ & Hw & Hm & _); try (cbn; lia); try (repeat (apply Forall_cons; [reflexivity|]); apply Forall_nil).
  { cbn. pose proof (exp_ineq1 20). lra. }
  exists w', m'. split; [exact E|]. split.
  - intros s k Hs Hk. destruct s as [|[|[|s]]]; try lia; destruct k as [|[|k]]; try lia; cbn; lra.
  - destruct (Hw 0%nat 0%nat 0%nat) as [_ H1]; try lia. destruct (Hm 0%nat 0%nat) as [_ H2]; try (cbn; lia).
    specialize (H2 0%nat (Nat.lt_0_succ 0)). cbn [Nat.mul Nat.add] in H1, H2. rewrite H1, H2.
    unfold sumf. cbn. lra.
Qed.

Example C122_ex :
  exists w' m', init_units 1 3 1 [[3]; [6]; [9]] [[3; 1]; [6; 2]; [9; 3]] = Ok (w', m') /\
    unit_count 1 3 0 w' = 18 /\ unit_total 1 3 0 1 m' = 18.
Proof.
  destruct (C122_totals_partial 1 3 1 2 [[3]; [6]; [9]] [[3; 1]; [6; 2]; [9; 3]]) as (w' & m' & E & H);
    try (cbn; lia); try (repeat (apply Forall_cons; [reflexivity|]); apply Forall_nil).
  { cbn. left. apply exp_pos. }
  exists w', m'. split; [exact E|]. destruct (H 0%nat) as (_ & H1 & _ & H2); [lia|].
  rewrite H1 by reflexivity. rewrite (H2 1%nat) by lia. unfold unit_count, unit_total, sumf. cbn. split; lra.
Qed.

(** ** C123: statistics recovered from the natural parameters *)

(** After a full update the difference of the natural parameters is the
    statistics of that update, whatever happened before. *)
Theorem C123_last_update : forall p s n, length (p_prior p) = n -> length (p_post p) = n -> length s = n ->
  param_stats (ngu 1 (store_stats p s)) = s.
Proof.
  intros p s n H1 H2 H3. rewrite (param_stats_update 1 _ n) by auto. cbn [p_stats store_stats set_stats].
  apply (vec_eq_nth _ _ n).
  - apply vadd_length'; rewrite vscale_length; [apply vsub_length'|]; auto.
  - exact H3.
  - intros k Hk. rewrite vadd_nth; rewrite ?vscale_length; [|cbn [p_post p_prior store_stats set_stats]; unfold param_stats; rewrite (vsub_length' _ _ n); auto|lia].
    rewrite !vscale_nth. ring.
Qed.

(** Weight of the t-th of a sequence of updates with the learning rates lr. *)
Fixpoint upd_weight (lrs : list R) (t : nat) : R :=
  match lrs, t with
  | [], _ => 0
  | lr :: r, O => lr * fold_right (fun l acc => (1 - l) * acc) 1 r
  | _ :: r, S t => upd_weight r t
  end.

(** Smaller learning rates: an average of the statistics of all the updates. *)
Theorem C123_history : forall (h : list (R * list R)) p n,
  length (p_prior p) = n -> length (p_post p) = n -> Forall (fun ls => length (snd ls) = n) h ->
  forall k, (k < n)%nat ->
  nth k (param_stats (fold_left (fun p ls => ngu (fst ls) (store_stats p (snd ls))) h p)) 0 =
  fold_right (fun l acc => (1 - l) * acc) 1 (map fst h) * nth k (param_stats p) 0 +
  sumf (fun t => upd_weight (map fst h) t * nth k (nth t (map snd h) []) 0) (seq 0 (length h)).
Proof.
  induction h as [|[lr s] h IH]; intros p n H1 H2 HF k Hk; cbn [fold_left map fst snd fold_right length seq].
  - rewrite sumf_nil. ring.
  - inversion_clear HF as [|? ? Hs HF']. cbn [snd] in Hs.
    set (q := ngu lr (store_stats p s)).
    assert (L1 : length (p_prior q) = n) by exact H1.
    assert (L2 : length (p_post q) = n).
    { unfold q, ngu. cbn [p_post set_post]. apply new_nparams_length; auto. }
    rewrite (IH q n) by auto.
    rewrite sumf_cons. cbn [upd_weight nth]. rewrite <- seq_shift, sumf_map. cbn [upd_weight nth].
    unfold q at 1. rewrite (param_stats_update lr _ n) by auto. cbn [p_stats store_stats set_stats].
    assert (Lp : length (param_stats (store_stats p s)) = n) by (unfold param_stats; apply vsub_length'; auto).
    rewrite vadd_nth by (rewrite vscale_length; lia). rewrite !vscale_nth.
    assert (Ep : param_stats (store_stats p s) = param_stats p) by reflexivity. rewrite Ep. ring.
Qed.

(** The weights of the updates and of the initial difference sum to one. *)
Theorem C123_average : forall lrs, 
  fold_right (fun l acc => (1 - l) * acc) 1 lrs + sumf (upd_weight lrs) (seq 0 (length lrs)) = 1.
Proof.
  induction lrs as [|l r IH]; cbn [fold_right length seq]; [rewrite sumf_nil; ring|].
  rewrite sumf_cons, <- seq_shift, sumf_map. cbn [upd_weight].
  change (sumf (fun x => upd_weight r x)) with (sumf (upd_weight r)).
  transitivity (fold_right (fun l acc => (1 - l) * acc) 1 r + sumf (upd_weight r) (seq 0 (length r))); [ring|exact IH].
Qed.

(** The count read by init_weights_stats: the last entry is the increase of the
    total concentration. *)
Theorem C123_counts : forall a b, a <> [] -> length a = length b ->
  last (vsub (dir_nat a) (dir_nat b)) 0 = rsum a - rsum b.
Proof.
  intros a b Ha Hl.
  assert (Ln : forall x : list R, x <> [] -> length (dir_nat x) = length x).
  { intros x Hx. unfold dir_nat, set_last. destruct x as [|y x] using rev_ind; [contradiction|].
    rewrite map_app. cbn [map]. rewrite removelast_last, !app_length, map_length. reflexivity. }
  assert (El : forall x : list R, x <> [] -> nth (length x - 1) (dir_nat x) 0 = rsum x - INR (length x)).
  { intros x Hx. unfold dir_nat, set_last. destruct x as [|y x] using rev_ind; [contradiction|]. clear IHx.
    rewrite map_app. cbn [map]. rewrite removelast_last, app_length. cbn [length].
    rewrite app_nth2 by (rewrite map_length; lia). rewrite map_length.
    replace (length x + 1 - 1 - length x)%nat with 0%nat by lia. cbn [nth].
    rewrite rsum_app, rsum_app. cbn [rsum]. rewrite plus_INR. cbn [INR].
    assert (E : rsum (map (fun v => v - 1) x) = rsum x - INR (length x)).
    { clear. induction x as [|v x IH]; [cbn; ring|]. cbn [map rsum length]. rewrite IH, S_INR. ring. }
    rewrite E. ring. }
  assert (Hb : b <> []) by (intros ->; destruct a; [contradiction|discriminate]).
  assert (Ell : forall l : list R, last l 0 = nth (length l - 1) l 0).
  { clear. intros l. destruct l as [|x l] using rev_ind; [reflexivity|]. rewrite last_last, app_length. cbn [length].
    rewrite app_nth2 by lia. replace (length l + 1 - 1 - length l)%nat with 0%nat by lia. reflexivity. }
  rewrite Ell. assert (Lv : length (vsub (dir_nat a) (dir_nat b)) = length a).
  { unfold vsub. rewrite map2_length, !Ln by auto. lia. }
  rewrite Lv. assert (0 < length a)%nat by (destruct a; [contradiction|cbn; lia]).
  assert (Lab : length (dir_nat a) = length (dir_nat b)) by (rewrite !Ln by auto; exact Hl).
  rewrite vsub_nth by (rewrite <- ?Lab, Ln by auto; lia). rewrite El by auto. rewrite Hl, El by auto. ring.
Qed.

Example C123_ex :
  param_stats (ngu 1 (store_stats {| p_prior := [1; 2]; p_post := [7; 9]; p_stats := [0; 0]; p_cbs := [] |} [3; 5]))
  = [3; 5] /\ last (vsub (dir_nat [4; 6]) (dir_nat [1; 1])) 0 = 8.
Proof.
  split; [now apply (C123_last_update _ _ 2)|]. rewrite C123_counts; [cbn; ring|discriminate|reflexivity].
Qed.

(** ** C124: class labels *)

(** When the classified units of the loop are those of the group, in the order
    of their emissions, every unit gets the rank of its class among the sorted
    class names. *)
Theorem C124_labels_partial : forall lines pairs names nunits,
  mapM unit_line lines = Ok pairs -> NoDup (map fst pairs) ->
  let cls := filter (fun n => if in_dec string_dec n (map fst pairs) then true else false) names in
  (length cls <= nunits)%nat ->
  exists labels cs, unit_labels lines names nunits = Ok (labels, length cs) /\
    length labels = nunits /\ NoDup cs /\ Sorted (fun a b => String.leb a b = true) cs /\
    (forall c, In c cs <-> In c (map snd pairs)) /\
    (forall i u c, nth_error cls i = Some u -> In (u, c) pairs -> nth_error cs (nth i labels 0%nat) = Some c) /\
    (forall i, (length cls <= i)%nat -> nth i labels 0%nat = 0%nat).
Proof.
  intros lines pairs names nunits Hp Hnd cls Hl. unfold unit_labels, read_classes.
  destruct (read_classes_spec lines pairs [] [] Hp Hnd (NoDup_nil _)) as (d2 & E & N2 & K2).
  rewrite E. cbn [bindr fst snd app].
  assert (Ecls : filter (listed pairs) names = cls).
  { unfold cls. apply filter_ext. intros u. unfold listed. destruct (in_dec string_dec u (map fst pairs)) as [H|H].
    - destruct (sget_ok u pairs H) as (v & ->). reflexivity.
    - destruct (sget u pairs) eqn:E1; [|reflexivity]. apply sget_in in E1. exfalso. apply H.
      apply in_map_iff. eexists. split; [|exact E1]. reflexivity. }
  set (cs := sort_str (map fst d2)).
  assert (Hcs : forall c, In c cs <-> In c (map snd pairs)).
  { intros c. unfold cs. rewrite (sort_str_perm (map fst d2)). rewrite K2. cbn. tauto. }
  assert (Hidx : forall c, In c (map snd pairs) -> exists k, sget c (class2idx d2) = Ok k /\ nth_error cs k = Some c).
  { intros c Hc. apply Hcs in Hc. apply In_nth_error in Hc. destruct Hc as (k & Hk). exists k. split; [|exact Hk].
    now apply class2idx_get. }
  assert (Hall : forall u c, sget u pairs = Ok c -> exists k, sget c (class2idx d2) = Ok k).
  { intros u c H. apply sget_in in H. destruct (Hidx c) as (k & Hk & _); [|eauto].
    apply in_map_iff. exists (u, c). auto. }
  destruct (labels_loop pairs (class2idx d2) nunits Hall names (repeat 0%nat nunits) 0%nat) as (labels & E' & L' & N').
  { apply repeat_length. }
  { rewrite Ecls. cbn. exact Hl. }
  cbn [bindr] in E'. rewrite E'. cbn [bindr fst]. exists labels, cs.
  split. { f_equal. f_equal. unfold cs. rewrite (Permutation_length (sort_str_perm _)), map_length. reflexivity. }
  split; [exact L'|]. split. { eapply Permutation_NoDup; [symmetry; apply sort_str_perm|exact N2]. }
  split; [apply sort_str_sorted|]. split; [exact Hcs|]. rewrite Ecls in N'. cbn [Nat.add] in N'. split.
  - intros i u c Hi Huc. assert (Hlt : (i < length cls)%nat) by (apply nth_error_Some; congruence).
    rewrite N'. apply Nat.ltb_lt in Hlt. rewrite Hlt. cbn [Nat.leb andb]. rewrite Nat.sub_0_r.
    rewrite (nth_error_nth cls i EmptyString Hi). unfold lab. rewrite (sget_nodup u pairs c) by auto.
    destruct (Hidx c) as (k & -> & Hk); [|exact Hk]. apply in_map_iff. exists (u, c). auto.
  - intros i Hi. rewrite N'. destruct (Nat.ltb_spec i (length cls)); [lia|]. rewrite andb_false_r.
    clear. revert i. induction nunits as [|n IH]; intros [|i]; cbn; auto.
Qed.

Theorem C124_too_many : forall lines pairs names nunits,
  mapM unit_line lines = Ok pairs -> NoDup (map fst pairs) ->
  (nunits < length (filter (fun n => if in_dec string_dec n (map fst pairs) then true else false) names))%nat ->
  unit_labels lines names nunits = Err IndexError.
Proof.
  intros lines pairs names nunits Hp Hnd Hl. unfold unit_labels, read_classes.
  destruct (read_classes_spec lines pairs [] [] Hp Hnd (NoDup_nil _)) as (d2 & E & N2 & K2).
  rewrite E. cbn [bindr fst snd app].
  assert (Hall : forall u c, sget u pairs = Ok c -> exists k, sget c (class2idx d2) = Ok k).
  { intros u c H. apply sget_in in H.
    assert (Hc : In c (sort_str (map fst d2))).
    { rewrite (sort_str_perm (map fst d2)). apply K2. right. apply in_map_iff. exists (u, c). auto. }
    apply In_nth_error in Hc. destruct Hc as (k & Hk). exists k. now apply class2idx_get. }
  rewrite (labels_overflow pairs (class2idx d2) nunits Hall names (repeat 0%nat nunits) 0%nat); auto.
  - apply repeat_length.
  - lia.
  - cbn [Nat.add]. erewrite filter_ext; [exact Hl|]. intros u. unfold listed.
    destruct (in_dec string_dec u (map fst pairs)) as [H|H].
    + destruct (sget_ok u pairs H) as (v & ->). reflexivity.
    + destruct (sget u pairs) eqn:E1; [|reflexivity]. apply sget_in in E1. exfalso. apply H.
      apply in_map_iff. eexists. split; [|exact E1]. reflexivity.
Qed.

(** The first unit is missing from the class file: it gets the class of the
    second one and the last unit the class 0. *)
Theorem C124_missing_unit_refuted :
  exists lines pairs names labels n, mapM unit_line lines = Ok pairs /\ NoDup (map fst pairs) /\
    names = ["a"; "b"; "c"]%string /\ In ("b"%string, "vowel"%string) pairs /\ In ("c"%string, "stop"%string) pairs /\
    unit_labels lines names 3 = Ok (labels, n) /\ nth 1 labels 0%nat <> 1%nat /\
    sort_str (map snd pairs) = ["stop"; "vowel"]%string.
Proof.
  exists [["b"; "vowel"]; ["c"; "stop"]]%string. eexists. eexists. eexists. eexists.
  split; [reflexivity|]. split; [|split; [reflexivity|]].
  - cbn. repeat constructor; cbn; intuition discriminate.
  - split; [now left|]. split; [right; now left|]. split; [reflexivity|]. split; [cbn; lia|reflexivity].
Qed.

Example C124_ex :
  unit_labels [["a"; "vowel"]; ["t"; "stop"]; ["i"; "vowel"]; ["s"; "fric"]]%string ["sil"; "a"; "i"; "s"; "t"]%string 4 =
  Ok ([2; 2; 0; 1]%nat, 3%nat).
Proof. reflexivity. Qed.

(** ** C125: setprior *)

(** The prior becomes a Normal around the posterior mean of the other model,
    the posterior is the prior; the variance is 1e-4 larger than requested. *)
Theorem C125_prior_partial : forall var p init d, 0 < var ->
  length (ml_mean (tp_post init)) = d -> length (ml_logcov (tp_post p)) = d ->
  exists r, set_prior_par var p init = Ok r /\
    nc_mean (mld_distr (tp_prior r)) = nc_mean (mld_distr (tp_post init)) /\
    nc_cov (mld_distr (tp_prior r)) = repeat (var + / 10000) d /\
    mld_distr (tp_post r) = mld_distr (tp_prior r) /\
    ndc_kl (mld_distr (tp_post r)) (mld_distr (tp_prior r)) = 0.
Proof.
  intros var p init d Hv L1 L2. unfold set_prior_par. destruct (Rlt_dec 0 var); [|contradiction].
  eexists. split; [reflexivity|]. cbn [tp_prior tp_post mld_distr nc_mean nc_cov ml_mean ml_logcov].
  split; [reflexivity|].
  assert (Ec : mld_diag_cov (map (fun _ => 0 + ln var) (ml_logcov (tp_post p))) = repeat (var + / 10000) d).
  { rewrite <- L2. generalize (ml_logcov (tp_post p)). intros l. unfold mld_diag_cov.
    induction l as [|x l IH]; [reflexivity|]. cbn [map length repeat]. rewrite IH. f_equal.
    rewrite Rplus_0_l, exp_ln by auto. lra. }
  split; [exact Ec|]. split; [reflexivity|].
  set (q := mld_distr _). assert (Hok : ndc_ok d q).
  { unfold q, ndc_ok, mld_distr. cbn [nc_mean nc_cov ml_mean ml_logcov]. rewrite Ec.
    split; [exact L1|]. split; [apply repeat_length|]. apply Forall_forall. intros x Hx.
    apply repeat_spec in Hx. subst x. lra. }
  rewrite (ndc_kl_sum d) by auto. apply sumf_zero. intros i Hi. apply in_seq in Hi.
  destruct Hok as (_ & O2 & O3).
  assert (P : 0 < nth i (nc_cov q) 0) by (rewrite Forall_forall in O3; apply O3; apply nth_In; lia).
  field. lra.
Qed.

Theorem C125_variance_refuted : forall var p init r, set_prior_par var p init = Ok r ->
  ml_logcov (tp_post p) <> [] -> nth 0 (nc_cov (mld_distr (tp_prior r))) 0 <> var.
Proof.
  intros var p init r H Hne. unfold set_prior_par in H. destruct (Rlt_dec 0 var); [|discriminate].
  inv H. destruct (ml_logcov (tp_post p)) as [|x l] eqn:E; [contradiction|].
  cbn [tp_prior mld_distr nc_cov ml_logcov mld_diag_cov map nth]. rewrite Rplus_0_l, exp_ln by auto. lra.
Qed.

(** Units known by the other model take its posterior, the others keep their
    covariance and are drawn from its prior. *)
Theorem C125_units : forall posts init pmean pvar noise d,
  length noise = (length posts - length init)%nat -> Forall (fun e => length e = d) noise ->
  length pmean = d -> length pvar = d ->
  let r := set_latent_posts posts init pmean pvar noise in
  length r = length posts /\
  (forall u def, (u < length posts)%nat -> (u < length init)%nat -> nth u r def = nth u init def) /\
  (forall u def, (length init <= u < length posts)%nat ->
     ml_logcov (nth u r def) = ml_logcov (nth u posts def) /\ length (ml_mean (nth u r def)) = d /\
     forall i, (i < d)%nat -> nth i (ml_mean (nth u r def)) 0 =
       nth i pmean 0 + sqrt (nth i pvar 0) * nth i (nth (u - length init) noise []) 0).
Proof.
  intros posts init pmean pvar noise d Hn HF Hm Hv. unfold set_latent_posts.
  set (k := Nat.min (length posts) (length init)).
  assert (Lk : length (firstn k init) = k) by (rewrite firstn_length; unfold k; lia).
  cbv zeta. split; [|split].
  - rewrite app_length, Lk, map2_length, skipn_length, map_length, Hn. unfold k. lia.
  - intros u def H1 H2. rewrite app_nth1 by (rewrite Lk; unfold k; lia).
    assert (Hu : (u < k)%nat) by (unfold k; lia).
    clearbody k. clear - Hu. revert u init Hu. induction k as [|k IH]; intros u init Hu; [lia|]. destruct init as [|x init]; [reflexivity|].
    destruct u; [reflexivity|]. cbn. apply IH. lia.
  - intros u def [H1 H2]. assert (Ek : k = length init) by (unfold k; lia).
    rewrite app_nth2 by (rewrite Lk; lia). rewrite Lk, Ek.
    rewrite (map2_nth _ _ _ _ def []).
    2:{ rewrite skipn_length. lia. }
    2:{ rewrite map_length. lia. }
    cbn [ml_logcov ml_mean]. rewrite nth_skipn. replace (length init + (u - length init))%nat with u by lia.
    split; [reflexivity|].
    set (f := fun eps => map2 Rplus pmean (map2 (fun e v => e * sqrt v) eps pvar)).
    rewrite (nth_indep _ [] (f [])) by (rewrite map_length; lia). rewrite map_nth.
    set (eps := nth (u - length init) noise []).
    assert (Le : length eps = d) by (rewrite Forall_forall in HF; apply HF; apply nth_In; lia).
    unfold f. split; [rewrite !map2_length; lia|]. intros i Hi.
    rewrite (map2_nth _ _ _ _ 0 0) by (rewrite ?map2_length; lia).
    rewrite (map2_nth _ _ _ _ 0 0) by lia. ring.
Qed.

Theorem C125_bad_variance : forall var p init, var <= 0 -> set_prior_par var p init = Err ValueError.
Proof. intros var p init H. unfold set_prior_par. destruct (Rlt_dec 0 var); [lra|reflexivity]. Qed.

Example C125_ex :
  exists r, set_prior_par 2 {| tp_prior := {| ml_mean := [0]; ml_logcov := [0] |};
                               tp_post := {| ml_mean := [5]; ml_logcov := [1] |} |}
                            {| tp_prior := {| ml_mean := [0]; ml_logcov := [0] |};
                               tp_post := {| ml_mean := [7]; ml_logcov := [3] |} |} = Ok r /\
    nc_mean (mld_distr (tp_prior r)) = [7] /\ nc_cov (mld_distr (tp_post r)) = [2 + / 10000].
Proof.
  destruct (C125_prior_partial 2 {| tp_prior := {| ml_mean := [0]; ml_logcov := [0] |};
                               tp_post := {| ml_mean := [5]; ml_logcov := [1] |} |}
                            {| tp_prior := {| ml_mean := [0]; ml_logcov := [0] |};
                               tp_post := {| ml_mean := [7]; ml_logcov := [3] |} |} 1)
    as (r & E & H1 & H2 & H3 & _); [lra|reflexivity|reflexivity|].
  exists r. split; [exact E|]. split; [exact H1|]. rewrite H3. exact H2.
Qed.

(** ** C126: epochs of the training command *)

Theorem C126_epochs_partial : forall (S : Type) (f : S -> S * R) n s, (0 < n)%nat ->
  train_epochs f n s =
  Ok (Nat.iter n (fun s => fst (f s)) s, (n, snd (f (Nat.iter (n - 1) (fun s => fst (f s)) s)))).
Proof.
  intros S f n s Hn. unfold train_epochs.
  assert (G : forall k s0 a o, fold_left (fun (st : S * option (nat * R)) epoch =>
             let '(s', elbo) := f (fst st) in (s', Some (epoch, elbo))) (seq a (Datatypes.S k)) (s0, o) =
     (Nat.iter (Datatypes.S k) (fun s => fst (f s)) s0,
      Some ((a + k)%nat, snd (f (Nat.iter k (fun s => fst (f s)) s0))))).
  { induction k as [|k IH]; intros s0 a o.
    - cbn [seq fold_left fst Nat.iter nat_rect]. rewrite Nat.add_0_r. destruct (f s0) as [s1 e]. reflexivity.
    - rewrite seq_S, fold_left_app, IH. cbn [fold_left fst].
      change (Nat.iter (Datatypes.S (Datatypes.S k)) (fun s => fst (f s)) s0) with
        (fst (f (Nat.iter (Datatypes.S k) (fun s => fst (f s)) s0))).
      destruct (f (Nat.iter (Datatypes.S k) (fun s => fst (f s)) s0)) as [s1 e]. reflexivity. }
  destruct n as [|k]; [lia|]. rewrite G. cbn [snd fst]. replace (Datatypes.S k - 1)%nat with k by lia. reflexivity.
Qed.

Theorem C126_zero_epochs_refuted : forall (S : Type) (f : S -> S * R) s, train_epochs f 0 s = Err NameError.
Proof. reflexivity. Qed.

Example C126_ex : train_epochs (fun x : nat => (S x, INR x)) 3 7%nat = Ok (10%nat, (3%nat, INR 9)).
Proof. reflexivity. Qed.

Print Assumptions C120_units_partial.
Print Assumptions C121_partition.
Print Assumptions C122_totals_partial.
Print Assumptions C123_history.
Print Assumptions C124_labels_partial.
Print Assumptions C125_prior_partial.
Print Assumptions C126_epochs_partial.
