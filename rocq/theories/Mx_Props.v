(** Variational training of mixtures: C167 (frames without labels), C168 (with
    labels). *)
From Coq Require Import Reals List Arith Bool Lia Lra Permutation.
From Verif Require Import Prelude Vec Gibbs Lgamma FB_Model FB_Spec Edit_Model Dec_Model Set_Model Set_Spec Set_Proofs
  HMM_Model HMM_Proofs HMM_Props Dist_Model Dist_Spec Dist_Proofs KL_Proofs Dist_Props Mat NW_Model
  SB_Model SB_Spec SB_Proofs SB_Props Sk_Model Sk_Spec Sk_Proofs Sk_Props Vt_Model Vt_Spec Vt_Proofs Vt_Props Mx_Model Mx_Spec Mx_Proofs.
Import ListNotations.
Local Open Scope R_scope.

Lemma resps_nth skel s f j : (j < size skel)%nat -> nth j (frame_resps skel s f) 0 = mx_resp skel s f j.
Proof.
  intros Hj. unfold frame_resps, mx_resp. destruct (snd f) as [l|].
  - now rewrite unit_row_nth.
  - rewrite (map_nth_lt _ _ _ 0%nat), seq_nth by (rewrite ?seq_length; auto). reflexivity.
Qed.

(** What is reported, in general *)
Lemma objective_value k D w skel frames s : mix_ok k D skel s -> Forall (lframe_ok k D skel) frames ->
  mx_objective w skel frames s =
  Ok (mx_bound w skel frames s - w * sumf (left_out s) frames + (weights_kl (mx_weights s) - mx_weights_kl (mx_weights s))).
Proof.
  intros G F. unfold mx_objective. rewrite (frames_ok k D) by auto. cbn [bindr]. f_equal. rewrite map_map.
  change (rsum (map (fun x => fst (frame_bound skel s x - left_out s x, frame_resps skel s x)) frames))
    with (sumf (fun f => frame_bound skel s f - left_out s f) frames).
  rewrite sumf_minus.
  change (rsum (map (fun p => rsum (map cell_kl (mx_comps s p))) (params skel))) with (total_kl skel (mx_comps s)).
  unfold mx_bound. ring.
Qed.

Definition unlabelled (frames : list lframe) : Prop := Forall (fun f : lframe => snd f = None) frames.

Lemma left_out_none s frames : unlabelled frames -> sumf (left_out s) frames = 0.
Proof.
  intros U. apply sumf_zero. intros f Hf. unfold left_out. now rewrite (proj1 (Forall_forall _ _) U f Hf).
Qed.

(** ** C167 *)

(** What is reported is the bound. *)
Theorem C167_objective_is_the_bound : forall k D w skel frames s,
  mix_ok k D skel s -> Forall (lframe_ok k D skel) frames -> unlabelled frames ->
  (forall g h, mx_weights s <> WHyper g h) ->
  mx_objective w skel frames s = Ok (mx_bound w skel frames s).
Proof.
  intros k D w skel frames s G F U Hh. rewrite (objective_value k D) by auto. f_equal. rewrite left_out_none by auto.
  assert (K := weights_kl_eq (size skel) (mx_weights s) (proj2 (proj2 G))).
  destruct (mx_weights s) as [p q|p o q|g h]; [| |now destruct (Hh g h)]; rewrite K; ring.
Qed.

(** With a hyper-prior it is more than the bound: the concentration is not
    one of the parameters summed over (see C166). *)
Theorem C167_objective_with_hyper_prior : forall k D w skel frames s g h,
  mix_ok k D skel s -> Forall (lframe_ok k D skel) frames -> unlabelled frames ->
  mx_weights s = WHyper g h ->
  let a := nth 0 (g_shape (h_gamma h)) 0 in let b := nth 0 (g_rate (h_gamma h)) 0 in
  mx_objective w skel frames s =
    Ok (mx_bound w skel frames s + gamma_kl (h_gamma h) g + INR (size skel) * (ln (a / b) - (digamma a - ln b))).
Proof.
  intros k D w skel frames s g h G F U E a b. rewrite (objective_value k D) by auto. f_equal. rewrite left_out_none by auto.
  assert (W := proj2 (proj2 G)). rewrite E in W |- *. destruct W as (Ho & Lq & Pq & Hg & Hgh & Hp).
  set (n := size skel) in *. set (counts := vzeros n). assert (Lc : length counts = n) by apply vzeros_length.
  assert (Hh : hyper_ok n h) by (split; [exact Ho|]; split; [exact Lq|]; split; [exact Pq|]; split; [exact Hgh|exact Hp]).
  assert (R1 := C166_reported_minus_bound n g h counts Hh Hg Lc). cbv zeta in R1.
  unfold Sk_Props.shape, Sk_Props.rate in R1.
  change (nth 0 (g_shape (h_gamma h)) 0) with a in R1. change (nth 0 (g_rate (h_gamma h)) 0) with b in R1.
  unfold hyper_objective, sb_objective in R1.
  assert (J : joint_of g h counts = sb_ellh (h_ord h) (h_sticks h) counts - weights_kl (WHyper g h)).
  { rewrite (ellh_by_stick n), <- by_stick_spec by auto.
    unfold joint_of, joint_bound, Sk_Props.shape, Sk_Props.rate, nthp. cbn [weights_kl]. fold a b.
    change (nth 0 (g_shape (h_gamma h)) 0) with a. change (nth 0 (g_rate (h_gamma h)) 0) with b.
    rewrite (sumf_ext (fun q => beta_cross q q - (digamma a - ln b + (a / b - 1) * e_ln_rest q)) (fun q => - (digamma a - ln b + (a / b - 1) * e_ln_rest q - beta_cross q q)))
      by (intros; ring).
    rewrite sumf_opp. cbn zeta. ring. }
  cbn [mx_weights_kl]. rewrite J in R1. set (Z := INR n * _) in R1 |- *. lra.
Qed.

(** One step, whatever the group of parameters: it succeeds, the parameters
    stay proper and the bound does not decrease.  The frames may have labels. *)
Theorem C167_step : forall sort k D w lrate uw group skel frames s,
  (forall counts, sorts_desc counts (sort counts)) -> NoDup (params skel) -> 0 <= w ->
  mix_ok k D skel s -> Forall (lframe_ok k D skel) frames -> rate_ok (mx_weights s) lrate uw ->
  exists s', mx_step sort w lrate uw group skel frames s = Ok s' /\ mix_ok k D skel s' /\
    mx_bound w skel frames s <= mx_bound w skel frames s'.
Proof. intros. now apply mx_step_bound. Qed.

Lemma rate_kind c c' lrate uw :
  match c, c' with
  | WDir p _, WDir p' _ => p = p'
  | WStick p _ _, WStick p' _ _ => p = p'
  | WHyper g _, WHyper g' _ => g = g'
  | _, _ => False
  end -> rate_ok c lrate uw -> rate_ok c' lrate uw.
Proof. destruct c, c'; try contradiction; intros _ H; exact H. Qed.

Theorem C167_training : forall sort k D w steps skel frames s,
  (forall counts, sorts_desc counts (sort counts)) -> NoDup (params skel) -> 0 <= w ->
  mix_ok k D skel s -> Forall (lframe_ok k D skel) frames ->
  Forall (fun x : R * bool * list nat => rate_ok (mx_weights s) (fst (fst x)) (snd (fst x))) steps ->
  exists s', mx_train sort w steps skel frames s = Ok s' /\ mix_ok k D skel s' /\
    mx_bound w skel frames s <= mx_bound w skel frames s'.
Proof.
  intros sort k D w steps skel frames s Hs Hnd Hw G F. revert s G. induction steps as [|((lrate, uw), group) t IH]; intros s G Hr.
  - exists s. split; [reflexivity|]. split; [exact G|lra].
  - inversion Hr as [|? ? R1 R2]; subst. cbn [fst snd] in R1.
    destruct (C167_step sort k D w lrate uw group skel frames s Hs Hnd Hw G F R1) as (s1 & E1 & G1 & B1).
    destruct (IH s1 G1) as (s2 & E2 & G2 & B2).
    + eapply Forall_impl; [|exact R2]. intros x. apply rate_kind. exact (weights_kind _ _ _ _ _ _ _ _ _ E1).
    + exists s2. cbn [mx_train]. rewrite E1. cbn [bindr]. split; [exact E2|]. split; [exact G2|lra].
Qed.

(** What a step does: Dirichlet weights move to the prior plus the expected
    number of frames of each component, stick-breaking weights are updated with
    these numbers (C43), the parameters of the group move to the prior plus the
    statistics expected under the posteriors of the components. *)
Theorem C167_update : forall sort k D w lrate uw group skel frames s s',
  NoDup (params skel) -> 0 <= w -> 0 <= lrate <= 1 ->
  mix_ok k D skel s -> Forall (lframe_ok k D skel) frames ->
  mx_step sort w lrate uw group skel frames s = Ok s' ->
  (uw = false -> mx_weights s' = mx_weights s) /\
  (uw = true -> exists counts, length counts = size skel /\
     (forall j, (j < size skel)%nat -> nth j counts 0 = mx_count w skel frames s j) /\
     match mx_weights s with
     | WDir p q => exists q', mx_weights s' = WDir p q' /\ length q' = size skel /\
         forall j, (j < size skel)%nat -> nth j q' 0 = (1 - lrate) * nth j q 0 + lrate * (nth j p 0 + nth j counts 0)
     | WStick p _ q => mx_weights s' = WStick p (fst (sb_update sort lrate p q counts)) (snd (sb_update sort lrate p q counts))
     | WHyper g h => mx_weights s' = WHyper g (hyper_update sort lrate g h counts)
     end) /\
  (forall p i, In p (params skel) -> (i < length (mx_comps s p))%nat ->
     let c := nth i (mx_comps s p) dc in
     length (mx_comps s' p) = length (mx_comps s p) /\
     (~ In p group -> nth i (mx_comps s' p) dc = c) /\
     (In p group -> exists stats, nth i (mx_comps s' p) dc = cell_update lrate stats c /\
        length stats = length (cell_form c) /\
        forall a, (a < length (cell_form c))%nat ->
          nth a stats 0 = w * sumf (fun f => sumf (fun j =>
            mx_resp skel s f j * em_acc (p, i) (fst f) a (nth j (mx_ems skel s) e0) 1) (seq 0 (size skel))) frames)).
Proof.
  intros sort k D w lrate uw group skel frames s s' Hnd Hw Hl G F E. assert (G' := G). destruct G' as (T & Hn & W).
  unfold mx_step in E. rewrite (frames_ok k D) in E by auto. cbn [bindr] in E. rewrite !map_map in E. cbn [snd] in E.
  destruct (frames_data k D skel s frames G F) as (FR & E1 & E2 & E3 & E4).
  set (m := inst (forms (mx_comps s)) skel) in E. assert (Sz : size m = size skel) by (unfold m; now apply (inst_size k D)).
  change (map (fun x : lframe => frame_resps skel s x) frames) with (map (frame_resps skel s) frames) in E.
  rewrite <- E1, <- E2, Sz in E. fold (cacc k skel FR (mx_comps s)) in E.
  assert (Hrows : Forall (fun r => length r = size skel /\ Forall (fun v => 0 <= v) r) (map snd FR)).
  { apply Forall_map. eapply Forall_impl; [|exact E3]. intros yr (_ & A & B). split; [exact A|exact B]. }
  assert (Ec : forall j, (j < size skel)%nat -> mx_counts w (map snd FR) j = mx_count w skel frames s j).
  { intros j Hj. unfold mx_counts, mx_count. f_equal. rewrite E2, sumf_map. apply sumf_ext. intros f _. now apply resps_nth. }
  injection E as <-. cbn [mx_weights mx_comps]. split; [intros ->; reflexivity|]. split.
  - intros ->. destruct (stick_counts (size skel) w (map snd FR) Hw Hrows) as (Lc & _ & Ecc). cbv zeta in Lc, Ecc.
    exists (vscale w (colsum (size skel) (map snd FR))). split; [exact Lc|]. split; [intros j Hj; rewrite Ecc by auto; auto|].
    destruct (mx_weights s) as [p q|p o q|g h]; cbn [mx_weights_update mx_weights_stats].
    + destruct W as [Hp Hq]. destruct (dir_weights_step (size skel) w lrate (map snd FR) Hn Hw Hrows p q Hp Hq Hl) as (A & _ & B).
      eexists. split; [reflexivity|]. split; [apply A|]. intros j Hj. cbv zeta in B. rewrite B by auto. now rewrite Ecc.
    + destruct (sb_update _ _ _ _ _). reflexivity.
    + reflexivity.
  - intros p i Hp Hi. set (st := mx_comps s) in *. set (c := nth i (st p) dc).
    assert (Hq : In (p, i) (allcells st (params skel))) by (now apply allcells_in).
    destruct (ctotal k D skel w Hnd Hw FR E3 st T (p, i) Hq) as (L1 & Es & _). cbv zeta in L1, Es.
    assert (Ef : form st (p, i) = cell_form c) by (unfold form; cbn [fst snd]; now rewrite forms_nth).
    rewrite Ef in L1, Es. cbn [fst snd] in L1, Es. split; [|split].
    + unfold apply_step. destruct (existsb _ group); [|reflexivity]. rewrite map2_length, seq_length. lia.
    + intros Hg. unfold apply_step. destruct (existsb (Nat.eqb p) group) eqn:Eg; [|reflexivity].
      apply existsb_exists in Eg. destruct Eg as (x & Hx & Ex). apply Nat.eqb_eq in Ex. subst x. contradiction.
    + intros Hg. exists (total w (length (cell_form c)) p i [cacc k skel FR st]). split.
      * unfold apply_step. replace (existsb (Nat.eqb p) group) with true.
        -- rewrite (map2_nth _ _ _ _ 0%nat dc) by (rewrite ?seq_length; auto). rewrite seq_nth by auto. reflexivity.
        -- symmetry. apply existsb_exists. exists p. split; [auto|apply Nat.eqb_refl].
      * split; [exact L1|]. intros a Ha. rewrite Es by auto. f_equal. unfold crow.
        rewrite (E4 (fun x r => sumf (fun j => em_acc (p, i) x a (einst (forms st) (nth j (denote skel) e0)) (nth j r 0)) (seq 0 (size skel)))).
        apply sumf_ext. intros f _. apply sumf_ext. intros j Hj. apply in_seq in Hj.
        rewrite em_acc_scal, resps_nth by lia. f_equal. unfold mx_ems. fold st.
        rewrite (inst_denote k D) by auto. rewrite (map_nth_lt _ _ _ e0) by (rewrite denote_length; lia). reflexivity.
Qed.

(** ** C168 *)

(** With labels, the expected log-weights of the labels are missing from what
    is reported. *)
Theorem C168_reported_minus_bound : forall k D w skel frames s,
  mix_ok k D skel s -> Forall (lframe_ok k D skel) frames ->
  (forall g h, mx_weights s <> WHyper g h) ->
  mx_objective w skel frames s =
  Ok (mx_bound w skel frames s
      - w * sumf (fun f : lframe => match snd f with Some j => elog_weight (mx_weights s) j | None => 0 end) frames).
Proof.
  intros k D w skel frames s G F Hh. rewrite (objective_value k D) by auto. f_equal.
  assert (K := weights_kl_eq (size skel) (mx_weights s) (proj2 (proj2 G))).
  assert (Z : weights_kl (mx_weights s) - mx_weights_kl (mx_weights s) = 0).
  { destruct (mx_weights s) as [p q|p o q|g h]; [| |now destruct (Hh g h)]; rewrite K; ring. }
  rewrite Z, Rplus_0_r. reflexivity.
Qed.

(** The bound itself, with these log-weights, does not decrease (C167_step,
    C167_training are for any labels); what is reported may.  One component per
    label, one frame of each of two symbols seen with label 0; the components
    are trained already. *)
Definition l_skel : mset := Leaf 1 2 [[]; []] 0.
Definition l_comps : state := fun p =>
  match p with 1%nat => [CWeights [1; 1] [2; 2]; CWeights [1; 1] [1; 1]] | _ => [] end.
Definition l_mix : mixst := {| mx_weights := WDir [1; 1] [1; 1]; mx_comps := l_comps |}.
Definition l_frames : list lframe := [(cat_suff_stats [1; 0], Some 0%nat); (cat_suff_stats [0; 1], Some 0%nat)].

Lemma l_dir a b : 0 < a -> 0 < b -> dir_ok 2 [a; b].
Proof. intros Ha Hb. split; [reflexivity|]. split; [lia|]. constructor; [exact Ha|]. constructor; [exact Hb|constructor]. Qed.

Lemma l_ok q0 q1 : 0 < q0 -> 0 < q1 -> mix_ok KCat 2 l_skel {| mx_weights := WDir [1; 1] [q0; q1]; mx_comps := l_comps |}.
Proof.
  intros H0 H1. split; [|split].
  - cbn [typed l_skel mx_comps]. split; [reflexivity|]. split; [reflexivity|]. cbn [l_comps].
    constructor; [split; apply l_dir; lra|]. constructor; [split; apply l_dir; lra|constructor].
  - cbn. lia.
  - cbn [mxw_ok mx_weights]. split; apply l_dir; lra.
Qed.

Lemma l_frames_ok : Forall (lframe_ok KCat 2 l_skel) l_frames.
Proof.
  assert (G : forall a b, 0 <= a -> 0 <= b -> lframe_ok KCat 2 l_skel (cat_suff_stats [a; b], Some 0%nat)).
  { intros a b Ha Hb. split; [|cbn; lia]. exists [a; b]. split; [reflexivity|]. split; [reflexivity|]. split; [discriminate|].
    constructor; [exact Ha|]. constructor; [exact Hb|constructor]. }
  constructor; [apply G; lra|]. constructor; [apply G; lra|constructor].
Qed.

Lemma l_value : exists X, forall s, mx_comps s 1%nat = l_comps 1%nat ->
  mx_objective 1 l_skel l_frames s = Ok (X - mx_weights_kl (mx_weights s)).
Proof.
  eexists. intros s Ec. unfold mx_objective, mx_frames, l_skel, l_frames. cbn [inst]. unfold forms. rewrite Ec.
  cbn [l_comps map mapM bindr fst snd mixture_ellh ellh size length params].
  cbn [onehot]. unfold onehot, lin. cbn [length map Nat.ltb Nat.leb bindr fst rsum]. f_equal. rewrite Ec. cbn [l_comps map rsum].
  match goal with |- ?a - (?k + ?b) = _ => instantiate (1 := a - b) end. lra.
Qed.

Theorem C168_refuted :
  mix_ok KCat 2 l_skel l_mix /\ Forall (lframe_ok KCat 2 l_skel) l_frames /\
  forall sort, exists s' v v', mx_step sort 1 1 true [1%nat] l_skel l_frames l_mix = Ok s' /\
    mx_objective 1 l_skel l_frames l_mix = Ok v /\ mx_objective 1 l_skel l_frames s' = Ok v' /\ v' < v.
Proof.
  assert (G : mix_ok KCat 2 l_skel l_mix) by (apply l_ok; lra). assert (F := l_frames_ok).
  split; [exact G|]. split; [exact F|]. intros sort. destruct l_value as (X & HX).
  assert (E : exists s', mx_step sort 1 1 true [1%nat] l_skel l_frames l_mix = Ok s').
  { unfold mx_step. rewrite (frames_ok KCat 2) by auto. eexists. reflexivity. }
  destruct E as (s' & E).
  assert (Nd : NoDup (params l_skel)) by (constructor; [intros []|constructor]).
  destruct (C167_update sort KCat 2 1 1 true [1%nat] l_skel l_frames l_mix s' Nd ltac:(lra) ltac:(lra) G F E) as (_ & UW & UC).
  destruct (UW eq_refl) as (counts & Lc & Ec & Hq). cbn [mx_weights l_mix] in Hq. destruct Hq as (q' & Ew & Lq & Eq).
  cbn [size l_skel length] in Lc, Ec, Lq, Eq.
  assert (C0 : nth 0 counts 0 = 2).
  { rewrite Ec by lia. unfold mx_count, l_frames, mx_resp. cbn [snd Nat.eqb]. rewrite !sumf_cons, sumf_nil. cbn [snd]. lra. }
  assert (C1 : nth 1 counts 0 = 0).
  { rewrite Ec by lia. unfold mx_count, l_frames, mx_resp. cbn [snd Nat.eqb]. rewrite !sumf_cons, sumf_nil. cbn [snd]. lra. }
  assert (Eq' : q' = [3; 1]).
  { assert (A := Eq 0%nat ltac:(lia)). assert (B := Eq 1%nat ltac:(lia)). rewrite C0 in A. rewrite C1 in B. cbn [nth] in A, B.
    destruct q' as [|a [|b [|c q']]]; cbn [length] in Lq; try discriminate. cbn [nth] in A, B.
    apply f_equal2; [lra|]. apply f_equal2; [lra|reflexivity]. }
  assert (Ecomp : mx_comps s' 1%nat = l_comps 1%nat).
  { destruct (UC 1%nat 0%nat ltac:(now left) ltac:(cbn; lia)) as (L & _ & U0).
    destruct (UC 1%nat 1%nat ltac:(now left) ltac:(cbn; lia)) as (_ & _ & U1).
    destruct (U0 ltac:(now left)) as (s0 & E0 & L0 & S0). destruct (U1 ltac:(now left)) as (s1 & E1 & L1 & S1).
    cbn [l_mix mx_comps l_comps nth cell_update length] in L, E0, E1, L0, L1, S0, S1.
    assert (Lf : forall a b, length (cell_form (CWeights [1; 1] [a; b])) = 2%nat) by reflexivity. rewrite Lf in L0, L1, S0, S1.
    assert (V : forall q p x, cell_form (CWeights p q) = x -> True) by auto.
    assert (Em : forall j, (j < 2)%nat -> exists cf, nth j (mx_ems l_skel l_mix) e0 = EComp 1 j cf 0).
    { intros j Hj. destruct j as [|[|j]]; [eexists; reflexivity|eexists; reflexivity|lia]. }
    destruct (Em 0%nat ltac:(lia)) as (cf0 & Em0). destruct (Em 1%nat ltac:(lia)) as (cf1 & Em1).
    assert (V0 : forall a, (a < 2)%nat -> nth a s0 0 = nth a [1; 2] 0).
    { intros a Ha. rewrite S0 by auto. unfold l_frames. rewrite !sumf_cons, sumf_nil. cbn [size l_skel length seq].
      rewrite !sumf_cons, !sumf_nil. rewrite Em0, Em1. unfold mx_resp. cbn [snd fst em_acc Nat.eqb andb].
      destruct a as [|[|a]]; [| |lia]; unfold cat_suff_stats, set_last; cbn [removelast app rsum nth]; lra. }
    assert (V1 : forall a, (a < 2)%nat -> nth a s1 0 = nth a [0; 0] 0).
    { intros a Ha. rewrite S1 by auto. unfold l_frames. rewrite !sumf_cons, sumf_nil. cbn [size l_skel length seq].
      rewrite !sumf_cons, !sumf_nil. rewrite Em0, Em1. unfold mx_resp. cbn [snd fst em_acc Nat.eqb andb].
      destruct a as [|[|a]]; [| |lia]; unfold cat_suff_stats, set_last; cbn [removelast app rsum nth]; lra. }
    assert (Hs0 : s0 = [1; 2]).
    { apply vec_ext; [now rewrite L0|]. intros a Ha. apply V0. lia. }
    assert (Hs1 : s1 = [0; 0]).
    { apply vec_ext; [now rewrite L1|]. intros a Ha. apply V1. lia. }
    rewrite Hs0 in E0. rewrite Hs1 in E1.
    assert (D0 : std_update dir_nat dir_from_nat 1 [1; 1] [2; 2] [1; 2] = [2; 2]).
    { unfold std_update, dir_nat, dir_from_nat, set_last. vec_calc; leq; try lra. }
    assert (D1 : std_update dir_nat dir_from_nat 1 [1; 1] [1; 1] [0; 0] = [1; 1]).
    { unfold std_update, dir_nat, dir_from_nat, set_last. vec_calc; leq; try lra. }
    rewrite D0 in E0. rewrite D1 in E1.
    destruct (mx_comps s' 1%nat) as [|a [|b [|c t]]]; cbn [length] in L; try discriminate. cbn [nth] in E0, E1. now subst. }
  exists s', (X - mx_weights_kl (mx_weights l_mix)), (X - mx_weights_kl (mx_weights s')).
  split; [exact E|]. split; [now apply HX|]. split; [now apply HX|]. rewrite Ew, Eq'. cbn [mx_weights l_mix mx_weights_kl].
  rewrite (proj2 (C40_dirichlet 2 [1; 1] [1; 1] (l_dir 1 1 ltac:(lra) ltac:(lra)) (l_dir 1 1 ltac:(lra) ltac:(lra)))).
  assert (K := dir_kl_beta (3, 1) (1, 1)). cbn [fst snd] in K. unfold e_ln_v, e_ln_rest, log_beta in K. cbn [fst snd] in K.
  replace (3 + 1) with 4 in K by lra. replace (1 + 1) with 2 in K by lra.
  rewrite lgamma_1, lgamma_2, lgamma_3, lgamma_4, psi_4 in K.
  assert (L3 : 1 <= ln 3).
  { rewrite <- (ln_exp 1). apply ln_mono; [apply exp_pos|apply exp_le_3]. }
  lra.
Qed.

(** A mixture of two one-dimensional Normal densities with stick-breaking
    weights, three frames. *)
Definition m_skel : mset := Leaf 1 4 [[]; []] 0.
Definition m_mix (c : wpar) : mixst :=
  {| mx_weights := c; mx_comps := fun _ => [CDiag (ex_ng 0) (ex_ng 0); CDiag (ex_ng 0) (ex_ng 3)] |}.
Definition m_frames : list lframe := map (fun x => (nd_suff_stats [x], None)) [0; 2; 3].

Example C167_ex : forall sort, (forall counts, sorts_desc counts (sort counts)) ->
  forall c, In c [WDir [1; 1] [1; 1]; WStick [(1, 1); (1, 1)] [0; 1]%nat [(1, 1); (1, 1)]] ->
  let s := m_mix c in
  exists s', mx_train sort 1 [(1, true, [1%nat]); (1, false, [1%nat]); (1, true, [])] m_skel m_frames s = Ok s' /\
    exists v v', mx_objective 1 m_skel m_frames s = Ok v /\ mx_objective 1 m_skel m_frames s' = Ok v' /\ v <= v'.
Proof.
  intros sort Hs c Hc s.
  assert (Hng : forall m, ng_ok 1 (ex_ng m)).
  { intros m. unfold ng_ok, ex_ng. cbn [ng_mean ng_rates ng_scale ng_shape length].
    split; [reflexivity|]. split; [reflexivity|]. split; [lra|]. split; [lra|]. constructor; [lra|constructor]. }
  assert (G : mix_ok KDiag 1 m_skel s).
  { split; [|split; [cbn; lia|]].
    - split; [reflexivity|]. split; [reflexivity|]. constructor; [split; apply Hng|]. constructor; [split; apply Hng|constructor].
    - cbn [size m_skel length]. destruct Hc as [<-|[<-|[]]].
      + split; apply l_dir; lra.
      + split; [apply order_01|]. split; [reflexivity|]. split.
        * constructor; [cbn; lra|]. constructor; [cbn; lra|constructor].
        * exists (1, 1). cbn [fst snd]. split; [lra|]. split; [lra|reflexivity]. }
  assert (F : Forall (lframe_ok KDiag 1 m_skel) m_frames).
  { unfold m_frames. apply Forall_map, Forall_forall. intros x _. split; [|exact I]. exists [x].
    split; [reflexivity|]. split; [reflexivity|exact I]. }
  assert (U : unlabelled m_frames) by (unfold unlabelled, m_frames; apply Forall_map, Forall_forall; reflexivity).
  assert (Nd : NoDup (params m_skel)) by (constructor; [intros []|constructor]).
  assert (Hr : forall uw, rate_ok (mx_weights s) 1 uw).
  { intros uw. split; [lra|]. intros _. destruct (mx_weights s); auto. }
  destruct (C167_training sort KDiag 1 1 [(1, true, [1%nat]); (1, false, [1%nat]); (1, true, [])] m_skel m_frames s Hs Nd ltac:(lra) G F)
    as (s' & E & G' & B).
  { constructor; [apply Hr|]. constructor; [apply Hr|]. constructor; [apply Hr|constructor]. }
  exists s'. split; [exact E|]. exists (mx_bound 1 m_skel m_frames s), (mx_bound 1 m_skel m_frames s').
  assert (Nh : forall g h, mx_weights s <> WHyper g h).
  { intros g h. destruct Hc as [<-|[<-|[]]]; discriminate. }
  split; [now apply (C167_objective_is_the_bound KDiag 1)|]. split; [|exact B].
  apply (C167_objective_is_the_bound KDiag 1); auto. intros g h Ew.
  assert (KK : forall steps s0 s1, (forall g h, mx_weights s0 <> WHyper g h) -> mx_train sort 1 steps m_skel m_frames s0 = Ok s1 ->
     forall g h, mx_weights s1 <> WHyper g h).
  { clear. induction steps as [|((lr, uw), gr) t IH]; intros s0 s1 H0 E g h; cbn [mx_train] in E.
    - injection E as <-. apply H0.
    - destruct (mx_step sort 1 lr uw gr m_skel m_frames s0) as [s2|] eqn:E2; [|discriminate]. cbn [bindr] in E.
      apply (IH s2 s1); auto. intros g' h' Ew. assert (K := weights_kind _ _ _ _ _ _ _ _ _ E2). rewrite Ew in K.
      specialize (H0). destruct (mx_weights s0) as [| |g0 h0] eqn:E0; try contradiction. now apply (H0 g0 h0). }
  now apply (KK _ s s' Nh E g h).
Qed.

Print Assumptions C167_step.
Print Assumptions C167_training.
Print Assumptions C167_update.
Print Assumptions C167_objective_with_hyper_prior.
Print Assumptions C168_reported_minus_bound.
Print Assumptions C168_refuted.
