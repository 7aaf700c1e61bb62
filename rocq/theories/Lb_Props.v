(** C181: the values printed by the accumulate and update commands when they train
    a bigram phone-loop. *)
From Coq Require Import Reals String List Arith Bool Lia Lra Permutation ZArith.
From Verif Require Import Prelude Vec Edit_Model Edit_Proofs Dec_Model Dec_Proofs Opt_Model Opt_Spec Opt_Proofs Opt_Pipe.
From Verif Require Import Gibbs Lgamma FB_Model FB_Spec FB_Proofs Set_Model Set_Spec Set_Proofs
  HMM_Model HMM_Spec HMM_Proofs HMM_Props Dist_Model Dist_Spec Dist_Proofs Mat NW_Model NW_Spec
  SB_Model SB_Spec Sk_Model Sk_Spec Sk_Proofs Df_Model Pl_Model
  Vt_Model Vt_Spec Vt_Proofs Vt_Props Vl_Model Vl_Spec Vl_Proofs Vl_Props Mx_Model Mx_Spec Mx_Proofs Bg_Model Bg_Spec Bg_Proofs Bg_Props
  Dt_Model Dt_Spec Dt_Proofs Dt_Props Dl_Model Dl_Spec Dl_Proofs Dl_Props Db_Model Db_Proofs Db_Props
  Lg_Model Lg_Spec Lg_Proofs Lg_Props Lb_Model.
Import ListNotations.
Local Open Scope R_scope.

(** ** The divergence of the set *)
Lemma bset_kl_eq n K b : bg_ok n K b -> bset_kl b = bg_kl b.
Proof.
  destruct b as [p q|m o p q]; cbn [bg_ok bset_kl bg_kl].
  - intros (Lp & Lq & Fp & Fq). rewrite (rsum_map2_index _ _ _ [] []) by congruence.
    apply sumf_ext. intros i Hi. apply in_seq in Hi. apply (Mx_Proofs.dir_kl_cross K).
    + apply (proj1 (Forall_forall _ _) Fq), nth_In. lia.
    + apply (proj1 (Forall_forall _ _) Fp), nth_In. lia.
  - intros (_ & _ & Lp & Lq & _ & _). rewrite (sb_kl_nth (n * K)) by auto. rewrite Lq. apply sumf_ext. intros k _.
    rewrite Sk_Proofs.dir_kl_cross. reflexivity.
Qed.

(** ** The batches *)
Definition the_bbatch amax scale l skel wid (s : bgst) (x : lutt) : batch :=
  match bg_batch amax scale l (inst (forms (bg_pars s)) skel) wid (bg_set s) (bg_trans s) x with
  | Ok b => b | Err _ => no_batch end.

Lemma bg_batch_llh amax scale l m wid b tr x r :
  bg_batch amax scale l m wid b tr x = Ok r ->
  exists r', batch_of amax scale m (lu_utt l tr x) = Ok r' /\ b_llh r' = b_llh r.
Proof.
  unfold bg_batch, batch_of. cbv zeta. destruct (hmm_ellh _ _ _ _ _ _ _ _) as [[v c]|e]; cbn [bindr fst snd]; [|discriminate].
  destruct (all_some v); [|discriminate]. destruct (hmm_accumulate _ _ _ _ _); [|discriminate].
  destruct (c_trans c); [|destruct b; discriminate]. intros H. injection H as <-.
  eexists. split; [reflexivity|]. reflexivity.
Qed.

Lemma bg_values amax k D scale l skel wid s xs : NoDup (params skel) -> bg_loop_ok l -> ~ In wid (params skel) ->
  bg_good k D l skel s -> Forall (bg_utt_ok k D l skel s) xs ->
  bg_data amax scale l (inst (forms (bg_pars s)) skel) wid (bg_set s) (bg_trans s) xs =
    Ok (combine (seq 0 (length xs)) (map (the_bbatch amax scale l skel wid s) xs)) /\
  forall x, In x xs -> length (b_llh (the_bbatch amax scale l skel wid s x)) = length (lu_stats x) /\
    rsum (b_llh (the_bbatch amax scale l skel wid s x)) = utt_llh scale skel (bg_pars s) (lu_utt l (bg_trans s) x).
Proof.
  intros Hnd Hlo Hwid G HU. split.
  - unfold bg_data.
    replace (mapM (bg_batch amax scale l (inst (forms (bg_pars s)) skel) wid (bg_set s) (bg_trans s)) xs) with
      (Ok (map (the_bbatch amax scale l skel wid s) xs) : result (list batch)); [reflexivity|].
    symmetry. induction HU as [|x xs X HU IH]; [reflexivity|]. cbn [mapM map]. unfold the_bbatch at 1.
    destruct (bg_batch_ok amax k D scale l skel wid Hnd Hlo Hwid s x G X) as (b & -> & _). cbn [bindr]. now rewrite IH.
  - intros x Hx. assert (X := proj1 (Forall_forall _ _) HU x Hx). unfold the_bbatch.
    destruct (bg_batch_ok amax k D scale l skel wid Hnd Hlo Hwid s x G X) as (b & E & L & _). rewrite E. split; [exact L|].
    destruct (bg_batch_llh _ _ _ _ _ _ _ _ _ E) as (b' & E' & <-).
    now apply (batch_llh amax k D scale skel (bg_pars s) (lu_utt l (bg_trans s) x) b' Hnd (proj1 G) (proj2 X)).
Qed.

(** The same values as for the other models (C180): mean over the utterances of
    the expected log-likelihood per frame, minus the divergence of the set and of
    the emissions divided by the size of the data set. *)
Theorem C181_bigram : forall enum amax k D scale ds l skel wid eg lrate keep saved xs jobs s d,
  is_enum enum -> (0 < ds)%nat -> NoDup (params skel) -> bg_loop_ok l -> ~ In wid (params skel) ->
  Forall (@NoDup nat) eg -> incl (concat eg) (params skel) ->
  bg_good k D l skel s -> Forall (bg_utt_ok k D l skel s) xs -> xs <> [] -> shares xs jobs ->
  let kl := bg_kl (bg_set s) + total_kl skel (bg_pars s) in
  let us := map (lu_utt l (bg_trans s)) in
  bg_log enum amax scale ds l skel wid eg lrate keep xs jobs (s, saved) =
    Ok (map (fun j => match j with
                      | [] => Err ZeroDivisionError
                      | _ => Ok (reported scale ds skel kl (bg_pars s) (us (of_job d xs j)))
                      end) jobs,
        reported scale ds skel kl (bg_pars s) (us xs)).
Proof.
  intros enum amax k D scale ds l skel wid eg lrate keep saved xs jobs s d He Hd Hnd Hlo Hwid Hgn Hgi G HU Hne Hsp kl us.
  destruct (bg_values amax k D scale l skel wid s xs Hnd Hlo Hwid G HU) as [Ed Hv].
  assert (Ls : forall x, u_stats (lu_utt l (bg_trans s) x) = lu_stats x).
  { intros x. unfold lu_utt. destruct (lu_ali x) as [[? ?]|]; reflexivity. }
  assert (Lb : forall x, In x xs -> b_llh (the_bbatch amax scale l skel wid s x) <> []).
  { intros x Hx E. destruct (Hv x Hx) as [L _]. rewrite E in L.
    destruct (proj1 (Forall_forall _ _) HU x Hx) as (_ & Hn & _). rewrite Ls in Hn. destruct (lu_stats x); [congruence|discriminate]. }
  assert (Ekl : bset_kl (bg_set s) + model_kl skel (bg_pars s) = kl).
  { unfold kl. change (model_kl skel (bg_pars s)) with (total_kl skel (bg_pars s)). f_equal.
    destruct G as (_ & Wok & _). exact (bset_kl_eq _ _ _ Wok). }
  assert (Eg : Forall (@NoDup nat) (loop_groups wid eg)).
  { apply loop_groups_nodup; [|exact Hgn]. intros Hin. apply Hwid, Hgi, Hin. }
  destruct (reports enum ds (params skel ++ [wid]) kl (loop_groups wid eg) lrate (if keep then saved else None)
    (loop_heap wid (length (pl_ends l) * length (pl_starts l)) (bg_pars s)) d xs
    (the_bbatch amax scale l skel wid s) jobs He Hd Hne Lb Hsp Eg) as (accs & EA & EU & EM).
  unfold bg_log. rewrite Ed. cbn [bindr]. rewrite Ekl, EA. cbn [bindr]. rewrite EU. cbn [bindr]. rewrite EM.
  assert (M : forall ys, (forall x, In x ys -> In x xs) ->
    mvalue ds kl (the_bbatch amax scale l skel wid s) ys = reported scale ds skel kl (bg_pars s) (us ys)).
  { intros ys Hys. unfold mvalue, reported, us. rewrite map_map. do 2 f_equal. apply map_ext_in. intros x Hx.
    destruct (Hv x (Hys x Hx)) as [-> ->]. unfold per_frame. now rewrite Ls. }
  rewrite (M xs) by auto. do 2 f_equal. apply map_ext_in. intros j Hj. destruct j as [|i j]; [reflexivity|]. f_equal.
  apply M. apply of_job_in. intros i' Hi'. assert (H : In i' (seq 0 (length xs))).
  { apply (Permutation_in i' Hsp). apply in_concat. eauto. }
  apply in_seq in H. lia.
Qed.

(** For utterances of the same length, the value is the bound training increases
    with an SBCategoricalSet (C177), per frame, plus the divergences of the paths. *)
Theorem C181_equal_lengths : forall k D scale ds l skel xs s T,
  bg_good k D l skel s -> Forall (bg_utt_ok k D l skel s) xs -> xs <> [] -> (0 < ds)%nat ->
  Forall (fun x => length (lu_stats x) = T) xs ->
  let w := INR ds / INR (loop_frames xs) in
  let us := map (lu_utt l (bg_trans s)) xs in
  INR ds * reported scale ds skel (bg_kl (bg_set s) + total_kl skel (bg_pars s)) (bg_pars s) us =
  bg_bound scale w l skel xs s +
  w * sumf (fun u => path_kl (u_graph u) (frames scale (utt_ems skel (bg_pars s) u) (u_stats u))) us.
Proof.
  intros k D scale ds l skel xs s T G HU Hne Hd HT w us.
  assert (Ls : forall x, u_stats (lu_utt l (bg_trans s) x) = lu_stats x).
  { intros x. unfold lu_utt. destruct (lu_ali x) as [[? ?]|]; reflexivity. }
  assert (HU' : Forall (utt_ok k D skel) us).
  { unfold us. apply Forall_forall. intros u Hu. apply in_map_iff in Hu. destruct Hu as (x & <- & Hx).
    exact (proj2 (proj1 (Forall_forall _ _) HU x Hx)). }
  assert (HT' : Forall (fun u => length (u_stats u) = T) us).
  { unfold us. apply Forall_forall. intros u Hu. apply in_map_iff in Hu. destruct Hu as (x & <- & Hx). rewrite Ls.
    exact (proj1 (Forall_forall _ _) HT x Hx). }
  assert (Hne' : us <> []) by (unfold us; destruct xs; [congruence|discriminate]).
  assert (E := C180_equal_lengths k D scale ds skel us (bg_pars s) T (proj1 G) HU' Hne' Hd HT'). cbv zeta in E.
  assert (Nf : nframes us = loop_frames xs).
  { unfold us, nframes, loop_frames. rewrite map_map. f_equal. apply map_ext. intros x. now rewrite Ls. }
  rewrite Nf in E. fold w in E.
  assert (H1 : INR ds <> 0) by (apply not_0_INR; lia).
  assert (A : INR ds * reported scale ds skel (bg_kl (bg_set s) + total_kl skel (bg_pars s)) (bg_pars s) us =
    INR ds * reported scale ds skel (total_kl skel (bg_pars s)) (bg_pars s) us - bg_kl (bg_set s)).
  { unfold reported. field. exact H1. }
  rewrite A, E. unfold bg_bound, bound, us, loglik. rewrite !sumf_map. cbv zeta. ring.
Qed.

(** The divergence of the root is not printed.  It is 0 for the loops mkphoneloop
    makes, and stays so: training changes neither the root nor its order. *)
Theorem C181_root : forall eps n c,
  exists p q root, build_hsb eps n c = WSBSet n p q root /\ sb_kl (sb_post root) (sb_prior root) = 0 /\
  forall amax scale w steps l skel xs s s', bg_set s = BStick n (sb_ord root) p q ->
    bg_train amax scale w steps l skel xs s = Ok s' -> exists q', bg_set s' = BStick n (sb_ord root) p q'.
Proof.
  intros eps n c. eexists _, _, _. split; [reflexivity|]. split.
  - cbn [sb_create sb_post sb_prior]. rewrite (sb_kl_nth (length (sb_default n c))) by reflexivity.
    apply sumf_zero. intros i _. rewrite Sk_Proofs.dir_kl_cross. ring.
  - cbn [sb_create sb_ord]. intros amax scale w steps l skel xs. generalize (concat (repeat (sb_post (sb_create n c)) n)).
    induction steps as [|[[lr uw] g] steps IH]; intros q s s' Hs H; cbn [bg_train] in H.
    + injection H as <-. eauto.
    + destruct (bg_step amax scale w lr uw g l skel xs s) as [s1|] eqn:E1; cbn [bindr] in H; [|discriminate].
      unfold bg_step in E1. destruct (mapM _ _) as [Ds|]; cbn [bindr] in E1; [|discriminate]. injection E1 as <-.
      destruct uw.
      * eapply IH; [|exact H]. cbn [bg_set]. rewrite Hs. reflexivity.
      * eapply IH; [|exact H]. cbn [bg_set]. exact Hs.
Qed.

(** The loop of C177's example after its first round: two of the four sticks have
    left their prior, each by ln 3 - 2/3.  Twice the same utterance, three jobs. *)
Definition lb_set : bset := BStick 2 [0; 1]%nat [(1, 1); (1, 1); (1, 1); (1, 1)] [(1, 3); (3, 1); (1, 1); (1, 1)].

Lemma lb_kl : bg_kl lb_set = 2 * ln 3 - 4 / 3.
Proof.
  assert (D2 : digamma 2 = digamma 1 + 1) by (replace 2 with (1 + 1) by ring; rewrite digamma_rec; lra).
  assert (D3 : digamma 3 = digamma 1 + 3 / 2) by (replace 3 with (2 + 1) by ring; rewrite digamma_rec, D2; lra).
  assert (D4 : digamma 4 = digamma 1 + 11 / 6) by (replace 4 with (3 + 1) by ring; rewrite digamma_rec, D3; lra).
  assert (L2 : lgamma 2 = 0) by (replace 2 with (1 + 1) by ring; rewrite lgamma_rec, lgamma_1, ln_1; lra).
  assert (L3 : lgamma 3 = ln 2) by (replace 3 with (2 + 1) by ring; rewrite lgamma_rec, L2; lra).
  assert (L4 : lgamma 4 = ln 2 + ln 3) by (replace 4 with (3 + 1) by ring; rewrite lgamma_rec, L3; lra).
  unfold bg_kl, lb_set, sumf, rsum, beta_cross, e_ln_v, e_ln_rest, log_beta. cbn [length seq map fold_right nth fst snd].
  replace (1 + 3) with 4 by ring. replace (3 + 1) with 4 by ring. replace (1 + 1) with 2 by ring.
  rewrite D2, D3, D4, L2, L3, L4, lgamma_1. generalize (digamma 1). intros d. lra.
Qed.

Lemma lb_ok : bg_ok 2 2 lb_set.
Proof.
  destruct bx_stick_ok as (A & B & C & D & E & F). cbn [bx_stick lb_set bg_ok] in *.
  split; [reflexivity|]. split; [exact B|]. split; [exact C|]. split; [reflexivity|]. split; [exact E|].
  repeat constructor; cbn [fst snd]; lra.
Qed.

Example C181_ex : forall enum amax, is_enum enum ->
  let s := bg_init bx_loop lb_set rx_st in
  exists v, v = per_frame 1 rx_skel rx_st (lu_utt bx_loop (bg_trans s) bx_utt) - (2 * ln 3 - 4 / 3 + total_kl rx_skel rx_st) / 8 /\
  bg_log enum amax 1 8 bx_loop rx_skel 9 [[1]]%nat 1 true [bx_utt; bx_utt] [[1]; []; [0]]%nat (s, None) =
  Ok ([Ok v; Err ZeroDivisionError; Ok v], v).
Proof.
  intros enum amax He s. eexists. split; [reflexivity|].
  assert (N : NoDup (params rx_skel)) by (constructor; [intros []|constructor]).
  assert (W := lb_ok). assert (G := bx_good lb_set W). fold s in G.
  assert (F : Forall (bg_utt_ok KDiag 1 bx_loop rx_skel s) [bx_utt; bx_utt]).
  { constructor; [exact (bx_utt_ok lb_set W)|constructor; [exact (bx_utt_ok lb_set W)|constructor]]. }
  assert (Hg : Forall (@NoDup nat) [[1]]%nat).
  { constructor; [|constructor]. constructor; [intros []|constructor]. }
  assert (Hw : ~ In 9%nat (params rx_skel)) by (intros [H|[]]; discriminate).
  rewrite (C181_bigram enum amax KDiag 1 1 8 bx_loop rx_skel 9 [[1]]%nat 1 true None [bx_utt; bx_utt] [[1]; []; [0]]%nat s bx_utt
    He ltac:(lia) N bx_loop_ok Hw Hg (incl_refl _) G F ltac:(discriminate) ltac:(apply perm_swap)).
  change (bg_pars s) with rx_st. change (bg_set s) with lb_set. rewrite lb_kl.
  unfold of_job. cbn [map nth]. unfold reported, mean. cbn [map length].
  generalize (per_frame 1 rx_skel rx_st (lu_utt bx_loop (bg_trans s) bx_utt)). intros v.
  generalize (total_kl rx_skel rx_st). intros kl. unfold rsum. cbn [fold_right INR].
  repeat f_equal; field.
Qed.

Print Assumptions C181_bigram.
Print Assumptions C181_equal_lengths.
Print Assumptions C181_root.
