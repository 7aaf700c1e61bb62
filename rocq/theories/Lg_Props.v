(** C180: the values printed by the accumulate and update commands. *)
From Coq Require Import Reals String List Arith Bool Lia Lra Permutation ZArith FunctionalExtensionality.
From Verif Require Import Prelude Vec Edit_Model Edit_Proofs Dec_Model Dec_Proofs Opt_Model Opt_Spec Opt_Proofs Opt_Pipe.
From Verif Require Import Gibbs Lgamma FB_Model FB_Spec FB_Proofs Set_Model Set_Spec Set_Proofs
  HMM_Model HMM_Spec HMM_Proofs HMM_Props Dist_Model Dist_Spec Dist_Proofs Mat NW_Model NW_Spec
  SB_Model SB_Spec Sk_Model Sk_Spec Df_Model Pl_Model
  Vt_Model Vt_Spec Vt_Proofs Vt_Props Vl_Model Vl_Spec Vl_Proofs Vl_Props Mx_Model Mx_Spec Mx_Proofs Mx_Props Pw_Model Pw_Spec Pw_Proofs Pw_Props
  Dt_Model Dt_Spec Dt_Proofs Dt_Props Dl_Model Dl_Spec Dl_Proofs Dl_Props Lg_Model Lg_Spec Lg_Proofs.
Import ListNotations.
Local Open Scope R_scope.

(** The update prints the mean over the utterances of their expected
    log-likelihoods per frame, minus the divergence of the model divided by the
    size of the data set, both for the model before the update; whatever the jobs
    and the optimiser.  Each job prints the same for its own utterances, and
    fails after having written its file when it has none. *)
Theorem C180_round : forall enum amax k D scale ds skel groups lrate keep saved utts jobs st d,
  is_enum enum -> (0 < ds)%nat -> NoDup (params skel) -> Forall (@NoDup nat) groups ->
  typed k D st skel -> Forall (utt_ok k D skel) utts -> utts <> [] -> splits utts jobs ->
  round_log enum amax scale ds skel groups lrate keep utts jobs (st, saved) =
    Ok (map (fun j => match j with
                      | [] => Err ZeroDivisionError
                      | _ => Ok (reported scale ds skel (total_kl skel st) st (of_job d utts j))
                      end) jobs,
        reported scale ds skel (total_kl skel st) st utts).
Proof.
  intros enum amax k D scale ds skel groups lrate keep saved utts jobs st d He Hd Hnd Hgn T HU Hne Hsp.
  destruct (hmm_data amax k D scale skel st utts Hnd T HU) as [Ed Hv].
  assert (Lb : forall u, In u utts -> b_llh (the_batch amax scale skel st u) <> []).
  { intros u Hu E. destruct (Hv u Hu) as [L _]. rewrite E in L.
    destruct (proj1 (Forall_forall _ _) HU u Hu) as (Hn & _). destruct (u_stats u); [congruence|discriminate]. }
  destruct (reports enum ds (params skel) (model_kl skel st) groups lrate (if keep then saved else None) (heap_of st) d utts
    (the_batch amax scale skel st) jobs He Hd Hne Lb Hsp Hgn) as (accs & EA & EU & EM).
  unfold round_log. rewrite Ed. cbn [bindr]. rewrite EA. cbn [bindr]. rewrite EU. cbn [bindr]. rewrite EM.
  change (model_kl skel st) with (total_kl skel st).
  rewrite (mvalue_reported scale ds skel (total_kl skel st) st _ utts Hv). do 2 f_equal.
  apply map_ext_in. intros j Hj. destruct j as [|i j]; [reflexivity|]. f_equal.
  apply mvalue_reported. intros u Hu. apply Hv. revert u Hu. apply of_job_in. intros i' Hi'.
  assert (H : In i' (seq 0 (length utts))).
  { apply (Permutation_in i' Hsp). apply in_concat. eauto. }
  apply in_seq in H. lia.
Qed.

(** The divergence of the weights that is printed: with a hyper-prior, the one of
    the concentration is missing. *)
Definition printed_kl (w : wpar) : R :=
  match w with
  | WHyper _ h => weights_kl (WStick (h_prior h) (h_ord h) (h_sticks h))
  | _ => weights_kl w
  end.

Theorem C180_loop : forall enum amax k D scale ds l skel wid eg lrate keep saved xs jobs s d,
  is_enum enum -> (0 < ds)%nat -> NoDup (params skel) -> loop_ok l -> ~ In wid (params skel) ->
  Forall (@NoDup nat) eg -> incl (concat eg) (params skel) ->
  pw_good k D l skel s -> Forall (pw_utt_ok k D l skel s) xs -> xs <> [] -> shares xs jobs ->
  let kl := printed_kl (pw_weights s) + total_kl skel (pw_pars s) in
  let us := map (lu_utt l (pw_trans s)) in
  loop_log enum amax scale ds l skel wid eg lrate keep xs jobs (s, saved) =
    Ok (map (fun j => match j with
                      | [] => Err ZeroDivisionError
                      | _ => Ok (reported scale ds skel kl (pw_pars s) (us (of_job d xs j)))
                      end) jobs,
        reported scale ds skel kl (pw_pars s) (us xs)).
Proof.
  intros enum amax k D scale ds l skel wid eg lrate keep saved xs jobs s d He Hd Hnd Hlo Hwid Hgn Hgi G HU Hne Hsp kl us.
  destruct (loop_values amax k D scale l skel wid s xs Hnd Hlo Hwid G HU) as [Ed Hv].
  assert (Ls : forall x, u_stats (lu_utt l (pw_trans s) x) = lu_stats x).
  { intros x. unfold lu_utt. destruct (lu_ali x) as [[? ?]|]; reflexivity. }
  assert (Lb : forall x, In x xs -> b_llh (the_lbatch amax scale l skel wid s x) <> []).
  { intros x Hx E. destruct (Hv x Hx) as [L _]. rewrite E in L.
    destruct (proj1 (Forall_forall _ _) HU x Hx) as (Hn & _). rewrite Ls in Hn. destruct (lu_stats x); [congruence|discriminate]. }
  assert (Ekl : mx_weights_kl (pw_weights s) + model_kl skel (pw_pars s) = kl).
  { unfold kl. change (model_kl skel (pw_pars s)) with (total_kl skel (pw_pars s)). f_equal.
    destruct G as (_ & Wok & _). unfold printed_kl. destruct (pw_weights s) as [p q|p o q|g h].
    - exact (weights_kl_eq _ _ Wok).
    - exact (weights_kl_eq _ _ Wok).
    - destruct Wok as (H1 & H2 & H3 & H4 & H5 & H6).
      refine (weights_kl_eq (length (pl_starts l)) (WStick (h_prior h) (h_ord h) (h_sticks h)) _).
      split; [exact H1|]. split; [exact H2|]. split; [exact H3|]. eexists. split; [|split; [|exact H6]]; cbn [fst snd]; [lra|].
      destruct H5 as (L1 & L2 & H5 & H7).
      apply Rdiv_lt_0_compat; [apply (proj1 (Forall_forall _ _) H5)|apply (proj1 (Forall_forall _ _) H7)]; apply nth_In; lia. }
  assert (Eg : Forall (@NoDup nat) (loop_groups wid eg)).
  { apply loop_groups_nodup; [|exact Hgn]. intros Hin. apply Hwid, Hgi, Hin. }
  destruct (reports enum ds (params skel ++ [wid]) kl (loop_groups wid eg) lrate (if keep then saved else None)
    (loop_heap wid (length (pl_starts l)) (pw_pars s)) d xs
    (the_lbatch amax scale l skel wid s) jobs He Hd Hne Lb Hsp Eg) as (accs & EA & EU & EM).
  unfold loop_log. rewrite Ed. cbn [bindr]. rewrite Ekl, EA. cbn [bindr]. rewrite EU. cbn [bindr]. rewrite EM.
  assert (M : forall ys, (forall x, In x ys -> In x xs) ->
    mvalue ds kl (the_lbatch amax scale l skel wid s) ys = reported scale ds skel kl (pw_pars s) (us ys)).
  { intros ys Hys. unfold mvalue, reported, us. rewrite map_map. do 2 f_equal. apply map_ext_in. intros x Hx.
    destruct (Hv x (Hys x Hx)) as [-> ->]. unfold per_frame. now rewrite Ls. }
  rewrite (M xs) by auto. do 2 f_equal. apply map_ext_in. intros j Hj. destruct j as [|i j]; [reflexivity|]. f_equal.
  apply M. apply of_job_in. intros i' Hi'. assert (H : In i' (seq 0 (length xs))).
  { apply (Permutation_in i' Hsp). apply in_concat. eauto. }
  apply in_seq in H. lia.
Qed.

(** When all the utterances have the same length, the printed value is the
    evidence lower bound the training increases (C174), per frame, plus the
    divergences of the state paths, which the code leaves out. *)
Theorem C180_equal_lengths : forall k D scale ds skel utts st T,
  typed k D st skel -> Forall (utt_ok k D skel) utts -> utts <> [] -> (0 < ds)%nat ->
  Forall (fun u => length (u_stats u) = T) utts ->
  let w := INR ds / INR (nframes utts) in
  INR ds * reported scale ds skel (total_kl skel st) st utts =
  bound scale w skel utts st +
  w * sumf (fun u => path_kl (u_graph u) (frames scale (utt_ems skel st u) (u_stats u))) utts.
Proof.
  intros k D scale ds skel utts st T Ty HU Hne Hd HT w.
  assert (HTpos : (0 < T)%nat).
  { destruct HT as [|u us Hu _]; [congruence|]. apply Forall_inv in HU. destruct HU as (Hn & _).
    rewrite <- Hu. destruct (u_stats u); [congruence|simpl; lia]. }
  assert (Nf : nframes utts = (length utts * T)%nat).
  { unfold nframes. clear - HT. induction HT as [|u us Hu _ IH]; [reflexivity|]. cbn [map length]. unfold list_sum in *.
    cbn [fold_right]. rewrite IH, Hu. reflexivity. }
  assert (H1 : INR ds <> 0) by (apply not_0_INR; lia).
  assert (H2 : INR T <> 0) by (apply not_0_INR; lia).
  assert (H3 : INR (length utts) <> 0) by (apply not_0_INR; destruct utts; [congruence|discriminate]).
  assert (G : mean (map (per_frame scale skel st) utts) = sumf (utt_llh scale skel st) utts / (INR (length utts) * INR T)).
  { unfold mean. rewrite map_length.
    assert (E : rsum (map (per_frame scale skel st) utts) = sumf (utt_llh scale skel st) utts / INR T).
    { clear - HT. unfold sumf. induction HT as [|u us Hu _ IH]; [unfold rsum; simpl; lra|]. cbn [map]. unfold rsum in *.
      cbn [fold_right]. rewrite IH. unfold per_frame. rewrite Hu. unfold Rdiv. ring. }
    rewrite E. field. auto. }
  assert (Sm : sumf (utt_llh scale skel st) utts =
    sumf (fun u => ln (evidence (u_graph u) (frames scale (utt_ems skel st u) (u_stats u)))) utts +
    sumf (fun u => path_kl (u_graph u) (frames scale (utt_ems skel st u) (u_stats u))) utts).
  { rewrite <- sumf_plus. apply sumf_ext. intros u Hu. assert (U := proj1 (Forall_forall _ _) HU u Hu).
    unfold utt_llh. apply value_decomposition; [|now apply (utt_evidence k D)].
    unfold utt_ems. rewrite map_length. apply U. }
  unfold reported, bound, w. rewrite G, Sm, Nf, mult_INR. field. auto.
Qed.

(** So for proper graphs it is not a lower bound but at least the bound. *)
Theorem C180_lower_bound_refuted : forall k D scale ds skel utts st T,
  typed k D st skel -> Forall (utt_ok k D skel) utts -> utts <> [] -> (0 < ds)%nat ->
  Forall (fun u => length (u_stats u) = T) utts -> Forall (fun u => substochastic (u_graph u)) utts ->
  let w := INR ds / INR (nframes utts) in
  bound scale w skel utts st <= INR ds * reported scale ds skel (total_kl skel st) st utts.
Proof.
  intros k D scale ds skel utts st T Ty HU Hne Hd HT Hg w. unfold w.
  rewrite (C180_equal_lengths k D scale ds skel utts st T Ty HU Hne Hd HT). fold w.
  assert (Hw : 0 <= w).
  { unfold w. apply Rmult_le_pos; [apply pos_INR|].
    destruct (nframes utts) as [|n]; [simpl; rewrite Rinv_0; lra|]. left. apply Rinv_0_lt_compat, lt_0_INR. lia. }
  assert (P : 0 <= sumf (fun u => path_kl (u_graph u) (frames scale (utt_ems skel st u) (u_stats u))) utts).
  { apply sumf_nonneg. intros u Hu. assert (U := proj1 (Forall_forall _ _) HU u Hu). apply path_kl_nonneg.
    - unfold utt_ems. rewrite map_length. apply U.
    - exact (proj1 (Forall_forall _ _) Hg u Hu).
    - now apply (utt_evidence k D). }
  assert (0 <= w * sumf (fun u => path_kl (u_graph u) (frames scale (utt_ems skel st u) (u_stats u))) utts) by (now apply Rmult_le_pos).
  lra.
Qed.

(** With one state and utterances of the same length it is the bound. *)
Theorem C180_one_state : forall k D scale ds skel utts st T,
  typed k D st skel -> Forall (utt_ok k D skel) utts -> utts <> [] -> (0 < ds)%nat ->
  Forall (fun u => length (u_stats u) = T) utts -> Forall (fun u => one_state (u_graph u)) utts ->
  let w := INR ds / INR (nframes utts) in
  INR ds * reported scale ds skel (total_kl skel st) st utts = bound scale w skel utts st.
Proof.
  intros k D scale ds skel utts st T Ty HU Hne Hd HT Hg w. unfold w.
  rewrite (C180_equal_lengths k D scale ds skel utts st T Ty HU Hne Hd HT).
  assert (P : sumf (fun u => path_kl (u_graph u) (frames scale (utt_ems skel st u) (u_stats u))) utts = 0).
  { rewrite (sumf_ext _ (fun _ => 0)).
    - unfold sumf. clear. induction utts as [|u us IH]; [reflexivity|]. cbn [map]. unfold rsum in *. cbn [fold_right]. lra.
    - intros u Hu. assert (U := proj1 (Forall_forall _ _) HU u Hu).
      destruct (one_llh scale skel st u) as [_ E]; [exact (proj1 (Forall_forall _ _) Hg u Hu)|apply U|].
      assert (V := value_decomposition (u_graph u) scale (utt_ems skel st u) (u_stats u)).
      unfold utt_llh in E. rewrite V in E; [lra| |now apply (utt_evidence k D)].
      unfold utt_ems. rewrite map_length. apply U. }
  rewrite P. lra.
Qed.

(** ** A round that increases the bound but decreases the printed value: one
    state with one Normal density, an utterance of one frame and one of three. *)
Definition dec_graph : cgraph :=
  {| cg_n := 1; cg_init := fun _ => Fin 0; cg_trans := fun _ _ => Fin 0; cg_final := fun _ => Fin 0 |}.
Definition dec_utt (xs : list (list R)) : utt :=
  {| u_graph := dec_graph; u_order := [0%nat]; u_own := true; u_stats := map nd_suff_stats xs |}.
Definition dec_utts : list utt := [dec_utt [[0]]; dec_utt [[1]; [1]; [1]]].
Definition dec_skel : mset := Leaf 0 4 [[]] 0.
Definition dec_prior : ng_par := {| ng_mean := [0]; ng_scale := 1; ng_shape := 1; ng_rates := [1] |}.
Definition dec_post (m : R) : ng_par := {| ng_mean := [m]; ng_scale := 5; ng_shape := 3; ng_rates := [8/5] |}.
Definition dec_st (m : R) : state := fun p => match p with 0%nat => [CDiag dec_prior (dec_post m)] | _ => [] end.

Lemma dec_typed m : typed KDiag 1 (dec_st m) dec_skel.
Proof.
  cbn [typed dec_skel]. split; [reflexivity|]. split; [reflexivity|]. constructor; [|constructor].
  split; (split; [reflexivity|]; split; [reflexivity|]; cbn [dec_prior dec_post ng_scale ng_shape ng_rates];
    split; [lra|]; split; [lra|]; constructor; [lra|constructor]).
Qed.

Lemma dec_utts_ok : Forall (utt_ok KDiag 1 dec_skel) dec_utts.
Proof.
  assert (P : forall n, 0 < prior_prob dec_graph (S n) (repeat 0%nat (S n))).
  { intros n. unfold prior_prob. cbn [repeat path_prob]. unfold ex at 1 2. cbn [dec_graph cg_init]. rewrite exp_0.
    assert (E : tail_prob dec_graph 0 (repeat (fun _ => Fin 0) n) (repeat 0%nat n) = 1).
    { induction n as [|n IH]; cbn [repeat tail_prob]; [cbn; apply exp_0|]. rewrite IH. cbn. rewrite exp_0. ring. }
    rewrite E. lra. }
  constructor; [|constructor; [|constructor]].
  - split; [discriminate|]. split; [exists [[0]]; split; [reflexivity|]; constructor; [split; [reflexivity|exact I]|constructor]|].
    split; [intros o [<-|[]]; cbn; lia|]. split; [reflexivity|]. exists [0%nat]. split; [now left|]. apply (P 0%nat).
  - split; [discriminate|]. split; [exists [[1]; [1]; [1]]; split; [reflexivity|]; apply Forall_forall; intros x Hx;
      split; [destruct Hx as [<-|[<-|[<-|[]]]]; reflexivity|exact I]|].
    split; [intros o [<-|[]]; cbn; lia|]. split; [reflexivity|]. exists [0; 0; 0]%nat. split; [now left|]. apply (P 2%nat).
Qed.

(** The density of the state with the mean m, and its divergence *)
Definition dec_llh (m x : R) : R :=
  nth 0 (nd_suff_stats [x]) 0 * (15/8 * m) + nth 1 (nd_suff_stats [x]) 0 * (15/8) +
  nth 2 (nd_suff_stats [x]) 0 * (15/8 * m ^ 2 + 1/5) + nth 3 (nd_suff_stats [x]) 0 * (digamma 3 - ln (8/5)).

Lemma dec_em m x : 1 * em_llh (nd_suff_stats [x]) (nth 0 (utt_ems dec_skel (dec_st m) (dec_utt [])) e0) = dec_llh m x.
Proof.
  unfold dec_llh, nd_suff_stats, utt_ems, dec_st, dot, vmul, rsum. cbn. field.
Qed.

Lemma dec_ems m xs : utt_ems dec_skel (dec_st m) (dec_utt xs) = utt_ems dec_skel (dec_st m) (dec_utt []).
Proof. reflexivity. Qed.

Lemma dec_one xs : one_state (u_graph (dec_utt xs)).
Proof. split; [reflexivity|]. split; [reflexivity|]. split; reflexivity. Qed.

Lemma dec_utt_llh m xs : xs <> [] ->
  utt_llh 1 dec_skel (dec_st m) (dec_utt (map (fun x => [x]) xs)) = rsum (map (dec_llh m) xs) /\
  ln (evidence dec_graph (frames 1 (utt_ems dec_skel (dec_st m) (dec_utt (map (fun x => [x]) xs)))
       (u_stats (dec_utt (map (fun x => [x]) xs))))) = rsum (map (dec_llh m) xs).
Proof.
  intros Hne. destruct (one_llh 1 dec_skel (dec_st m) (dec_utt (map (fun x => [x]) xs)) (dec_one _)) as [E1 E2].
  { destruct xs; [congruence|discriminate]. }
  assert (E : utt_llh 1 dec_skel (dec_st m) (dec_utt (map (fun x => [x]) xs)) = rsum (map (dec_llh m) xs)).
  { rewrite E1, dec_ems. cbn [dec_utt u_stats]. unfold sumf. rewrite !map_map. f_equal. apply map_ext. intros x. apply dec_em. }
  split; [exact E|]. rewrite <- E. exact E2.
Qed.

Lemma dec_kl m : total_kl dec_skel (dec_st m) = total_kl dec_skel (dec_st 0) + 15/16 * m ^ 2.
Proof.
  unfold total_kl, sumf, dec_st. cbn [params dec_skel map cell_kl]. unfold rsum. cbn [fold_right].
  unfold ng_kl, kl_div, ng_nat, ng_ess, ng_log_norm, dec_post, dec_prior. cbn. unfold dot, vmul, vsub, rsum. cbn. field.
Qed.

Lemma dec_reported m : reported 1 4 dec_skel (total_kl dec_skel (dec_st m)) (dec_st m) dec_utts =
  (dec_llh m 0 + (dec_llh m 1 + dec_llh m 1 + dec_llh m 1) / 3) / 2 - (total_kl dec_skel (dec_st 0) + 15/16 * m ^ 2) / 4.
Proof.
  unfold reported. rewrite (dec_kl m). unfold mean, dec_utts, per_frame. cbn [map length].
  change [[0]] with (map (fun x : R => [x]) [0]). change [[1]; [1]; [1]] with (map (fun x : R => [x]) [1; 1; 1]).
  rewrite (proj1 (dec_utt_llh m [0] ltac:(discriminate))), (proj1 (dec_utt_llh m [1; 1; 1] ltac:(discriminate))).
  unfold rsum. cbn. field.
Qed.

Lemma dec_bound m : bound 1 1 dec_skel dec_utts (dec_st m) =
  dec_llh m 0 + (dec_llh m 1 + dec_llh m 1 + dec_llh m 1) - (total_kl dec_skel (dec_st 0) + 15/16 * m ^ 2).
Proof.
  unfold bound. rewrite (dec_kl m). unfold sumf, dec_utts. cbn [map u_graph].
  change (u_graph (dec_utt [[0]])) with dec_graph. change (u_graph (dec_utt [[1]; [1]; [1]])) with dec_graph.
  change [[0]] with (map (fun x : R => [x]) [0]). change [[1]; [1]; [1]] with (map (fun x : R => [x]) [1; 1; 1]).
  rewrite (proj2 (dec_utt_llh m [0] ltac:(discriminate))), (proj2 (dec_utt_llh m [1; 1; 1] ltac:(discriminate))).
  unfold rsum. cbn. ring.
Qed.

Lemma dec_row amax m xs : xs <> [] -> utt_ok KDiag 1 dec_skel (dec_utt (map (fun x => [x]) xs)) ->
  utt_acc amax 1 (inst (forms (dec_st m)) dec_skel) (dec_utt (map (fun x => [x]) xs)) =
    Some (acc_of amax 1 dec_skel (dec_st m) (dec_utt (map (fun x => [x]) xs))) /\
  row_of 0 0 (acc_of amax 1 dec_skel (dec_st m) (dec_utt (map (fun x => [x]) xs))) =
  map (fun i => rsum (map (fun x => nth i (nd_suff_stats [x]) 0) xs)) [0; 1; 2; 3]%nat.
Proof.
  intros Hne U. assert (Hnd : NoDup (params dec_skel)) by (constructor; [intros []|constructor]).
  destruct (utt_rows amax KDiag 1 1 dec_skel Hnd (dec_st m) _ (dec_typed m) U) as [E R]. split; [exact E|].
  destruct (R (0%nat, 0%nat)) as [L H]; [now left|]. cbn [fst snd] in L, H.
  change (length (form (dec_st m) (0%nat, 0%nat))) with 4%nat in L, H.
  apply vec_ext; [rewrite L; reflexivity|]. rewrite L. intros i Hi. rewrite H by auto.
  rewrite one_stats; [|apply dec_one|destruct xs; [congruence|discriminate]]. rewrite dec_ems, Rmult_1_l.
  rewrite (map_nth_lt _ _ _ 0%nat) by (cbn; lia). unfold sumf. cbn [dec_utt u_stats]. rewrite !map_map. f_equal.
  apply map_ext. intros x. destruct i as [|[|[|[|i]]]]; [| | | |lia]; cbn; lra.
Qed.

Theorem C180_decrease_refuted : forall enum amax, is_enum enum ->
  exists ds skel groups utts jobs st st' s,
    (0 < ds)%nat /\ typed KDiag 1 st skel /\ Forall (utt_ok KDiag 1 skel) utts /\
    Forall (fun u => one_state (u_graph u)) utts /\ splits utts jobs /\
    round enum amax 1 ds skel groups 1 true utts jobs (st, None) = Ok (st', s) /\
    (let w := INR ds / INR (nframes utts) in bound 1 w skel utts st < bound 1 w skel utts st') /\
    reported 1 ds skel (total_kl skel st') st' utts < reported 1 ds skel (total_kl skel st) st utts.
Proof.
  intros enum amax He. assert (Hnd : NoDup (params dec_skel)) by (constructor; [intros []|constructor]).
  assert (Hsp : splits dec_utts [[0; 1]%nat]) by apply Permutation_refl.
  assert (H01 : 0 <= 1 <= 1) by lra. assert (H4 : (0 < 4)%nat) by lia.
  assert (Hg1 : Forall (@NoDup nat) [[0%nat]]) by (constructor; [exact Hnd|constructor]).
  destruct (C174_round enum amax KDiag 1 1 4 dec_skel [[0%nat]] 1 1 0 None dec_utts [[0; 1]%nat] (dec_st (2/5))
    He (proj1 H01) H4 Hnd Hg1 (fun p Hp => Hp) (dec_typed _) dec_utts_ok ltac:(discriminate) Hsp
    (or_introl (conj eq_refl (conj eq_refl eq_refl))) H01) as (st' & E1 & E2 & _).
    assert (Ew : INR 4 / INR (nframes dec_utts) = 1) by (cbn; field).
    rewrite Ew in E2.
    assert (Es : st' = dec_st (3/5)).
    { unfold train_step in E2. assert (HU := dec_utts_ok). inversion_clear HU as [|? ? U1 HU']. inversion_clear HU' as [|? ? U2 _].
      destruct (dec_row amax (2/5) [0] ltac:(discriminate) U1) as [A1 R1].
      destruct (dec_row amax (2/5) [1; 1; 1] ltac:(discriminate) U2) as [A2 R2].
      cbn [map dec_utts all_some] in E2. cbn [map] in A1, A2, R1, R2. rewrite A1, A2 in E2. injection E2 as <-.
      apply functional_extensionality. intros p. unfold apply_step. destruct p as [|p].
      - cbn [nth Nat.modulo Nat.divmod fst snd length existsb Nat.eqb orb dec_st seq map2 total].
        change (0 mod 1)%nat with 0%nat. cbn [nth existsb Nat.eqb orb map2]. unfold total. cbn [map]. rewrite R1, R2.
        f_equal. cbn [cell_update]. unfold cell_update. f_equal.
        unfold std_update, ng_nat, ng_from_nat, dec_post, dec_prior, slice, from_end, vscale, colsum, vadd, vsub, vzeros, rsum, nd_suff_stats. cbn.
        f_equal; [f_equal|lra|lra|f_equal]; field; lra.
      - reflexivity. }
    rewrite Es in E1.
    exists 4%nat, dec_skel, [[0%nat]], dec_utts, [[0; 1]%nat], (dec_st (2/5)), (dec_st (3/5)), (Some (1, 1%nat)).
    split; [lia|]. split; [apply dec_typed|]. split; [apply dec_utts_ok|].
    split; [constructor; [apply dec_one|constructor; [apply dec_one|constructor]]|]. split; [exact Hsp|]. split; [exact E1|].
    cbv zeta. rewrite Ew, !dec_bound, !dec_reported. unfold dec_llh, nd_suff_stats. cbn [map nth app]. cbn. split; lra.
Qed.

(** Three jobs, one of them empty: the update prints the mean of the values of
    the two others although one has three frames and the other one. *)
Example C180_ex : forall enum amax, is_enum enum ->
  let kl := total_kl dec_skel (dec_st (2/5)) / 4 in
  round_log enum amax 1 4 dec_skel [[0%nat]] 1 true dec_utts [[1]; []; [0]]%nat (dec_st (2/5), None) =
  Ok ([Ok (dec_llh (2/5) 1 - kl); Err ZeroDivisionError; Ok (dec_llh (2/5) 0 - kl)],
      (dec_llh (2/5) 0 + dec_llh (2/5) 1) / 2 - kl).
Proof.
  intros enum amax He kl. assert (Hnd : NoDup (params dec_skel)) by (constructor; [intros []|constructor]).
  rewrite (C180_round enum amax KDiag 1 1 4 dec_skel [[0%nat]] 1 true None dec_utts [[1]; []; [0]]%nat (dec_st (2/5)) (dec_utt []) He
    ltac:(lia) Hnd ltac:(constructor; [exact Hnd|constructor]) (dec_typed _) dec_utts_ok ltac:(discriminate)
    ltac:(apply perm_swap)).
  unfold dec_utts. cbn [map of_job nth]. unfold reported, mean, per_frame. cbn [map length].
  change (dec_utt [[0]]) with (dec_utt (map (fun x : R => [x]) [0])).
  change (dec_utt [[1]; [1]; [1]]) with (dec_utt (map (fun x : R => [x]) [1; 1; 1])).
  rewrite (proj1 (dec_utt_llh (2/5) [0] ltac:(discriminate))), (proj1 (dec_utt_llh (2/5) [1; 1; 1] ltac:(discriminate))).
  unfold kl, rsum. cbn [map fold_right u_stats dec_utt length INR].
  generalize (dec_llh (2/5) 0) (dec_llh (2/5) 1) (total_kl dec_skel (dec_st (2/5))). intros a b c.
  f_equal. f_equal; [|field]. f_equal; [f_equal; field|]. do 3 f_equal. field.
Qed.

Print Assumptions C180_round.
Print Assumptions C180_loop.
Print Assumptions C180_equal_lengths.
Print Assumptions C180_lower_bound_refuted.
Print Assumptions C180_one_state.
Print Assumptions C180_decrease_refuted.
