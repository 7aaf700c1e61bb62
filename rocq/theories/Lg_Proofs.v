(** Proofs about the values printed by the commands. *)
From Coq Require Import Reals String List Arith Bool Lia Lra Permutation ZArith.
From Verif Require Import Prelude Vec Edit_Model Edit_Proofs Dec_Model Dec_Proofs Opt_Model Opt_Spec Opt_Proofs Opt_Pipe.
From Verif Require Import Gibbs Lgamma FB_Model FB_Spec FB_Proofs Set_Model Set_Spec Set_Proofs
  HMM_Model HMM_Spec HMM_Proofs HMM_Props Dist_Model Dist_Spec Dist_Proofs Mat NW_Model NW_Spec
  SB_Model SB_Spec Sk_Model Sk_Spec Df_Model Pl_Model
  Vt_Model Vt_Spec Vt_Proofs Vt_Props Vl_Model Vl_Spec Vl_Proofs Vl_Props Mx_Model Mx_Spec Mx_Proofs Mx_Props Pw_Model Pw_Spec Pw_Proofs Pw_Props
  Dt_Model Dt_Spec Dt_Proofs Dt_Props Dl_Model Dl_Spec Dl_Proofs Dl_Props Lg_Model Lg_Spec.
Import ListNotations.
Local Open Scope R_scope.

(** ** The value of a sum of objectives *)
Lemma vplus_val a b : val_of (vplus a b) = val_of a + val_of b.
Proof. destruct a, b; reflexivity. Qed.

Lemma oval_val es v : oval es = Some v -> val_of v = rsum (map (fun e => val_of (e_value e)) es).
Proof.
  revert v. induction es as [|e es IH]; intros v H; [discriminate|]. cbn [oval fold_right] in H. fold (oval es) in H.
  cbn [map]. unfold rsum. cbn [fold_right]. fold (rsum (map (fun e => val_of (e_value e)) es)).
  destruct (oval es) as [w|] eqn:E.
  - injection H as <-. rewrite vplus_val, (IH w eq_refl). reflexivity.
  - injection H as <-. destruct es as [|e' es]; [unfold rsum; simpl; lra|].
    cbn [oval fold_right] in E. fold (oval es) in E. destruct (oval es); discriminate.
Qed.

Lemma update_loop_count enum accs : forall e0 n0 e n,
  foldM (update_loop enum) accs (Some (e0, n0)) = Ok (Some (e, n)) -> n = (n0 + list_sum (map snd accs))%nat.
Proof.
  induction accs as [|[a m] accs IH]; intros e1 n1 e n H; cbn [foldM map list_sum fold_right] in *.
  - injection H as _ <-. simpl. lia.
  - cbn [update_loop fst snd] in H. destruct (elbo_add enum e1 a) as [e'|x]; cbn [bindr] in H; [|discriminate].
    rewrite (IH _ _ _ _ H). unfold list_sum. cbn [fold_right snd]. lia.
Qed.

Lemma update_count enum accs e n :
  foldM (update_loop enum) accs None = Ok (Some (e, n)) -> n = list_sum (map snd accs).
Proof.
  destruct accs as [|[a m] accs]; intros H; [discriminate|]. cbn [foldM update_loop bindr] in H.
  rewrite (update_loop_count enum accs a m e n H). reflexivity.
Qed.

Lemma rsum_perm (l1 l2 : list R) : Permutation l1 l2 -> rsum l1 = rsum l2.
Proof. unfold rsum. induction 1; cbn [fold_right]; lra. Qed.

(** Mean over the utterances, minus the divergence per frame *)
Definition mvalue {A} (ds : nat) (kl : R) (bt : A -> batch) (xs : list A) : R :=
  mean (map (fun x => rsum (b_llh (bt x)) / INR (length (b_llh (bt x)))) xs) - kl / INR ds.

Lemma inst_sum {A} ps kl ds (bt : A -> batch) xs : (0 < ds)%nat -> xs <> [] ->
  rsum (map (fun e => val_of (e_value e)) (map (fun x => Opt_Pipe.inst ps kl ds (bt x)) xs)) / INR (length xs * ds) =
  mvalue ds kl bt xs.
Proof.
  intros Hd Hne. unfold mvalue, mean. rewrite map_length, mult_INR, map_map.
  assert (H1 : INR ds <> 0) by (apply not_0_INR; lia).
  assert (H2 : INR (length xs) <> 0) by (apply not_0_INR; destruct xs; [congruence|discriminate]).
  cbn [Opt_Pipe.inst e_value val_of].
  assert (G : rsum (map (fun x => INR ds / INR (length (b_llh (bt x))) * rsum (b_llh (bt x)) - kl) xs) =
    INR ds * rsum (map (fun x => rsum (b_llh (bt x)) / INR (length (b_llh (bt x)))) xs) - INR (length xs) * kl).
  { clear H2 Hne. induction xs as [|x xs IH]; [unfold rsum; simpl; lra|]. cbn [map length]. rewrite S_INR.
    unfold rsum in *. cbn [fold_right]. rewrite IH. unfold Rdiv. lra. }
  rewrite G. field. auto.
Qed.

(** ** The two commands, whatever the model *)
Lemma reports {A} enum ds ps kl groups lrate saved h (d : A) (xs : list A) (bt : A -> batch) jobs :
  is_enum enum -> (0 < ds)%nat -> xs <> [] -> (forall x, In x xs -> b_llh (bt x) <> []) ->
  Permutation (concat jobs) (seq 0 (length xs)) -> Forall (@NoDup nat) groups ->
  exists accs,
    mapM (accumulate_main enum ps kl ds (combine (seq 0 (length xs)) (map bt xs))) jobs = Ok accs /\
    update_log enum ps groups lrate saved h accs = Ok (mvalue ds kl bt xs) /\
    map (message ds) accs =
      map (fun j => match j with [] => Err ZeroDivisionError | _ => Ok (mvalue ds kl bt (of_job d xs j)) end) jobs.
Proof.
  intros He Hds Hne Lb Hsp Hgn.
  destruct (pipeline enum ds ps kl groups lrate saved h xs bt jobs He Hds Hne Lb Hsp Hgn) as (accs & h' & EA & EU & _).
  set (data := combine (seq 0 (length xs)) (map bt xs)) in *.
  assert (Hget : forall i, (i < length xs)%nat -> dget Nat.eq_dec data i = Some (bt (nth i xs d))).
  { intros i Hi. unfold data. rewrite <- (map_length bt xs) at 1. change i with (0 + i)%nat at 1.
    rewrite (dget_combine (map bt xs) 0 i) by (now rewrite map_length). apply map_nth_error. now apply nth_error_nth'. }
  assert (Hrange : forall j i, In j jobs -> In i j -> (i < length xs)%nat).
  { intros j i Hj Hi. assert (H : In i (seq 0 (length xs))).
    { apply (Permutation_in i Hsp). apply in_concat. eauto. }
    apply in_seq in H. lia. }
  assert (Hknown : Forall (Forall (known data)) jobs).
  { apply Forall_forall. intros j Hj. apply Forall_forall. intros i Hi. exists (bt (nth i xs d)).
    split; [apply Hget; eauto|]. apply Lb, nth_In. eauto. }
  assert (Hub : forall j, In j jobs -> map (fun x => Opt_Pipe.inst ps kl ds (utt_batch data x)) j =
    map (fun x => Opt_Pipe.inst ps kl ds (bt x)) (of_job d xs j)).
  { intros j Hj. unfold of_job. rewrite map_map. apply map_ext_in. intros i Hi. unfold utt_batch.
    rewrite Hget; [reflexivity|eauto]. }
  assert (Hcne : concat jobs <> []).
  { intros E. rewrite E in Hsp. apply Permutation_nil in Hsp. destruct xs; [congruence|discriminate]. }
  exists accs. split; [exact EA|].
  assert (Hjobs : forall js accs0, incl js jobs -> mapM (accumulate_main enum ps kl ds data) js = Ok accs0 ->
    map (message ds) accs0 =
      map (fun j => match j with [] => Err ZeroDivisionError | _ => Ok (mvalue ds kl bt (of_job d xs j)) end) js /\
    list_sum (map snd accs0) = length (concat js)).
  { induction js as [|j js IH]; intros accs0 Hin E; cbn [mapM] in E; [injection E as <-; split; reflexivity|].
    destruct (accumulate_ok enum ps kl ds data j He Hds) as (e & E1 & (V & _) & Eds).
    { exact (proj1 (Forall_forall _ _) Hknown j (Hin j (or_introl eq_refl))). }
    rewrite E1 in E. cbn [bindr] in E. destruct (mapM _ js) as [accs1|] eqn:E2; cbn [bindr] in E; [|discriminate].
    injection E as <-. destruct (IH accs1 (fun x Hx => Hin x (or_intror Hx)) eq_refl) as [I1 I2]. cbn [map].
    split; [|cbn [concat]; unfold list_sum in *; cbn [fold_right snd]; rewrite I2, app_length; reflexivity]. f_equal; [|exact I1].
    unfold message. cbn [snd fst]. destruct j as [|i j]; [reflexivity|].
    destruct (Nat.eqb_spec (length (i :: j) * ds) 0) as [Z|_]; [simpl in Z; lia|]. f_equal.
    rewrite (oval_val _ _ V), (Hub (i :: j)) by (apply Hin; now left).
    rewrite <- (inst_sum ps kl ds bt (of_job d xs (i :: j)) Hds) by discriminate. f_equal.
    - cbn [map]. unfold rsum. cbn [fold_right e_empty e_value val_of]. apply Rplus_0_l.
    - unfold of_job. now rewrite map_length. }
  destruct (Hjobs jobs accs (fun x Hx => Hx) EA) as [H1 H2]. split; [|exact H1].
  unfold update_log. rewrite EU. cbn [bindr].
  destruct (update_elbo enum ps kl ds data jobs He Hds Hknown Hcne) as (accs' & e & nn & B1 & B & (V & _) & Eds).
  rewrite EA in B1. injection B1 as <-. rewrite B. cbn [bindr fst]. rewrite Eds.
  rewrite (update_count enum accs e nn B), H2, (Permutation_length Hsp), seq_length.
  unfold message. cbn [fst snd].
  destruct (Nat.eqb_spec (length xs * ds) 0) as [Z|_]; [destruct xs; [congruence|simpl in Z; lia]|]. f_equal.
  rewrite (oval_val _ _ V), <- (inst_sum ps kl ds bt xs Hds Hne). f_equal.
  apply rsum_perm. apply Permutation_map. eapply Permutation_trans; [apply Permutation_map; exact Hsp|].
  replace (map (fun x => Opt_Pipe.inst ps kl ds (utt_batch data x)) (seq 0 (length xs))) with
    (map (fun x => Opt_Pipe.inst ps kl ds (bt x)) xs); [apply Permutation_refl|].
  rewrite <- (map_nth_seq (fun x => Opt_Pipe.inst ps kl ds (bt x)) xs d). apply map_ext_in. intros i Hi.
  apply in_seq in Hi. unfold utt_batch. rewrite Hget by lia. reflexivity.
Qed.

(** ** The batches of an HMM *)
Lemma all_some_map {A} (f : A -> R) l : all_some (map (fun x => Some (f x)) l) = Some (map f l).
Proof. induction l as [|x l IH]; [reflexivity|]. cbn [map all_some]. now rewrite IH. Qed.

Lemma batch_llh amax k D scale skel st u b : NoDup (params skel) -> typed k D st skel -> utt_ok k D skel u ->
  batch_of amax scale (inst (forms st) skel) u = Ok b ->
  rsum (b_llh b) = utt_llh scale skel st u.
Proof.
  intros Hnd T U E. assert (Hev := utt_evidence k D scale skel st u T U).
  destruct U as (Hne & (xs & Exs & Hxs) & Ho & Hn & _).
  set (m := inst (forms st) skel) in *. assert (Hw : wf m) by (now apply (inst_wf k D)).
  assert (Ho' : forall o, In o (u_order u) -> (o < size m)%nat).
  { intros o Hin. unfold m. rewrite (inst_size k D); auto. }
  destruct (C80_defined amax m (u_graph u) (u_order u) (u_own u) scale (u_stats u) Ho' Hne) as ([v c] & E').
  assert (Ev := C80_value amax m (u_graph u) (u_order u) (u_own u) scale (u_stats u) v c Hw Ho' Hn Hev E').
  unfold batch_of in E. rewrite E' in E. cbn [bindr fst snd] in E. rewrite Ev, all_some_map in E.
  destruct (hmm_accumulate _ _ _ _ _); [|discriminate]. injection E as <-. cbn [b_llh].
  unfold utt_llh, path_loglik. rewrite expect_sumf. reflexivity.
Qed.

Definition the_batch amax scale skel st u : batch :=
  match batch_of amax scale (inst (forms st) skel) u with Ok b => b | Err _ => no_batch end.

Lemma hmm_data amax k D scale skel st utts : NoDup (params skel) -> typed k D st skel -> Forall (utt_ok k D skel) utts ->
  data_of amax scale (inst (forms st) skel) utts =
    Ok (combine (seq 0 (length utts)) (map (the_batch amax scale skel st) utts)) /\
  forall u, In u utts -> length (b_llh (the_batch amax scale skel st u)) = length (u_stats u) /\
    rsum (b_llh (the_batch amax scale skel st u)) = utt_llh scale skel st u.
Proof.
  intros Hnd T HU. split.
  - unfold data_of.
    replace (mapM (batch_of amax scale (inst (forms st) skel)) utts) with
      (Ok (map (the_batch amax scale skel st) utts) : result (list batch)); [reflexivity|].
    symmetry. induction HU as [|u us U HU IH]; [reflexivity|]. cbn [mapM map]. unfold the_batch at 1.
    destruct (batch_ok amax k D scale skel Hnd st u T U) as (b & -> & _). cbn [bindr]. now rewrite IH.
  - intros u Hu. assert (U := proj1 (Forall_forall _ _) HU u Hu). unfold the_batch.
    destruct (batch_ok amax k D scale skel Hnd st u T U) as (b & E & L & _). rewrite E. split; [exact L|].
    now apply (batch_llh amax k D scale skel st u b Hnd T U).
Qed.

Lemma mvalue_reported scale ds skel kl st (bt : utt -> batch) utts :
  (forall u, In u utts -> length (b_llh (bt u)) = length (u_stats u) /\ rsum (b_llh (bt u)) = utt_llh scale skel st u) ->
  mvalue ds kl bt utts = reported scale ds skel kl st utts.
Proof.
  intros H. unfold mvalue, reported. do 2 f_equal. apply map_ext_in. intros u Hu. destruct (H u Hu) as [-> ->]. reflexivity.
Qed.

Lemma of_job_in {A} (d : A) xs j : (forall i, In i j -> (i < length xs)%nat) -> forall x, In x (of_job d xs j) -> In x xs.
Proof.
  intros H x Hx. unfold of_job in Hx. apply in_map_iff in Hx. destruct Hx as (i & <- & Hi). apply nth_In. auto.
Qed.

(** ** The batches of a phone-loop *)
Definition the_lbatch amax scale l skel wid (s : pwst) (x : lutt) : batch :=
  match loop_batch amax scale l (inst (forms (pw_pars s)) skel) wid (pw_weights s) (pw_trans s) x with
  | Ok b => b | Err _ => no_batch end.

Lemma loop_batch_llh amax scale l m wid w tr x b :
  loop_batch amax scale l m wid w tr x = Ok b ->
  exists b', batch_of amax scale m (lu_utt l tr x) = Ok b' /\ b_llh b' = b_llh b.
Proof.
  unfold loop_batch, batch_of. cbv zeta. destruct (hmm_ellh _ _ _ _ _ _ _ _) as [[v c]|e]; cbn [bindr fst snd]; [|discriminate].
  destruct (all_some v); [|discriminate]. destruct (hmm_accumulate _ _ _ _ _); [|discriminate]. intros H. injection H as <-.
  eexists. split; [reflexivity|]. reflexivity.
Qed.

Lemma loop_values amax k D scale l skel wid s xs : NoDup (params skel) -> loop_ok l -> ~ In wid (params skel) ->
  pw_good k D l skel s -> Forall (pw_utt_ok k D l skel s) xs ->
  loop_data amax scale l (inst (forms (pw_pars s)) skel) wid (pw_weights s) (pw_trans s) xs =
    Ok (combine (seq 0 (length xs)) (map (the_lbatch amax scale l skel wid s) xs)) /\
  forall x, In x xs -> length (b_llh (the_lbatch amax scale l skel wid s x)) = length (lu_stats x) /\
    rsum (b_llh (the_lbatch amax scale l skel wid s x)) = utt_llh scale skel (pw_pars s) (lu_utt l (pw_trans s) x).
Proof.
  intros Hnd Hlo Hwid G HU. split.
  - unfold loop_data.
    replace (mapM (loop_batch amax scale l (inst (forms (pw_pars s)) skel) wid (pw_weights s) (pw_trans s)) xs) with
      (Ok (map (the_lbatch amax scale l skel wid s) xs) : result (list batch)); [reflexivity|].
    symmetry. induction HU as [|x xs X HU IH]; [reflexivity|]. cbn [mapM map]. unfold the_lbatch at 1.
    destruct (loop_batch_ok amax k D scale l skel wid Hnd Hlo Hwid s x G X) as (b & -> & _). cbn [bindr]. now rewrite IH.
  - intros x Hx. assert (X := proj1 (Forall_forall _ _) HU x Hx). unfold the_lbatch.
    destruct (loop_batch_ok amax k D scale l skel wid Hnd Hlo Hwid s x G X) as (b & E & L & _). rewrite E. split; [exact L|].
    destruct (loop_batch_llh _ _ _ _ _ _ _ _ _ E) as (b' & E' & <-).
    now apply (batch_llh amax k D scale skel (pw_pars s) (lu_utt l (pw_trans s) x) b' Hnd (proj1 G) X).
Qed.

(** ** Graphs of one state *)
Lemma paths_one T : paths 1 T = [repeat 0%nat T].
Proof. induction T as [|T IH]; [reflexivity|]. cbn [paths seq flat_map repeat]. rewrite IH. reflexivity. Qed.

Section OneState.
  Variables (g : cgraph) (scale : R) (es : list em).
  Hypothesis Hg : one_state g.

  Lemma one_tail stats : tail_prob g 0 (frames scale es stats) (repeat 0%nat (length stats)) =
    exp (sumf (fun x => scale * em_llh x (nth 0 es e0)) stats).
  Proof using Hg.
    destruct Hg as (Hn & Hi & Ht & Hf). induction stats as [|x stats IH].
    - cbn. rewrite Hf. reflexivity.
    - cbn [length repeat frames map tail_prob]. fold (frames scale es stats). rewrite IH, Ht. cbn [ex].
      rewrite sumf_cons, exp_plus, exp_0. ring.
  Qed.

  Lemma one_prob stats : stats <> [] -> path_prob g (frames scale es stats) (repeat 0%nat (length stats)) =
    exp (sumf (fun x => scale * em_llh x (nth 0 es e0)) stats).
  Proof using Hg.
    intros Hne. destruct stats as [|x stats]; [congruence|]. cbn [length repeat frames map path_prob].
    fold (frames scale es stats). rewrite one_tail. destruct Hg as (Hn & Hi & Ht & Hf). rewrite Hi. cbn [ex].
    rewrite sumf_cons, exp_plus, exp_0. ring.
  Qed.

  Lemma one_evidence stats : stats <> [] ->
    evidence g (frames scale es stats) = exp (sumf (fun x => scale * em_llh x (nth 0 es e0)) stats).
  Proof using Hg.
    intros Hne. unfold evidence. rewrite (proj1 Hg), frames_length, paths_one, sumf_cons, one_prob by auto.
    unfold sumf, rsum. simpl. ring.
  Qed.

  Lemma one_expect stats f : stats <> [] ->
    expect g (frames scale es stats) f = f (repeat 0%nat (length stats)).
  Proof using Hg.
    intros Hne. unfold expect. rewrite (proj1 Hg), frames_length, paths_one, sumf_cons, one_prob, one_evidence by auto.
    unfold sumf, rsum. simpl. field. apply Rgt_not_eq, exp_pos.
  Qed.
End OneState.

Lemma nth_repeat0 T t : nth t (repeat 0%nat T) 0%nat = 0%nat.
Proof. revert t. induction T as [|T IH]; intros [|t]; simpl; auto. Qed.

Lemma sumf_nth (f : list R -> R) (stats : mat) : sumf (fun t => f (nth t stats [])) (seq 0 (length stats)) = sumf f stats.
Proof. unfold sumf. now rewrite (map_nth_seq f stats []). Qed.

Lemma one_llh scale skel st u : one_state (u_graph u) -> u_stats u <> [] ->
  utt_llh scale skel st u = sumf (fun x => scale * em_llh x (nth 0 (utt_ems skel st u) e0)) (u_stats u) /\
  ln (evidence (u_graph u) (frames scale (utt_ems skel st u) (u_stats u))) = utt_llh scale skel st u.
Proof.
  intros Hg Hne.
  assert (E : utt_llh scale skel st u = sumf (fun x => scale * em_llh x (nth 0 (utt_ems skel st u) e0)) (u_stats u)).
  { unfold utt_llh. rewrite one_expect by auto. unfold path_loglik.
    rewrite <- (sumf_nth (fun x => scale * em_llh x (nth 0 (utt_ems skel st u) e0)) (u_stats u)).
    apply sumf_ext. intros t _. now rewrite nth_repeat0. }
  split; [exact E|]. rewrite one_evidence, ln_exp by auto. now symmetry.
Qed.

(** The statistics of the density of the only state *)
Lemma one_stats scale skel st u q i : one_state (u_graph u) -> u_stats u <> [] ->
  urow scale skel st u q i = scale * sumf (fun x => em_acc q x i (nth 0 (utt_ems skel st u) e0) 1) (u_stats u).
Proof.
  intros Hg Hne. unfold urow. rewrite one_expect by auto. f_equal. unfold path_stats.
  rewrite <- (sumf_nth (fun x => em_acc q x i (nth 0 (utt_ems skel st u) e0) 1) (u_stats u)).
  apply sumf_ext. intros t _. now rewrite nth_repeat0.
Qed.
