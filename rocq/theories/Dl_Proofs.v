(** Proofs about Dl_Model.v. *)
From Coq Require Import Reals List Arith Bool Lia Lra Permutation ZArith FunctionalExtensionality.
From Verif Require Import Prelude Vec Edit_Model Edit_Proofs Dec_Model Dec_Proofs Opt_Model Opt_Spec Opt_Proofs Opt_Pipe.
From Verif Require Import Lgamma FB_Model FB_Spec FB_Proofs Set_Model Set_Spec Set_Proofs
  HMM_Model HMM_Spec HMM_Proofs HMM_Props Dist_Model Dist_Spec Dist_Proofs NG_Proofs KL_Proofs Dist_Props Mat NW_Model NW_Spec NW_Proofs NW_KL NW_Props
  SB_Model SB_Spec SB_Proofs SB_Props Sk_Model Sk_Spec Sk_Proofs Sk_Props
  Vt_Model Vt_Spec Vt_Proofs Vt_Props Vl_Model Vl_Spec Vl_Proofs Vl_Props Mx_Model Mx_Spec Mx_Proofs Pw_Model Pw_Spec Pw_Proofs
  Dt_Model Dt_Spec Dt_Proofs Dl_Model Dl_Spec.
Import ListNotations.
Local Open Scope R_scope.

(** ** The groups *)
Lemma loop_groups_length wid eg : length (loop_groups wid eg) = Nat.max 1 (length eg).
Proof. destruct eg; simpl; lia. Qed.

Lemma loop_group_0 wid eg : nth 0 (loop_groups wid eg) [] = nth 0 eg [] ++ [wid].
Proof. destruct eg; reflexivity. Qed.

Lemma loop_group_S wid eg i : nth (S i) (loop_groups wid eg) [] = nth (S i) eg [].
Proof. destruct eg as [|g eg]; [destruct i|]; reflexivity. Qed.

Lemma existsb_not_in p g : ~ In p g -> existsb (Nat.eqb p) g = false.
Proof.
  intros H. destruct (existsb (Nat.eqb p) g) eqn:E; [|reflexivity]. exfalso. apply H.
  apply existsb_exists in E. destruct E as (q & Hq & Eq). apply Nat.eqb_eq in Eq. now subst q.
Qed.

Lemma group_in_concat {A} (gs : list (list A)) i x : In x (nth i gs []) -> In x (concat gs).
Proof.
  intros H. apply in_concat. destruct (nth_in_or_default i gs []) as [G|G]; [eauto|]. rewrite G in H. destruct H.
Qed.

Lemma loop_group_wid wid eg i : ~ In wid (concat eg) ->
  existsb (Nat.eqb wid) (nth i (loop_groups wid eg) []) = Nat.eqb i 0.
Proof.
  intros Hw. destruct i as [|i].
  - rewrite loop_group_0, existsb_app. cbn [existsb]. rewrite Nat.eqb_refl, orb_true_r. reflexivity.
  - rewrite loop_group_S. apply existsb_not_in. intros H. apply Hw. now apply group_in_concat in H.
Qed.

Lemma loop_group_other wid eg i p : p <> wid ->
  existsb (Nat.eqb p) (nth i (loop_groups wid eg) []) = existsb (Nat.eqb p) (nth i eg []).
Proof.
  intros Hp. destruct i as [|i]; [|now rewrite loop_group_S].
  rewrite loop_group_0, existsb_app. cbn [existsb]. destruct (Nat.eqb_spec p wid); [contradiction|].
  now rewrite !orb_false_r.
Qed.

Lemma NoDup_snoc {A} (l : list A) x : NoDup l -> ~ In x l -> NoDup (l ++ [x]).
Proof.
  intros H N. apply (Permutation_NoDup (l := x :: l)); [apply Permutation_cons_append|]. now constructor.
Qed.

Lemma loop_groups_nodup wid eg : ~ In wid (concat eg) -> Forall (@NoDup nat) eg -> Forall (@NoDup nat) (loop_groups wid eg).
Proof.
  intros Hw H. destruct H as [|g t Hg Ht]; cbn [loop_groups].
  - constructor; [|constructor]. constructor; [intros []|constructor].
  - constructor; [|exact Ht]. apply NoDup_snoc; [exact Hg|]. intros Hin. apply Hw. cbn [concat]. apply in_app_iff. now left.
Qed.

Lemma step_group_optim groups lrate saved : step_group groups saved = cur_group (the_optim groups lrate saved).
Proof. unfold step_group, cur_group, the_optim. destruct saved as [[r c]|]; reflexivity. Qed.

(** ** The dictionaries *)
Lemma dget_app_miss (d : list (nat * list R)) wid r p : p <> wid -> dget_acc (d ++ [(wid, r)]) p = dget_acc d p.
Proof.
  intros H. unfold dget_acc. induction d as [|[q v] d IH]; cbn [app dget].
  - destruct (Nat.eq_dec p wid); [contradiction|reflexivity].
  - destruct (Nat.eq_dec p q); [reflexivity|exact IH].
Qed.

Lemma dget_app_last (d : list (nat * list R)) wid r : dget_acc d wid = None -> dget_acc (d ++ [(wid, r)]) wid = Some r.
Proof.
  unfold dget_acc. induction d as [|[q v] d IH]; cbn [app dget]; intros H.
  - destruct (Nat.eq_dec wid wid); [reflexivity|congruence].
  - destruct (Nat.eq_dec wid q) as [->|]; [discriminate|]. now apply IH.
Qed.

Lemma hmm_accumulate_keys m n order c stats d p : hmm_accumulate m n order c stats = Some d ->
  ~ In p (params m) -> dget Nat.eq_dec d p = None.
Proof.
  unfold hmm_accumulate. intros E Hp. destruct (all_some _) as [resps|]; [|discriminate]. injection E as <-.
  destruct (dget Nat.eq_dec _ p) eqn:G; [|reflexivity]. exfalso. apply Hp.
  eapply accumulate_keys with (p := p). unfold dyn_accumulate in G. rewrite G. discriminate.
Qed.

Section Loop.
  Variables (enum : list nat -> list nat) (sort : list R -> list nat) (amax : nat -> (nat -> lp) -> nat) (k : kind) (D : nat)
    (scale : R) (ds : nat) (l : ploop) (skel : mset) (wid : nat).
  Hypothesis He : is_enum enum.
  Hypothesis Hscale : 0 <= scale.
  Hypothesis Hds : (0 < ds)%nat.
  Hypothesis Hnd : NoDup (params skel).
  Hypothesis Hlo : loop_ok l.
  Hypothesis Hwid : ~ In wid (params skel).

  Let K := length (pl_starts l).
  Let U (s : pwst) (x : lutt) : utt := lu_utt l (pw_trans s) x.
  Let row (s : pwst) (x : lutt) : list R := wrow (pw_weights s) (pw_counts scale l skel s x).

  Lemma loop_batch_ok s x : pw_good k D l skel s -> pw_utt_ok k D l skel s x ->
    exists b, loop_batch amax scale l (inst (forms (pw_pars s)) skel) wid (pw_weights s) (pw_trans s) x = Ok b /\
      length (b_llh b) = length (lu_stats x) /\
      dget_acc (b_acc b) wid = Some (row s x) /\
      forall p, In p (params skel) ->
        dget_acc (b_acc b) p =
          Some (concat (map (fun i => row_of p i (acc_of amax scale skel (pw_pars s) (U s x))) (seq 0 (length (pw_pars s p))))) /\
        forall i, (i < length (pw_pars s p))%nat ->
          length (row_of p i (acc_of amax scale skel (pw_pars s) (U s x))) = length (cell_form (nth i (pw_pars s p) dc)).
  Proof using Hnd Hlo Hwid.
    intros G X. destruct (batch_ok amax k D scale skel Hnd (pw_pars s) (U s x) (proj1 G) X) as (b & E & L & F).
    assert (A := pw_acc_ok amax k D scale l skel Hnd Hlo s x G X).
    unfold batch_of in E. unfold pw_acc in A. fold (U s x) in A.
    set (m := inst (forms (pw_pars s)) skel) in *.
    unfold loop_batch. fold (U s x).
    destruct (hmm_ellh amax m (u_graph (U s x)) (u_order (U s x)) (u_own (U s x)) Soft scale (u_stats (U s x))) as [[v c]|ee]; [|discriminate].
    cbn [bindr fst snd] in *.
    destruct (all_some v) as [vs|]; [|discriminate].
    destruct (hmm_accumulate m (cg_n (u_graph (U s x))) (u_order (U s x)) c (u_stats (U s x))) as [d|] eqn:Ed; [|discriminate].
    injection E as <-. cbn [b_llh b_acc] in *. eexists. split; [reflexivity|]. cbn [b_llh b_acc].
    split; [rewrite L; unfold U, lu_utt; destruct (lu_ali x) as [[? ?]|]; reflexivity|].
    assert (Hr : pw_row (pl_starts l) (pl_ends l) (pw_weights s) c = row s x) by (unfold row; congruence).
    rewrite Hr. split.
    - apply dget_app_last. rewrite dget_map_concat.
      rewrite (hmm_accumulate_keys _ _ _ _ _ _ wid Ed); [reflexivity|]. unfold m. now rewrite inst_params.
    - intros p Hp. rewrite dget_app_miss by (intros ->; contradiction). now apply F.
  Qed.

  Lemma loop_data_ok s xs : pw_good k D l skel s -> Forall (pw_utt_ok k D l skel s) xs ->
    exists bt, loop_data amax scale l (inst (forms (pw_pars s)) skel) wid (pw_weights s) (pw_trans s) xs =
        Ok (combine (seq 0 (length xs)) (map bt xs)) /\
      forall x, In x xs -> length (b_llh (bt x)) = length (lu_stats x) /\
        dget_acc (b_acc (bt x)) wid = Some (row s x) /\
        forall p, In p (params skel) ->
          dget_acc (b_acc (bt x)) p =
            Some (concat (map (fun i => row_of p i (acc_of amax scale skel (pw_pars s) (U s x))) (seq 0 (length (pw_pars s p))))) /\
          forall i, (i < length (pw_pars s p))%nat ->
            length (row_of p i (acc_of amax scale skel (pw_pars s) (U s x))) = length (cell_form (nth i (pw_pars s p) dc)).
  Proof using Hnd Hlo Hwid.
    intros G HU. set (f := loop_batch amax scale l (inst (forms (pw_pars s)) skel) wid (pw_weights s) (pw_trans s)).
    exists (fun x => match f x with Ok b => b | Err _ => no_batch end). split.
    - unfold loop_data. fold f.
      replace (mapM f xs) with (Ok (map (fun x => match f x with Ok b => b | Err _ => no_batch end) xs) : result (list batch)); [reflexivity|].
      symmetry. induction HU as [|x xs X HU IH]; [reflexivity|]. cbn [mapM map].
      destruct (loop_batch_ok s x G X) as (b & E & _). fold f in E. rewrite E. cbn [bindr]. now rewrite IH.
    - intros x Hx. destruct (loop_batch_ok s x G (proj1 (Forall_forall _ _) HU x Hx)) as (b & E & H). fold f in E. rewrite E. exact H.
  Qed.

  Lemma wrow_length s x : length (row s x) = K.
  Proof using Hlo.
    unfold row, wrow. assert (Hne := pw_counts_ne scale l skel Hlo s x). assert (L := pw_counts_length scale l skel s x).
    destruct (pw_weights s); auto. change cat_stats with cat_suff_stats. now rewrite cat_suff_stats_length.
  Qed.

  Definition lwt (xs : list lutt) : R := INR ds / INR (loop_frames xs).

  Lemma loop_round_ok eg lrate (keep : bool) xs jobs s saved :
    pw_good k D l skel s -> Forall (pw_utt_ok k D l skel s) xs -> xs <> [] -> shares xs jobs ->
    Forall (@NoDup nat) eg -> incl (concat eg) (params skel) ->
    let o := the_optim (loop_groups wid eg) lrate (if keep then saved else None) in
    let t := loop_turn eg (o_lrate o) (o_count o) in
    0 <= o_lrate o <= 1 ->
    (0 < loop_frames xs)%nat /\
    exists s', loop_round enum sort amax scale ds l skel wid eg lrate keep xs jobs (s, saved) =
      Ok (s', if keep then Some (o_lrate o, S (o_count o)) else saved) /\
    pw_step sort amax scale (lwt xs) (fst (fst t)) (snd (fst t)) (snd t) l skel xs s = Some s'.
  Proof.
    intros G HU Hne Hsp Hgn Hgi o t Hl.
    destruct (loop_data_ok s xs G HU) as (bt & Ed & Hbt).
    assert (Lb : forall x, In x xs -> b_llh (bt x) <> []).
    { intros x Hx E. destruct (Hbt x Hx) as [L _]. rewrite E in L.
      destruct (proj1 (Forall_forall _ _) HU x Hx) as (Hn & _). apply Hn.
      unfold lu_utt. destruct (lu_ali x) as [[? ?]|]; cbn [u_stats]; destruct (lu_stats x); auto; discriminate. }
    assert (Hweg : ~ In wid (concat eg)) by (intros H; now apply Hwid, Hgi).
    set (ps := params skel ++ [wid]).
    set (kl := mx_weights_kl (pw_weights s) + model_kl skel (pw_pars s)).
    set (h := loop_heap wid (length (pl_starts l)) (pw_pars s)).
    destruct (pipeline enum ds ps kl (loop_groups wid eg) lrate (if keep then saved else None) h xs bt jobs
      He Hds Hne Lb Hsp (loop_groups_nodup wid eg Hweg Hgn)) as (accs & h' & A & Eu & Hpos & Hh).
    fold o in Eu, Hh.
    assert (Hnf : list_sum (map (fun x => length (b_llh (bt x))) xs) = loop_frames xs).
    { unfold loop_frames. f_equal. apply map_ext_in. intros x Hx. apply Hbt. exact Hx. }
    rewrite Hnf in Hpos, Hh. fold (lwt xs) in Hh. split; [exact Hpos|].
    assert (Hwt : 0 <= lwt xs).
    { unfold lwt. apply Rmult_le_pos; [apply pos_INR|]. left. now apply Rinv_0_lt_compat, lt_0_INR. }
    eexists. split; [|apply (pw_step_eq sort amax k D scale l skel Hnd Hlo); auto].
    unfold loop_round. fold ps kl h. rewrite Ed. cbn [bindr]. rewrite A. cbn [bindr]. rewrite Eu. cbn [bindr fst snd].
    assert (Hc : cur_group o = nth (o_count o mod Nat.max 1 (length eg)) (loop_groups wid eg) []).
    { unfold cur_group. replace (o_groups o) with (loop_groups wid eg) by (unfold o, the_optim; destruct (if keep then saved else None); reflexivity).
      now rewrite loop_groups_length. }
    assert (Ht : snd t = nth (o_count o mod Nat.max 1 (length eg)) eg []) by reflexivity.
    assert (Hgr : forall p, In p (params skel) -> existsb (Nat.eqb p) (cur_group o) = existsb (Nat.eqb p) (snd t)).
    { intros p Hp. rewrite Hc, Ht. apply loop_group_other. intros ->. contradiction. }
    assert (Er : reload (params skel) h' (pw_pars s) = Ok (pw_npars amax scale l skel (lwt xs) (fst (fst t)) (snd t) xs s)).
    { apply reload_ok.
      - intros p Hp. assert (Hin : In p ps) by (unfold ps; apply in_app_iff; now left).
        rewrite (proj2 (Hh p _ Hin (osum_rows ps kl ds p (length (pw_pars s p))
          (fun i => length (cell_form (nth i (pw_pars s p) dc))) xs bt (fun x => acc_of amax scale skel (pw_pars s) (U s x)) Hne
          (proj2 (Forall_forall _ _) (fun x Hx => proj2 (proj2 (Hbt x Hx)) p Hp))))).
        rewrite Hgr by exact Hp.
        assert (Eh : h p = heap_of (pw_pars s) p).
        { unfold h, loop_heap. destruct (Nat.eqb_spec p wid) as [->|]; [contradiction|reflexivity]. }
        rewrite Eh, <- (map_map (U s) (acc_of amax scale skel (pw_pars s))).
        change (fst (fst t)) with (o_lrate o).
        apply (cells_round amax k D scale skel Hscale Hnd); auto; [apply G|]. now apply Forall_map.
      - intros p Hp. unfold pw_npars, apply_step. rewrite existsb_not_in; [reflexivity|].
        rewrite Ht. intros Hin. apply Hp, Hgi. now apply group_in_concat in Hin. }
    rewrite Er. cbn [bindr]. rewrite (step_group_optim _ lrate). fold o. rewrite Hc, loop_group_wid by exact Hweg.
    assert (Es : p_stats (h' wid) = mx_weights_stats (lwt xs) K (pw_weights s) (map (pw_counts scale l skel s) xs)).
    { assert (Hin : In wid ps) by (unfold ps; apply in_app_iff; right; now left).
      assert (Rw : forall x, row_of wid 0 [(wid, [row s x])] = row s x).
      { intros x. unfold row_of. cbn [dget]. destruct (Nat.eq_dec wid wid); [reflexivity|congruence]. }
      assert (Fw : Forall (fun x => dget_acc (b_acc (bt x)) wid =
            Some (concat (map (fun i => row_of wid i [(wid, [row s x])]) (seq 0 1))) /\
          forall i, (i < 1)%nat -> length (row_of wid i [(wid, [row s x])]) = K) xs).
      { apply Forall_forall. intros x Hx. split.
        - rewrite (proj1 (proj2 (Hbt x Hx))). cbn [seq map concat]. now rewrite app_nil_r, Rw.
        - intros i Hi. replace i with 0%nat by lia. rewrite Rw. apply wrow_length. }
      rewrite (proj1 (Hh wid _ Hin (osum_rows ps kl ds wid 1 (fun _ => K) xs bt (fun x => [(wid, [row s x])]) Hne Fw))).
      cbn [seq map concat]. rewrite app_nil_r, map_map.
      rewrite (map_ext _ (row s)) by exact Rw. unfold mx_weights_stats, row, wrow. destruct (pw_weights s); rewrite ?map_map; reflexivity. }
    fold K. unfold pw_next, pw_nw. rewrite Es. reflexivity.
  Qed.
End Loop.
