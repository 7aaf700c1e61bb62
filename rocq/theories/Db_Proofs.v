(** Proofs about Db_Model.v. *)
From Coq Require Import Reals List Arith Bool Lia Lra Permutation ZArith FunctionalExtensionality.
From Verif Require Import Prelude Vec Edit_Model Edit_Proofs Dec_Model Dec_Proofs Opt_Model Opt_Spec Opt_Proofs Opt_Pipe.
From Verif Require Import Lgamma FB_Model FB_Spec FB_Proofs Set_Model Set_Spec Set_Proofs
  HMM_Model HMM_Spec HMM_Proofs HMM_Props Dist_Model Dist_Spec Dist_Proofs NG_Proofs KL_Proofs Dist_Props Mat NW_Model NW_Spec NW_Proofs NW_KL NW_Props
  SB_Model SB_Spec SB_Proofs SB_Props Sk_Model Sk_Spec Sk_Proofs Sk_Props
  Vt_Model Vt_Spec Vt_Proofs Vt_Props Vl_Model Vl_Spec Vl_Proofs Vl_Props Mx_Model Mx_Spec Mx_Proofs Bg_Model Bg_Spec Bg_Proofs
  Dt_Model Dt_Spec Dt_Proofs Dl_Model Dl_Spec Dl_Proofs Db_Model.
Import ListNotations.
Local Open Scope R_scope.

Lemma as_matrix_concat K (vs : mat) : Forall (fun v => length v = K) vs -> as_matrix (length vs) K (concat vs) = vs.
Proof.
  intros H. unfold as_matrix. induction H as [|v vs Hv H IH]; [reflexivity|].
  cbn [length seq map concat Nat.mul]. rewrite skipn_O, firstn_app, Hv, Nat.sub_diag. cbn [firstn]. rewrite app_nil_r, <- Hv at 1.
  rewrite firstn_all. f_equal. rewrite <- seq_shift, map_map. rewrite <- IH at 2. apply map_ext. intros i.
  cbn [Nat.mul]. f_equal. rewrite skipn_app, skipn_all2 by lia. cbn [app]. f_equal. lia.
Qed.

Section Loop.
  Variables (enum : list nat -> list nat) (amax : nat -> (nat -> lp) -> nat) (k : kind) (D : nat)
    (scale : R) (ds : nat) (l : ploop) (skel : mset) (wid : nat).
  Hypothesis He : is_enum enum.
  Hypothesis Hscale : 0 <= scale.
  Hypothesis Hds : (0 < ds)%nat.
  Hypothesis Hnd : NoDup (params skel).
  Hypothesis Hlo : bg_loop_ok l.
  Hypothesis Hwid : ~ In wid (params skel).

  Let K := length (pl_starts l).
  Let N := length (pl_ends l).
  Let U (s : bgst) (x : lutt) : utt := lu_utt l (bg_trans s) x.
  Let rows (s : bgst) (x : lutt) : mat := set_rows (bg_set s) (bg_counts scale l skel s x).

  Lemma bg_batch_ok s x : bg_good k D l skel s -> bg_utt_ok k D l skel s x ->
    exists b, bg_batch amax scale l (inst (forms (bg_pars s)) skel) wid (bg_set s) (bg_trans s) x = Ok b /\
      length (b_llh b) = length (lu_stats x) /\
      dget_acc (b_acc b) wid = Some (concat (rows s x)) /\
      forall p, In p (params skel) ->
        dget_acc (b_acc b) p =
          Some (concat (map (fun i => row_of p i (acc_of amax scale skel (bg_pars s) (U s x))) (seq 0 (length (bg_pars s p))))) /\
        forall i, (i < length (bg_pars s p))%nat ->
          length (row_of p i (acc_of amax scale skel (bg_pars s) (U s x))) = length (cell_form (nth i (bg_pars s p) dc)).
  Proof using Hnd Hlo Hwid.
    intros G X. destruct (batch_ok amax k D scale skel Hnd (bg_pars s) (U s x) (proj1 G) (proj2 X)) as (b & E & L & F).
    assert (A := bg_acc_ok amax k D scale l skel Hnd Hlo s x G X).
    unfold batch_of in E. unfold bg_acc in A. fold (U s x) in A.
    set (m := inst (forms (bg_pars s)) skel) in *.
    unfold bg_batch. fold (U s x).
    destruct (hmm_ellh amax m (u_graph (U s x)) (u_order (U s x)) (u_own (U s x)) Soft scale (u_stats (U s x))) as [[v c]|ee]; [|discriminate].
    cbn [bindr fst snd] in *.
    destruct (all_some v) as [vs|]; [|discriminate].
    destruct (hmm_accumulate m (cg_n (u_graph (U s x))) (u_order (U s x)) c (u_stats (U s x))) as [d|] eqn:Ed; [|discriminate].
    injection E as <-. cbn [b_llh b_acc] in *.
    assert (Hr : exists trans, c_trans c = Some trans /\ bg_rows (pl_starts l) (pl_ends l) (bg_set s) trans = rows s x).
    { destruct (c_trans c) as [trans|]; [|destruct (bg_set s); discriminate]. exists trans. split; [reflexivity|]. unfold rows. congruence. }
    destruct Hr as (trans & -> & Hr). eexists. split; [reflexivity|]. cbn [b_llh b_acc].
    split; [rewrite L; unfold U, lu_utt; destruct (lu_ali x) as [[? ?]|]; reflexivity|].
    rewrite Hr. split.
    - apply dget_app_last. rewrite dget_map_concat.
      rewrite (hmm_accumulate_keys _ _ _ _ _ _ wid Ed); [reflexivity|]. unfold m. now rewrite inst_params.
    - intros p Hp. rewrite dget_app_miss by (intros ->; contradiction). now apply F.
  Qed.

  Lemma bg_data_ok s xs : bg_good k D l skel s -> Forall (bg_utt_ok k D l skel s) xs ->
    exists bt, bg_data amax scale l (inst (forms (bg_pars s)) skel) wid (bg_set s) (bg_trans s) xs =
        Ok (combine (seq 0 (length xs)) (map bt xs)) /\
      forall x, In x xs -> length (b_llh (bt x)) = length (lu_stats x) /\
        dget_acc (b_acc (bt x)) wid = Some (concat (rows s x)) /\
        forall p, In p (params skel) ->
          dget_acc (b_acc (bt x)) p =
            Some (concat (map (fun i => row_of p i (acc_of amax scale skel (bg_pars s) (U s x))) (seq 0 (length (bg_pars s p))))) /\
          forall i, (i < length (bg_pars s p))%nat ->
            length (row_of p i (acc_of amax scale skel (bg_pars s) (U s x))) = length (cell_form (nth i (bg_pars s p) dc)).
  Proof using Hnd Hlo Hwid.
    intros G HU. set (f := bg_batch amax scale l (inst (forms (bg_pars s)) skel) wid (bg_set s) (bg_trans s)).
    exists (fun x => match f x with Ok b => b | Err _ => no_batch end). split.
    - unfold bg_data. fold f.
      replace (mapM f xs) with (Ok (map (fun x => match f x with Ok b => b | Err _ => no_batch end) xs) : result (list batch)); [reflexivity|].
      symmetry. induction HU as [|x xs X HU IH]; [reflexivity|]. cbn [mapM map].
      destruct (bg_batch_ok s x G X) as (b & E & _). fold f in E. rewrite E. cbn [bindr]. now rewrite IH.
    - intros x Hx. destruct (bg_batch_ok s x G (proj1 (Forall_forall _ _) HU x Hx)) as (b & E & H). fold f in E. rewrite E. exact H.
  Qed.

  Lemma rows_ok s x : bg_good k D l skel s -> bg_utt_ok k D l skel s x ->
    length (rows s x) = N /\ Forall (fun r => length r = K) (rows s x).
  Proof using Hlo.
    intros G X. destruct (bg_counts_ok k D scale l skel s x G X) as [L F]. unfold rows, set_rows.
    destruct (bg_set s); [|split; [exact L|eapply Forall_impl; [|exact F]; now intros r [H _]]].
    split; [now rewrite map_length|]. apply Forall_map. eapply Forall_impl; [|exact F]. cbn beta. intros r [H _].
    change cat_stats with cat_suff_stats. rewrite cat_suff_stats_length; [exact H|].
    intros ->. simpl in H. assert (P := bg_K_pos l Hlo). unfold K in H. clear Hds. lia.
  Qed.

  Lemma bg_round_ok eg lrate (keep : bool) xs jobs s saved :
    bg_good k D l skel s -> Forall (bg_utt_ok k D l skel s) xs -> xs <> [] -> shares xs jobs ->
    Forall (@NoDup nat) eg -> incl (concat eg) (params skel) ->
    let o := the_optim (loop_groups wid eg) lrate (if keep then saved else None) in
    let t := loop_turn eg (o_lrate o) (o_count o) in
    0 <= o_lrate o <= 1 ->
    exists s', bg_round enum amax scale ds l skel wid eg lrate keep xs jobs (s, saved) =
      Ok (s', if keep then Some (o_lrate o, S (o_count o)) else saved) /\
    bg_step amax scale (lwt ds xs) (fst (fst t)) (snd (fst t)) (snd t) l skel xs s = Ok s'.
  Proof.
    intros G HU Hne Hsp Hgn Hgi o t Hl.
    destruct (bg_data_ok s xs G HU) as (bt & Ed & Hbt).
    assert (Lb : forall x, In x xs -> b_llh (bt x) <> []).
    { intros x Hx E. destruct (Hbt x Hx) as [L _]. rewrite E in L.
      destruct (proj1 (Forall_forall _ _) HU x Hx) as (_ & Hn & _). apply Hn.
      unfold lu_utt. destruct (lu_ali x) as [[? ?]|]; cbn [u_stats]; destruct (lu_stats x); auto; discriminate. }
    assert (Hweg : ~ In wid (concat eg)) by (intros H; now apply Hwid, Hgi).
    set (ps := params skel ++ [wid]).
    set (kl := bset_kl (bg_set s) + model_kl skel (bg_pars s)).
    set (h := loop_heap wid (length (pl_ends l) * length (pl_starts l)) (bg_pars s)).
    destruct (pipeline enum ds ps kl (loop_groups wid eg) lrate (if keep then saved else None) h xs bt jobs
      He Hds Hne Lb Hsp (loop_groups_nodup wid eg Hweg Hgn)) as (accs & h' & A & Eu & Hpos & Hh).
    fold o in Eu, Hh.
    assert (Hnf : list_sum (map (fun x => length (b_llh (bt x))) xs) = loop_frames xs).
    { unfold loop_frames. f_equal. apply map_ext_in. intros x Hx. apply Hbt. exact Hx. }
    rewrite Hnf in Hpos, Hh. fold (lwt ds xs) in Hh.
    assert (Hwt : 0 <= lwt ds xs).
    { unfold lwt. apply Rmult_le_pos; [apply pos_INR|]. left. now apply Rinv_0_lt_compat, lt_0_INR. }
    eexists. split; [|apply (bg_step_eq amax k D scale l skel Hnd Hlo); auto].
    unfold bg_round. fold ps kl h. rewrite Ed. cbn [bindr]. rewrite A. cbn [bindr]. rewrite Eu. cbn [bindr fst snd].
    assert (Hc : cur_group o = nth (o_count o mod Nat.max 1 (length eg)) (loop_groups wid eg) []).
    { unfold cur_group. replace (o_groups o) with (loop_groups wid eg) by (unfold o, the_optim; destruct (if keep then saved else None); reflexivity).
      now rewrite loop_groups_length. }
    assert (Ht : snd t = nth (o_count o mod Nat.max 1 (length eg)) eg []) by reflexivity.
    assert (Hgr : forall p, In p (params skel) -> existsb (Nat.eqb p) (cur_group o) = existsb (Nat.eqb p) (snd t)).
    { intros p Hp. rewrite Hc, Ht. apply loop_group_other. intros ->. contradiction. }
    assert (Er : reload (params skel) h' (bg_pars s) = Ok (bg_npars amax scale l skel (lwt ds xs) (fst (fst t)) (snd t) xs s)).
    { apply reload_ok.
      - intros p Hp. assert (Hin : In p ps) by (unfold ps; apply in_app_iff; now left).
        rewrite (proj2 (Hh p _ Hin (osum_rows ps kl ds p (length (bg_pars s p))
          (fun i => length (cell_form (nth i (bg_pars s p) dc))) xs bt (fun x => acc_of amax scale skel (bg_pars s) (U s x)) Hne
          (proj2 (Forall_forall _ _) (fun x Hx => proj2 (proj2 (Hbt x Hx)) p Hp))))).
        rewrite Hgr by exact Hp.
        assert (Eh : h p = heap_of (bg_pars s) p).
        { unfold h, loop_heap. destruct (Nat.eqb_spec p wid) as [->|]; [contradiction|reflexivity]. }
        rewrite Eh, <- (map_map (U s) (acc_of amax scale skel (bg_pars s))).
        change (fst (fst t)) with (o_lrate o).
        apply (cells_round amax k D scale skel Hscale Hnd); auto; [apply G|]. apply Forall_map.
        eapply Forall_impl; [|exact HU]. intros x [_ H]. exact H.
      - intros p Hp. unfold bg_npars, apply_step. rewrite existsb_not_in; [reflexivity|].
        rewrite Ht. intros Hin. apply Hp, Hgi. now apply group_in_concat in Hin. }
    rewrite Er. cbn [bindr]. rewrite (step_group_optim _ lrate). fold o. rewrite Hc, loop_group_wid by exact Hweg.
    assert (Es : as_matrix N K (p_stats (h' wid)) =
      bg_stats (lwt ds xs) N K (map (set_rows (bg_set s)) (map (bg_counts scale l skel s) xs))).
    { assert (Hin : In wid ps) by (unfold ps; apply in_app_iff; right; now left).
      assert (Rw : forall i x, row_of wid i [(wid, rows s x)] = nth i (rows s x) []).
      { intros i x. unfold row_of. cbn [dget]. destruct (Nat.eq_dec wid wid); [reflexivity|congruence]. }
      assert (Fw : Forall (fun x => dget_acc (b_acc (bt x)) wid =
            Some (concat (map (fun i => row_of wid i [(wid, rows s x)]) (seq 0 N))) /\
          forall i, (i < N)%nat -> length (row_of wid i [(wid, rows s x)]) = K) xs).
      { apply Forall_forall. intros x Hx. destruct (rows_ok s x G (proj1 (Forall_forall _ _) HU x Hx)) as [LR FR]. split.
        - rewrite (proj1 (proj2 (Hbt x Hx))). do 2 f_equal. rewrite (map_ext _ _ (fun i => Rw i x)).
          rewrite <- LR. apply list_as_map.
        - intros i Hi. rewrite Rw. apply (proj1 (Forall_forall _ _) FR). apply nth_In. lia. }
      rewrite (proj1 (Hh wid _ Hin (osum_rows ps kl ds wid N (fun _ => K) xs bt (fun x => [(wid, rows s x)]) Hne Fw))).
      rewrite vscale_concat.
      rewrite <- (seq_length N 0) at 1. rewrite <- (map_length (fun i => vscale (lwt ds xs) (colsum K (map (row_of wid i) (map (fun x => [(wid, rows s x)]) xs)))) (seq 0 N)) at 1.
      rewrite as_matrix_concat.
      - unfold bg_stats. apply map_ext. intros i. f_equal. f_equal. rewrite !map_map. apply map_ext. intros x. apply Rw.
      - apply Forall_map, Forall_forall. intros i Hi. apply in_seq in Hi. rewrite vscale_length, colsum_length; [reflexivity|].
        rewrite map_map. apply Forall_map. eapply Forall_impl; [|exact Fw]. cbn beta. intros x [_ H]. apply H. lia. }
    fold N K. rewrite Es. unfold bg_next, bg_nset. reflexivity.
  Qed.
End Loop.
