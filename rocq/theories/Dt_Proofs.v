(** Proofs about Dt_Model.v. *)
From Coq Require Import Reals List Arith Bool Lia Lra Permutation ZArith FunctionalExtensionality.
From Verif Require Import Prelude Vec Edit_Model Edit_Proofs Dec_Model Dec_Proofs Opt_Model Opt_Spec Opt_Proofs Opt_Pipe.
From Verif Require Import Lgamma FB_Model FB_Spec FB_Proofs Set_Model Set_Spec Set_Proofs
  HMM_Model HMM_Spec HMM_Proofs HMM_Props Dist_Model Dist_Spec Dist_Proofs NG_Proofs KL_Proofs Dist_Props Mat NW_Model NW_Spec NW_Proofs NW_KL NW_Props
  Vt_Model Vt_Spec Vt_Proofs Vt_Props Dt_Model Dt_Spec.
Import ListNotations.
Local Open Scope R_scope.

(** ** Matrices as vectors *)
Lemma map2_concat {A B C I} (f : A -> B -> C) (F : I -> list A) (G : I -> list B) l :
  (forall i, In i l -> length (F i) = length (G i)) ->
  map2 f (concat (map F l)) (concat (map G l)) = concat (map (fun i => map2 f (F i) (G i)) l).
Proof.
  induction l as [|i l IH]; intros H; [reflexivity|]. cbn [map concat].
  rewrite map2_app by (apply H; now left). f_equal. apply IH. intros j Hj. apply H. now right.
Qed.

Lemma vscale_concat {I} w (F : I -> list R) l :
  vscale w (concat (map F l)) = concat (map (fun i => vscale w (F i)) l).
Proof. unfold vscale. rewrite concat_map, map_map. reflexivity. Qed.

Lemma zeros_concat {I} (F : I -> list R) l :
  vzeros (length (concat (map F l))) = concat (map (fun i => vzeros (length (F i))) l).
Proof.
  induction l as [|i l IH]; [reflexivity|]. cbn [map concat]. rewrite <- IH. unfold vzeros.
  now rewrite app_length, repeat_app.
Qed.

Lemma list_as_map {A} (l : list A) d : l = map (fun i => nth i l d) (seq 0 (length l)).
Proof. symmetry. etransitivity; [apply (map_nth_seq (fun x => x))|apply map_id]. Qed.

Lemma vadd_zeros v : vadd v (vzeros (length v)) = v.
Proof.
  apply vec_ext; rewrite vadd_length; rewrite ?vzeros_length; auto. intros k Hk.
  rewrite vadd_nth, vzeros_nth by (rewrite ?vzeros_length; auto). ring.
Qed.

Lemma colsum_one n v : length v = n -> colsum n [v] = v.
Proof. intros <-. apply vadd_zeros. Qed.

(** ** One component *)
Definition proper (k : kind) (D : nat) (c : cell) : Prop :=
  leaf_cell k D c \/ exists n, weights_cell n c.

Lemma dir_ok_ne n a : dir_ok n a -> a <> [].
Proof. intros (H1 & H2 & _) ->. simpl in H1. lia. Qed.

Lemma nw_nat_or D p : nw_ok D p -> exists n, nw_nat p = Ok n /\ length n = (D + (D * D + 2))%nat /\ nw_from_nat n = Ok p.
Proof.
  intros O. destruct (nw_ok_npar D p O) as (n & P & E & _ & _ & N).
  exists n. split; [exact E|]. split; [apply N|]. destruct O as (H1 & H2 & _ & H4 & _).
  apply (nw_roundtrip D); auto. lra.
Qed.

Lemma proper_lengths k D c : proper k D c ->
  length (cell_prior c) = length (cell_form c) /\ length (cell_post c) = length (cell_form c).
Proof.
  intros [W|(n & W)].
  - rewrite (leaf_form_length k D c W).
    destruct k, c as [p q|p q|p q|p q]; simpl in W; try tauto; destruct W as [Wp Wq];
      cbn [cell_prior cell_post suff_dim].
    + split; apply ng_nat_length; apply Wp || apply Wq.
    + rewrite !ig_nat_length. destruct Wp as (-> & _), Wq as (-> & _). auto.
    + destruct (nw_nat_or D p Wp) as (n1 & -> & L1 & _), (nw_nat_or D q Wq) as (n2 & -> & L2 & _). auto.
    + rewrite !dir_nat_length by (eapply dir_ok_ne; eauto). destruct Wp as (-> & _), Wq as (-> & _). auto.
  - rewrite (weights_form_length n c W). destruct c as [p q|p q|p q|p q]; simpl in W; try tauto.
    destruct W as [Wp Wq]. cbn [cell_prior cell_post].
    rewrite !dir_nat_length by (eapply dir_ok_ne; eauto). destruct Wp as (-> & _), Wq as (-> & _). auto.
Qed.

Lemma cell_set_same k D c : proper k D c -> cell_set c (cell_post c) = Ok c.
Proof.
  intros [W|(n & W)].
  - destruct k, c as [p q|p q|p q|p q]; simpl in W; try tauto; destruct W as [Wp Wq];
      cbn [cell_set cell_post].
    + destruct Wq as (H1 & H2 & H3 & _). rewrite (ng_roundtrip D); auto. lra.
    + destruct Wq as (H1 & H2 & _). rewrite (ig_roundtrip D); auto. lra.
    + destruct (nw_nat_or D q Wq) as (n2 & -> & L2 & E). cbn [or_default]. rewrite E. reflexivity.
    + rewrite dir_from_nat_dir_nat by (eapply dir_ok_ne; eauto). reflexivity.
  - destruct c as [p q|p q|p q|p q]; simpl in W; try tauto. destruct W as [Wp Wq]. cbn [cell_set cell_post].
    rewrite dir_from_nat_dir_nat by (eapply dir_ok_ne; eauto). reflexivity.
Qed.

(** what the optimiser computes for a component *)
Definition moved (lrate : R) (prior post stats : list R) : list R :=
  vadd post (vscale lrate (vsub (vadd prior stats) post)).

Lemma cell_set_moved k D lrate c data : proper k D c -> 0 <= lrate <= 1 ->
  Forall (fun gx => 0 <= fst gx /\ fits D c (snd gx)) data ->
  let stats := wstats (length (cell_form c)) (cell_fn c) data in
  cell_set c (moved lrate (cell_prior c) (cell_post c) stats) = Ok (cell_update lrate stats c).
Proof.
  intros P Hl Hd stats. unfold moved. destruct c as [p q|p q|p q|p q]; try reflexivity.
  destruct P as [W|(n & [])].
  assert (Lf := leaf_form_length k D _ W). destruct k; simpl in W; try tauto. destruct W as [Wp Wq].
  destruct (fits_dim D _ data Hd) as (Hw & Hx).
  destruct (nw_step D lrate p q data Wp Wq Hl Hx Hw) as (q' & E & O).
  unfold stats. rewrite Lf. cbn [cell_set cell_prior cell_post cell_update cell_fn suff_dim].
  rewrite E. unfold nw_update in E.
  destruct (nw_nat p) as [np|]; [|discriminate]. destruct (nw_nat q) as [nq|]; [|discriminate].
  cbn [bindr or_default] in *. rewrite E. reflexivity.
Qed.

(** ** The components of a parameter *)
Lemma cells_set_ok cs : forall cs' vs, length vs = length cs -> length cs' = length cs ->
  (forall i, (i < length cs)%nat -> length (nth i vs []) = length (cell_post (nth i cs dc)) /\
     cell_set (nth i cs dc) (nth i vs []) = Ok (nth i cs' dc)) ->
  cells_set cs (concat vs) = Ok cs'.
Proof.
  induction cs as [|c cs IH]; intros [|c' cs'] [|v vs] L1 L2 H; try discriminate; [reflexivity|].
  cbn [concat cells_set]. destruct (H 0%nat) as [H1 H2]; [simpl; lia|]. cbn [nth] in H1, H2.
  rewrite <- H1, firstn_app, Nat.sub_diag, firstn_all, app_nil_r, H2. cbn [bindr].
  rewrite skipn_app, Nat.sub_diag, skipn_all. cbn [skipn app].
  rewrite (IH cs' vs); [reflexivity|auto|auto|]. intros i Hi. apply (H (S i)). simpl. lia.
Qed.

Lemma new_nparams_blocks {I} lrate (l : list I) (P Q S : I -> list R) q :
  p_prior q = concat (map P l) -> p_post q = concat (map Q l) -> p_stats q = concat (map S l) ->
  (forall i, In i l -> length (P i) = length (Q i) /\ length (S i) = length (Q i)) ->
  new_nparams lrate q = concat (map (fun i => moved lrate (P i) (Q i) (S i)) l).
Proof.
  intros E1 E2 E3 H. unfold new_nparams, vadd, vsub. rewrite E1, E2, E3.
  rewrite (map2_concat Rplus P S) by (intros i Hi; destruct (H i Hi); congruence).
  rewrite (map2_concat Rminus _ Q).
  2:{ intros i Hi. destruct (H i Hi) as [A B]. rewrite map2_length. lia. }
  rewrite vscale_concat, (map2_concat Rplus Q).
  2:{ intros i Hi. destruct (H i Hi) as [A B]. rewrite vscale_length, !map2_length. lia. }
  reflexivity.
Qed.

(** ** The optimiser step of the update command *)
Definition the_optim (groups : list (list nat)) (lrate : R) (saved : option (R * nat)) : optim :=
  match saved with None => new_optim groups lrate | Some s => load_state_dict (new_optim groups lrate) s end.

Lemma update_result enum ps groups lrate saved h accs es e n : is_enum enum ->
  foldM (update_loop enum) accs None = Ok (Some (e, n)) ->
  sum_content es e -> (exists r, e_value e = VTensor r) -> (0 < e_mb e)%nat ->
  let o := the_optim groups lrate saved in
  exists h', update_main enum ps groups lrate saved h accs = Ok (h', (o_lrate o, Datatypes.S (o_count o))) /\
  forall p s, In p ps -> NoDup (cur_group o) -> osum p es = Some s ->
    p_stats (h' p) = vscale (INR (e_ds e) / INR (e_mb e)) s /\
    p_post (h' p) =
      if existsb (Nat.eqb p) (cur_group o)
      then new_nparams (o_lrate o) (set_stats (h p) (vscale (INR (e_ds e) / INR (e_mb e)) s))
      else p_post (h p).
Proof.
  intros He Ef (C1 & C2 & C3 & C4 & C5) [r Hr] Hmb o.
  assert (Hok : exists hb, Opt_Model.backward enum true (sync e ps) (init_step o h) = Ok hb).
  { unfold Opt_Model.backward. cbn [sync e_value e_mb]. rewrite Hr.
    destruct (Nat.eqb_spec (e_mb e) 0); [lia|eauto]. }
  destruct Hok as [hb Hb].
  pose proof (step_heap o hb []) as S1. pose proof (step_optim o hb []) as T1.
  destruct (step (o, hb, [])) as [[o1 h1] l1] eqn:St. cbn [fst snd] in S1, T1.
  exists h1. split.
  { unfold update_main. fold (the_optim groups lrate saved). fold o. rewrite Ef. cbn [bindr].
    rewrite Hb. cbn [bindr]. rewrite St, T1. reflexivity. }
  intros p s Hp Hnd Hos. rewrite S1.
  pose proof (backward_spec enum true (sync e ps) _ hb p He (NoDup_nodup _ _) Hb) as B.
  cbn [sync e_params e_acc e_ds e_mb] in B.
  destruct (in_dec Nat.eq_dec p (nodup Nat.eq_dec ps)) as [_|N]; [|exfalso; apply N; now apply nodup_In].
  rewrite C2, init_step_spec, Hos in B. cbn [opt_add] in B.
  split.
  { assert (Hq : forall n q, p_stats (iter n (ngu (o_lrate o)) q) = p_stats q).
    { induction n0 as [|n0 IH]; intros q; [reflexivity|]. cbn [iter]. apply IH. }
    rewrite Hq, B. reflexivity. }
  destruct (existsb (Nat.eqb p) (cur_group o)) eqn:Eg.
  - apply existsb_exists in Eg. destruct Eg as (q & Hq' & Eq). apply Nat.eqb_eq in Eq. subst q.
    assert (Ec : count_occ Nat.eq_dec (cur_group o) p = 1%nat).
    { apply Nat.le_antisymm; [now apply NoDup_count_occ|]. now apply count_occ_In. }
    rewrite Ec. cbn [iter ngu set_post p_post]. rewrite B.
    destruct (in_dec Nat.eq_dec p (concat (o_groups o))) as [_|N]; [reflexivity|].
    exfalso. apply N. apply in_concat. exists (cur_group o). split; [|exact Hq'].
    unfold cur_group in Hq' |- *. apply nth_In. destruct (o_groups o) as [|g gs] eqn:E.
    + rewrite nth_mod_nil in Hq'. destruct Hq'.
    + apply Nat.mod_upper_bound. simpl. lia.
  - assert (Ec : count_occ Nat.eq_dec (cur_group o) p = 0%nat).
    { apply count_occ_not_In. intros Hin. assert (existsb (Nat.eqb p) (cur_group o) = true); [|congruence].
      apply existsb_exists. exists p. split; [exact Hin|apply Nat.eqb_refl]. }
    rewrite Ec. cbn [iter]. rewrite B.
    destruct (in_dec Nat.eq_dec p (concat (o_groups o))); reflexivity.
Qed.

(** ** The statistics of a data set *)
Lemma dget_map_concat (d : sdict) p :
  dget_acc (map (fun pm => (fst pm, concat (snd pm))) d) p = option_map (@concat R) (dget Nat.eq_dec d p).
Proof.
  unfold dget_acc. induction d as [|[q M] d IH]; [reflexivity|]. cbn [map dget fst snd].
  destruct (Nat.eq_dec p q); [reflexivity|exact IH].
Qed.

Lemma osum_rows {A} ps kl ds p K (n : nat -> nat) us (bt : A -> batch) (d : A -> sdict) : us <> [] ->
  Forall (fun u => dget_acc (b_acc (bt u)) p = Some (concat (map (fun i => row_of p i (d u)) (seq 0 K))) /\
    forall i, (i < K)%nat -> length (row_of p i (d u)) = n i) us ->
  osum p (map (fun u => Opt_Pipe.inst ps kl ds (bt u)) us) =
  Some (concat (map (fun i => colsum (n i) (map (row_of p i) (map d us))) (seq 0 K))).
Proof.
  intros Hne H. induction H as [|u us [H1 H2] H IH]; [congruence|].
  cbn [map]. unfold osum. cbn [fold_right]. fold (osum p (map (fun u => Opt_Pipe.inst ps kl ds (bt u)) us)).
  cbn [Opt_Pipe.inst e_acc]. rewrite H1. destruct us as [|u2 us].
  - cbn [map osum fold_right opt_add]. do 2 f_equal. apply map_ext_in. intros i Hi. apply in_seq in Hi.
    symmetry. apply colsum_one. apply H2. lia.
  - rewrite IH by discriminate. cbn [opt_add]. f_equal. unfold vadd. rewrite map2_concat; [reflexivity|].
    intros i Hi. apply in_seq in Hi. rewrite H2 by lia. symmetry. apply colsum_length.
    rewrite map_map. apply Forall_map. eapply Forall_impl; [|exact H]. cbn beta. intros v [_ Hv]. apply Hv. lia.
Qed.

Lemma dget_combine {V} (vs : list V) : forall a i, (i < length vs)%nat ->
  dget Nat.eq_dec (combine (seq a (length vs)) vs) (a + i)%nat = nth_error vs i.
Proof.
  induction vs as [|v vs IH]; intros a i Hi; [simpl in Hi; lia|]. cbn [length seq combine dget].
  destruct i as [|i]; [rewrite Nat.add_0_r; destruct (Nat.eq_dec a a); [reflexivity|congruence]|].
  destruct (Nat.eq_dec (a + S i) a); [lia|]. replace (a + S i)%nat with (S a + i)%nat by lia.
  cbn [nth_error]. apply IH. simpl in Hi. lia.
Qed.

(** ** The two commands, whatever the model *)
Lemma pipeline {A} enum ds ps kl groups lrate saved h (xs : list A) (bt : A -> batch) jobs :
  is_enum enum -> (0 < ds)%nat -> xs <> [] -> (forall x, In x xs -> b_llh (bt x) <> []) ->
  Permutation (concat jobs) (seq 0 (length xs)) -> Forall (@NoDup nat) groups ->
  let o := the_optim groups lrate saved in
  let nf := list_sum (map (fun x => length (b_llh (bt x))) xs) in
  exists accs h',
    mapM (accumulate_main enum ps kl ds (combine (seq 0 (length xs)) (map bt xs))) jobs = Ok accs /\
    update_main enum ps groups lrate saved h accs = Ok (h', (o_lrate o, Datatypes.S (o_count o))) /\
    (0 < nf)%nat /\
    forall p s, In p ps -> osum p (map (fun x => Opt_Pipe.inst ps kl ds (bt x)) xs) = Some s ->
      p_stats (h' p) = vscale (INR ds / INR nf) s /\
      p_post (h' p) =
        if existsb (Nat.eqb p) (cur_group o)
        then new_nparams (o_lrate o) (set_stats (h p) (vscale (INR ds / INR nf) s))
        else p_post (h p).
Proof.
  intros He Hds Hne Lb Hsp Hgn o nf.
  set (data := combine (seq 0 (length xs)) (map bt xs)) in *.
  assert (Hget : forall i u, nth_error xs i = Some u -> dget Nat.eq_dec data i = Some (bt u)).
  { intros i u Hi. unfold data. assert (Hlt : (i < length xs)%nat) by (apply nth_error_Some; congruence).
    rewrite <- (map_length bt xs) at 1. change i with (0 + i)%nat at 1. rewrite (dget_combine (map bt xs) 0 i) by (now rewrite map_length).
    now apply map_nth_error. }
  assert (Hub : map (utt_batch data) (seq 0 (length xs)) = map bt xs).
  { assert (d : A) by (destruct xs; [congruence|assumption]).
    rewrite <- (map_nth_seq bt xs d). apply map_ext_in. intros i Hi. apply in_seq in Hi. unfold utt_batch.
    rewrite (Hget i (nth i xs d)); [reflexivity|]. apply nth_error_nth'. lia. }
  assert (Hknown : Forall (Forall (known data)) jobs).
  { apply Forall_forall. intros j Hj. apply Forall_forall. intros i Hi.
    assert (Hs : In i (seq 0 (length xs))).
    { apply (Permutation_in i Hsp). apply in_concat. eauto. }
    apply in_seq in Hs. destruct (nth_error xs i) as [u|] eqn:Eu.
    - exists (bt u). split; [now apply Hget|]. apply Lb. eapply nth_error_In; eauto.
    - apply nth_error_None in Eu. lia. }
  assert (Hcne : concat jobs <> []).
  { intros E. rewrite E in Hsp. apply Permutation_nil in Hsp. destruct xs; [congruence|discriminate]. }
  destruct (update_elbo enum ps kl ds data jobs He Hds Hknown Hcne) as (accs & e & nn & B1 & B & C & Eds).
  set (es := map (fun x => Opt_Pipe.inst ps kl ds (utt_batch data x)) (concat jobs)) in *.
  assert (Pes : Permutation es (map (fun u => Opt_Pipe.inst ps kl ds (bt u)) xs)).
  { unfold es. eapply Permutation_trans; [apply Permutation_map; exact Hsp|].
    rewrite <- (map_map (utt_batch data) (Opt_Pipe.inst ps kl ds)), Hub, map_map. apply Permutation_refl. }
  assert (Hmb : e_mb e = nf).
  { destruct C as (_ & _ & _ & -> & _). unfold nf.
    assert (G : list_sum (map e_mb es) = list_sum (map e_mb (map (fun u => Opt_Pipe.inst ps kl ds (bt u)) xs))).
    { apply (Permutation_map e_mb) in Pes. clear - Pes. induction Pes; simpl; lia. }
    rewrite G, map_map. f_equal. }
  assert (Hpos : (0 < e_mb e)%nat).
  { destruct C as (_ & _ & _ & -> & _). apply sum_mb_pos; auto. apply Forall_forall. intros i Hi.
    apply in_concat in Hi. destruct Hi as (j & Hj & Hi).
    exact (proj1 (Forall_forall _ _) (proj1 (Forall_forall _ _) Hknown j Hj) i Hi). }
  assert (Hv : exists r, e_value e = VTensor r).
  { destruct C as (V & _). apply (tensor_value ps kl ds data (concat jobs)). exact V. }
  destruct (update_result enum ps groups lrate saved h accs es e nn He B C Hv Hpos) as (h' & Eu & Hh). fold o in Eu, Hh.
  assert (Hog : o_groups o = groups) by (unfold o, the_optim; destruct saved; reflexivity).
  assert (Hcg : NoDup (cur_group o)).
  { unfold cur_group. rewrite Hog. destruct (nth_in_or_default (o_count o mod length groups) groups []) as [G|G].
    - exact (proj1 (Forall_forall _ _) Hgn _ G).
    - rewrite G. constructor. }
  exists accs, h'. split; [exact B1|]. split; [exact Eu|]. split; [lia|]. intros p s Hp Hos.
  rewrite Eds, Hmb in Hh. apply Hh; auto. now rewrite (osum_perm _ _ _ Pes).
Qed.

Section Round.
  Variables (enum : list nat -> list nat) (amax : nat -> (nat -> lp) -> nat) (k : kind) (D : nat) (scale : R) (ds : nat)
    (skel : mset).
  Hypothesis He : is_enum enum.
  Hypothesis Hscale : 0 <= scale.
  Hypothesis Hds : (0 < ds)%nat.
  Hypothesis Hnd : NoDup (params skel).

  Lemma batch_ok st u : typed k D st skel -> utt_ok k D skel u ->
    exists b, batch_of amax scale (inst (forms st) skel) u = Ok b /\
      length (b_llh b) = length (u_stats u) /\
      forall p, In p (params skel) ->
        dget_acc (b_acc b) p =
          Some (concat (map (fun i => row_of p i (acc_of amax scale skel st u)) (seq 0 (length (st p))))) /\
        forall i, (i < length (st p))%nat ->
          length (row_of p i (acc_of amax scale skel st u)) = length (cell_form (nth i (st p) dc)).
  Proof using Hnd.
    intros T U. assert (Hev := utt_evidence k D scale skel st u T U).
    assert (U' := U). destruct U as (Hne & (xs & Exs & Hxs) & Ho & Hn & _).
    set (m := inst (forms st) skel). assert (Hw : wf m) by (now apply (inst_wf k D)).
    assert (Ho' : forall o, In o (u_order u) -> (o < size m)%nat).
    { intros o Hin. unfold m. rewrite (inst_size k D); auto. }
    destruct (C80_defined amax m (u_graph u) (u_order u) (u_own u) scale (u_stats u) Ho' Hne) as ([v c] & E).
    assert (Ev := C80_value amax m (u_graph u) (u_order u) (u_own u) scale (u_stats u) v c Hw Ho' Hn Hev E).
    destruct (utt_rows amax k D scale skel Hnd st u T U') as [Ea Hrow].
    assert (Ed : hmm_accumulate m (cg_n (u_graph u)) (u_order u) c (u_stats u) = Some (acc_of amax scale skel st u)).
    { unfold utt_acc in Ea. fold m in Ea. rewrite E in Ea. exact Ea. }
    assert (Es : exists vs, all_some v = Some vs /\ length vs = length (u_stats u)).
    { rewrite Ev. generalize (seq 0 (length (u_stats u))), (seq_length (length (u_stats u)) 0).
      intros l <-. clear. induction l as [|t l (vs & IH & L)]; [exists []; auto|]. cbn [map all_some]. rewrite IH.
      eexists. split; [reflexivity|]. simpl. now rewrite L. }
    destruct Es as (vs & Es & Lv).
    unfold batch_of. fold m. rewrite E. cbn [bindr fst snd]. rewrite Es, Ed. eexists. split; [reflexivity|].
    cbn [b_llh b_acc]. split; [exact Lv|]. intros p Hp.
    assert (HR : forall i, (i < length (st p))%nat ->
      length (row_of p i (acc_of amax scale skel st u)) = length (cell_form (nth i (st p) dc))).
    { intros i Hi. destruct (Hrow (p, i)) as [R _]; [now apply allcells_in|]. cbn [fst snd] in R. rewrite R.
      unfold form. cbn [fst snd]. now rewrite forms_nth. }
    split; [|exact HR]. rewrite dget_map_concat.
    destruct (proj2 (shape_params m p)) as ([rows cols] & Esh).
    { unfold m. now rewrite inst_params. }
    destruct (inst_shape k D st skel p rows cols T Esh) as [-> Hc].
    destruct (C80_statistics amax m (suff_dim k D) (u_graph u) (u_order u) (u_own u) scale (u_stats u) v c p (length (st p)) cols) as (d' & M & E1 & E2 & LM & E3); auto.
    - unfold m. now rewrite inst_params.
    - now apply inst_accepts.
    - rewrite Exs. apply Forall_map. eapply Forall_impl; [|exact Hxs]. intros x Hx. now apply suff_length.
    - rewrite Ed in E1. injection E1 as <-. rewrite E2. cbn [option_map]. do 2 f_equal.
      rewrite (list_as_map M []), LM at 1. apply map_ext. intros i. unfold row_of. now rewrite E2.
  Qed.

  Lemma data_ok st utts : typed k D st skel -> Forall (utt_ok k D skel) utts ->
    exists bt, data_of amax scale (inst (forms st) skel) utts = Ok (combine (seq 0 (length utts)) (map bt utts)) /\
      forall u, In u utts -> length (b_llh (bt u)) = length (u_stats u) /\
        forall p, In p (params skel) ->
          dget_acc (b_acc (bt u)) p =
            Some (concat (map (fun i => row_of p i (acc_of amax scale skel st u)) (seq 0 (length (st p))))) /\
          forall i, (i < length (st p))%nat ->
            length (row_of p i (acc_of amax scale skel st u)) = length (cell_form (nth i (st p) dc)).
  Proof.
    intros T HU.
    exists (fun u => match batch_of amax scale (inst (forms st) skel) u with Ok b => b | Err _ => no_batch end).
    split.
    - unfold data_of.
      replace (mapM (batch_of amax scale (inst (forms st) skel)) utts) with
        (Ok (map (fun u => match batch_of amax scale (inst (forms st) skel) u with Ok b => b | Err _ => no_batch end) utts) : result (list batch)); [reflexivity|].
      symmetry. induction HU as [|u us U HU IH]; [reflexivity|]. cbn [mapM map].
      destruct (batch_ok st u T U) as (b & -> & _). cbn [bindr]. now rewrite IH.
    - intros u Hu. destruct (batch_ok st u T (proj1 (Forall_forall _ _) HU u Hu)) as (b & -> & H). exact H.
  Qed.

  Lemma reload_ok (h : heap) st (next : state) :
    (forall p, In p (params skel) -> cells_set (st p) (p_post (h p)) = Ok (next p)) ->
    (forall p, ~ In p (params skel) -> next p = st p) ->
    reload (params skel) h st = Ok next.
  Proof using.
    intros H1 H2. unfold reload.
    assert (G : forall ps s, (forall p, In p ps -> cells_set (st p) (p_post (h p)) = Ok (next p)) ->
      exists s', foldM (fun s p => bindr (cells_set (st p) (p_post (h p))) (fun cs =>
           Ok (fun q => if Nat.eqb q p then cs else s q))) ps s = Ok s' /\
        forall q, s' q = if in_dec Nat.eq_dec q ps then next q else s q).
    { induction ps as [|p ps IH]; intros s Hs; [exists s; split; reflexivity|]. cbn [foldM].
      rewrite (Hs p) by now left. cbn [bindr].
      destruct (IH (fun q => if Nat.eqb q p then next p else s q)) as (s' & E & F); [intros; apply Hs; now right|].
      exists s'. split; [exact E|]. intros q. rewrite F. cbn [in_dec].
      destruct (in_dec Nat.eq_dec q ps) as [j|j], (in_dec Nat.eq_dec q (p :: ps)) as [i|i]; try reflexivity.
      - exfalso. apply i. now right.
      - destruct i as [<-|i]; [now rewrite Nat.eqb_refl|contradiction].
      - destruct (Nat.eqb_spec q p) as [->|]; [|reflexivity]. exfalso. apply i. now left. }
    destruct (G (params skel) st H1) as (s' & E & F). rewrite E. f_equal. apply functional_extensionality. intros q.
    rewrite F. destruct (in_dec Nat.eq_dec q (params skel)) as [i|i]; [reflexivity|]. symmetry. now apply H2.
  Qed.

  Definition wt (utts : list utt) : R := INR ds / INR (nframes utts).

  (** What the optimiser gives for an emission parameter is what [apply_step] computes *)
  Lemma cells_round st utts w rate g p : typed k D st skel -> Forall (utt_ok k D skel) utts -> 0 <= w -> 0 <= rate <= 1 ->
    In p (params skel) ->
    cells_set (st p)
      (if existsb (Nat.eqb p) g
       then new_nparams rate (set_stats (heap_of st p) (vscale w
              (concat (map (fun i => colsum (length (cell_form (nth i (st p) dc)))
                (map (row_of p i) (map (acc_of amax scale skel st) utts))) (seq 0 (length (st p)))))))
       else p_post (heap_of st p)) =
    Ok (apply_step w rate g (map (acc_of amax scale skel st) utts) st p).
  Proof using Hscale Hnd.
    intros T HU Hw Hl Hp. unfold apply_step. clear ds Hds He enum.
    assert (Hprop : forall i, (i < length (st p))%nat -> proper k D (nth i (st p) dc)).
    { intros i Hi. destruct (typed_cells k D st skel p i T Hp Hi); [now left|now right]. }
    destruct (existsb (Nat.eqb p) g) eqn:Eg.
    - rewrite vscale_concat.
      rewrite (new_nparams_blocks _ (seq 0 (length (st p))) (fun i => cell_prior (nth i (st p) dc))
        (fun i => cell_post (nth i (st p) dc))
        (fun i => total w (length (cell_form (nth i (st p) dc))) p i (map (acc_of amax scale skel st) utts))).
      + apply cells_set_ok; [rewrite map_length; apply seq_length|rewrite map2_length, seq_length; lia|].
        intros i Hi.
        rewrite (map_nth_lt _ _ _ 0%nat) by (now rewrite seq_length). rewrite seq_nth by auto. cbn [plus].
        rewrite (map2_nth _ _ _ _ 0%nat dc) by (rewrite ?seq_length; auto). rewrite seq_nth by auto. cbn [plus].
        set (c := nth i (st p) dc) in *. destruct (proper_lengths k D c (Hprop i Hi)) as [L1 L2].
        assert (Hq : In (p, i) (allcells st (params skel))) by (now apply allcells_in).
        destruct (total_data amax k D scale skel Hscale Hnd st utts (p, i) w T HU Hw Hq) as (_ & E2 & dd & F1 & F2).
        assert (Ef : form st (p, i) = cell_form c) by (unfold form; cbn [fst snd]; now rewrite forms_nth).
        rewrite Ef in E2, F2. cbn [fst snd] in E2, F2. change (cell_at st (p, i)) with c in F1, F2.
        split.
        { unfold moved. unfold vadd, vsub. rewrite map2_length, vscale_length, !map2_length. lia. }
        assert (F3 : total w (length (cell_form c)) p i (map (acc_of amax scale skel st) utts) =
          wstats (length (cell_form c)) (cell_fn c) dd).
        { apply F2. intros v Hv'. rewrite <- Ef. apply (fits_length amax k D skel st (p, i) v); auto. }
        rewrite F3. apply (cell_set_moved k D); [apply (Hprop i Hi)|exact Hl|exact F1].
      + rewrite (map_nth_seq cell_prior (st p) dc). reflexivity.
      + rewrite (map_nth_seq cell_post (st p) dc). reflexivity.
      + reflexivity.
      + intros i Hi. apply in_seq in Hi. destruct (proper_lengths k D _ (Hprop i ltac:(lia))) as [L1 L2].
        split; [congruence|]. unfold total. rewrite vscale_length, colsum_length; [congruence|].
        rewrite map_map. apply Forall_map. eapply Forall_impl; [|exact HU]. cbn beta. intros u U.
        destruct (batch_ok st u T U) as (b & _ & _ & G). apply (G p Hp). lia.
    - cbn [heap_of p_post]. apply cells_set_ok; [apply map_length|reflexivity|]. intros i Hi.
      rewrite (map_nth_lt _ _ _ dc) by auto. split; [reflexivity|]. apply (cell_set_same k D). auto.
  Qed.

  Lemma outside_groups groups lrate saved w rate (Ds : list sdict) st p :
    incl (concat groups) (params skel) -> ~ In p (params skel) ->
    apply_step w rate (cur_group (the_optim groups lrate saved)) Ds st p = st p.
  Proof using.
    intros Hgi Hp. unfold apply_step. set (o := the_optim groups lrate saved) in *.
    assert (Hog : o_groups o = groups) by (unfold o, the_optim; destruct saved; reflexivity).
    destruct (existsb (Nat.eqb p) (cur_group o)) eqn:Eg; [|reflexivity].
    exfalso. apply Hp, Hgi. apply existsb_exists in Eg. destruct Eg as (q & Hq & Eq). apply Nat.eqb_eq in Eq. subst q.
    apply in_concat. exists (cur_group o). split; [|exact Hq]. unfold cur_group in Hq |- *. rewrite Hog in *.
    destruct (nth_in_or_default (o_count o mod length groups) groups []) as [G|G]; [exact G|].
    rewrite G in Hq. destruct Hq.
  Qed.

  Lemma round_ok groups lrate (keep : bool) utts jobs st saved :
    typed k D st skel -> Forall (utt_ok k D skel) utts -> utts <> [] -> splits utts jobs ->
    Forall (@NoDup nat) groups -> incl (concat groups) (params skel) ->
    let o := the_optim groups lrate (if keep then saved else None) in
    0 <= o_lrate o <= 1 ->
    round enum amax scale ds skel groups lrate keep utts jobs (st, saved) =
    Ok (apply_step (wt utts) (o_lrate o) (cur_group o) (map (acc_of amax scale skel st) utts) st,
        if keep then Some (o_lrate o, S (o_count o)) else saved).
  Proof.
    intros T HU Hne Hsp Hgn Hgi o Hl.
    destruct (data_ok st utts T HU) as (bt & Ed & Hbt).
    assert (Lb : forall u, In u utts -> b_llh (bt u) <> []).
    { intros u Hu E. destruct (Hbt u Hu) as [L _]. rewrite E in L.
      destruct (proj1 (Forall_forall _ _) HU u Hu) as (Hn & _). destruct (u_stats u); [congruence|discriminate]. }
    destruct (pipeline enum ds (params skel) (model_kl skel st) groups lrate (if keep then saved else None) (heap_of st)
      utts bt jobs He Hds Hne Lb Hsp Hgn) as (accs & h' & A & Eu & Hpos & Hh).
    fold o in Eu, Hh.
    assert (Hnf : list_sum (map (fun x => length (b_llh (bt x))) utts) = nframes utts).
    { unfold nframes. f_equal. apply map_ext_in. intros u Hu. apply Hbt. exact Hu. }
    rewrite Hnf in Hpos, Hh. fold (wt utts) in Hh.
    assert (Hwt : 0 <= wt utts).
    { unfold wt. apply Rmult_le_pos; [apply pos_INR|]. left. apply Rinv_0_lt_compat, lt_0_INR. lia. }
    unfold round. rewrite Ed. cbn [bindr]. rewrite A. cbn [bindr]. rewrite Eu. cbn [bindr fst snd].
    rewrite (reload_ok h' st (apply_step (wt utts) (o_lrate o) (cur_group o) (map (acc_of amax scale skel st) utts) st)).
    - reflexivity.
    - intros p Hp.
      rewrite (proj2 (Hh p _ Hp (osum_rows (params skel) (model_kl skel st) ds p (length (st p))
        (fun i => length (cell_form (nth i (st p) dc))) utts bt (acc_of amax scale skel st) Hne
        (proj2 (Forall_forall _ _) (fun u Hu => proj2 (Hbt u Hu) p Hp))))).
      now apply cells_round.
    - intros p Hp. now apply outside_groups.
  Qed.
End Round.
