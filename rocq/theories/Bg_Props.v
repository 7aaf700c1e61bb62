(** Properties of the training of bigram phone-loops. *)
From Coq Require Import Reals String List Arith Bool Lia Lra Permutation.
From Verif Require Import Prelude Vec Gibbs Lgamma FB_Model FB_Spec FB_Proofs Edit_Model Dec_Model Dec_Proofs Set_Model Set_Spec Set_Proofs
  HMM_Model HMM_Spec HMM_Proofs HMM_Props Dist_Model Dist_Spec Dist_Proofs NG_Proofs KL_Proofs Dist_Props Mat NW_Model NW_Spec NW_Proofs NW_KL NW_Props
  SB_Model SB_Spec SB_Proofs SB_Props Df_Model Pl_Model Pl_Props Sk_Model Sk_Spec Sk_Proofs Sk_Props
  Vt_Model Vt_Spec Vt_Proofs Vt_Props Vl_Model Vl_Spec Vl_Proofs Vl_Props Mx_Model Mx_Spec Mx_Proofs Pw_Model Pw_Spec Pw_Proofs Pw_Props
  Bg_Model Bg_Spec Bg_Proofs.
Import ListNotations.
Local Open Scope R_scope.

(** ** One step, with any set *)

(** What a step does to the distributions of the next phone: each is updated with
    the expected number of times that each phone follows, on its own. *)
Theorem C172_set_update : forall amax k D scale w lrate uw group l skel utts s s',
  0 <= scale -> 0 <= w -> 0 <= lrate <= 1 -> NoDup (params skel) -> bg_loop_ok l ->
  bg_good k D l skel s -> Forall (bg_utt_ok k D l skel s) utts ->
  bg_step amax scale w lrate uw group l skel utts s = Ok s' ->
  let K := length (pl_starts l) in
  let total i j := w * sumf (fun x => bg_count scale l skel s x i j) utts in
  (uw = false -> bg_set s' = bg_set s /\ bg_trans s' = bg_trans s) /\
  (uw = true ->
     match bg_set s with
     | BCat p q => exists q', bg_set s' = BCat p q' /\ length q' = K /\
         forall i j, (i < K)%nat -> (j < K)%nat ->
           nth j (nth i q' []) 0 = (1 - lrate) * nth j (nth i q []) 0 + lrate * (nth j (nth i p []) 0 + total i j)
     | BStick n o p q => exists q', bg_set s' = BStick n o p q' /\ length q' = (K * K)%nat /\
         forall i a, (i < K)%nat -> (a < K)%nat -> let j := nth a o 0%nat in
           nth j (slice K i q') (0, 0) =
             ((1 - lrate) * fst (nth j (slice K i q) (0, 0)) + lrate * (fst (nth j (slice K i p) (0, 0)) + total i j),
              (1 - lrate) * snd (nth j (slice K i q) (0, 0)) +
              lrate * (snd (nth j (slice K i p) (0, 0)) + sumf (total i) (skipn (S a) o)))
     end) /\
  (forall p, ~ In p group -> bg_pars s' p = bg_pars s p).
Proof.
  intros amax k D scale w lrate uw group l skel utts s s' Hs Hw Hl Hnd Hlo HG HU E K total.
  rewrite (bg_step_eq amax k D scale l skel Hnd Hlo w lrate uw group utts s HG HU) in E. injection E as <-.
  cbn [bg_next bg_set bg_trans bg_pars]. unfold bg_nset. split; [|split].
  - intros ->. split; reflexivity.
  - intros ->. assert (Kp := bg_K_pos l Hlo). assert (EN := proj2 Hlo). fold K in Kp, EN. rewrite EN. fold K.
    set (rows := map (bg_counts scale l skel s) utts).
    assert (Hr : Forall (fun M => length M = K /\ Forall (fun r => length r = K /\ Forall (fun v => 0 <= v) r) M) rows).
    { assert (H := bg_rows_ok k D scale l skel utts s HG HU). rewrite EN in H. exact H. }
    assert (Et : forall i j, (i < K)%nat -> (j < K)%nat -> w * sumf (fun M => nth j (nth i M []) 0) rows = total i j).
    { intros i j Hi Hj. unfold rows, total. rewrite sumf_map. f_equal. apply sumf_ext. intros x _. apply bg_counts_nth; [rewrite EN|]; auto. }
    destruct HG as (_ & W & _). rewrite EN in W. fold K in W. destruct (bg_set s) as [p q|n o p q].
    + destruct W as (Lp & Lq & Fp & Fq).
      change (map (set_rows (BCat p q)) rows) with (map (map cat_stats) rows). cbn [bg_update].
      set (st := bg_stats w K K (map (map cat_stats) rows)).
      assert (Lst : length st = K) by (unfold st, bg_stats; now rewrite map_length, seq_length).
      eexists. split; [reflexivity|]. split; [rewrite map2_length, combine_length; lia|]. intros i j Hi Hj.
      rewrite (map2_nth _ _ _ _ ([], []) [] []) by (rewrite ?combine_length; lia). rewrite combine_nth by lia. cbn [fst snd].
      assert (Hp : dir_ok K (nth i p [])) by (apply (proj1 (Forall_forall _ _) Fp), nth_In; lia).
      assert (Hq : dir_ok K (nth i q [])) by (apply (proj1 (Forall_forall _ _) Fq), nth_In; lia).
      destruct (dir_weights_step K w lrate (map (fun M => nth i M []) rows) Kp Hw (row_rows K K rows Kp Hr i Hi) (nth i p []) (nth i q []) Hp Hq Hl)
          as (_ & _ & B). cbv zeta in B.
      assert (Es : nth i st [] = vscale w (colsum K (map cat_stats (map (fun M => nth i M []) rows)))).
      { unfold st, bg_stats. rewrite (map_nth_lt _ _ _ 0%nat) by (now rewrite seq_length). rewrite seq_nth by auto. cbn [plus]. do 2 f_equal.
        rewrite !map_map. apply map_ext_in. intros M HM. destruct (proj1 (Forall_forall _ _) Hr M HM) as [LM _].
        rewrite (map_nth_lt _ _ _ []) by lia. reflexivity. }
      rewrite Es, B by exact Hj. rewrite <- Et by auto. f_equal. f_equal. f_equal. unfold mx_counts. now rewrite sumf_map.
    + destruct W as (-> & Ho & Lp & Lq & _). rewrite <- EN.
      change (map (set_rows (BStick (length (pl_ends l)) o p q)) rows) with (map (fun M : mat => M) rows). rewrite map_id. cbn [bg_update].
      rewrite EN. fold K. eexists. split; [reflexivity|].
      split; [exact (proj1 (stick_update_nth K K w lrate rows Kp Hw Hr o p q 0 0 Ho Lp Lq Kp Kp))|]. intros i a Hi Ha. set (j := nth a o 0%nat).
      assert (Eu := proj2 (stick_update_nth K K w lrate rows Kp Hw Hr o p q i a Ho Lp Lq Hi Ha)). cbv zeta in Eu. fold j in Eu. rewrite Eu.
      assert (Hj : (j < K)%nat) by (now apply ord_nth_lt).
      destruct (bg_stats_ok K K w rows Kp Hw Hr i Hi) as (_ & _ & C). cbv zeta in C.
      rewrite (C j Hj), (Et i j Hi Hj). f_equal. f_equal. f_equal. f_equal. unfold tail_count. apply sumf_ext. intros b Hb.
      assert (Hb' : (b < K)%nat) by (apply (ord_lt K o Ho); now apply In_skipn in Hb). now rewrite C, Et.
  - intros p Hp. unfold bg_npars, apply_step. destruct (existsb (Nat.eqb p) group) eqn:Eg; [|reflexivity].
    exfalso. apply Hp. apply existsb_exists in Eg. destruct Eg as (y & Hy & Ey). apply Nat.eqb_eq in Ey. now subst.
Qed.

(** What a step does to the bound: what may be lost is what the distributions
    that were updated gain over the ones that the graph reads. *)
Theorem C173_step_partial : forall amax k D scale w lrate uw group l skel utts s,
  0 <= scale -> 0 <= w -> NoDup (params skel) -> bg_loop_ok l -> 0 <= lrate <= 1 ->
  bg_good k D l skel s -> Forall (bg_utt_ok k D l skel s) utts ->
  let K := length (pl_starts l) in
  exists s', bg_step amax scale w lrate uw group l skel utts s = Ok s' /\
    bg_good k D l skel s' /\ Forall (bg_utt_ok k D l skel s') utts /\
    bg_bound scale w l skel utts s <= bg_bound scale w l skel utts s' +
      w * sumf (fun x => sumf (fun i => sumf (fun j => bg_count scale l skel s x i j *
        ((elog_next K (bg_set s') i j - elog_next K (bg_set s) i j) -
         (elog_used K (bg_set s') i j - elog_used K (bg_set s) i j))) (seq 0 K)) (seq 0 K)) utts.
Proof.
  intros amax k D scale w lrate uw group l skel utts s Hs Hw Hnd Hlo Hr HG HU K.
  exists (bg_next amax scale l skel w lrate uw group utts s).
  split; [now apply (bg_step_eq amax k D)|].
  split; [now apply bg_next_good|].
  split; [eapply Forall_impl; [|exact HU]; intros x Hx; now apply bg_next_utt|].
  assert (B := bg_next_bound amax k D scale l skel Hs Hnd Hlo w lrate uw group utts s Hw Hr HG HU).
  rewrite (proj2 Hlo) in B. exact B.
Qed.

(** Sticks or Dirichlet distributions do not change into each other. *)
Definition by_sticks (b : bset) : Prop := match b with BStick _ _ _ _ => True | BCat _ _ => False end.

Lemma bg_kind amax scale w lrate uw group l skel utts s s' :
  bg_step amax scale w lrate uw group l skel utts s = Ok s' -> by_sticks (bg_set s) -> by_sticks (bg_set s').
Proof.
  unfold bg_step. intros E. destruct (mapM _ utts); [|discriminate]. cbn [bindr] in E. injection E as <-.
  cbn [bg_set]. destruct uw; [|auto]. destruct (bg_set s); cbn; auto.
Qed.

Lemma used_sticks K b i j : by_sticks b -> elog_used K b i j = elog_next K b i j.
Proof. destruct b; cbn; [contradiction|reflexivity]. Qed.

(** ** Stick-breaking sets *)
Theorem C172_step : forall amax k D scale w lrate uw group l skel utts s,
  0 <= scale -> 0 <= w -> NoDup (params skel) -> bg_loop_ok l -> 0 <= lrate <= 1 -> by_sticks (bg_set s) ->
  bg_good k D l skel s -> Forall (bg_utt_ok k D l skel s) utts ->
  exists s', bg_step amax scale w lrate uw group l skel utts s = Ok s' /\
    by_sticks (bg_set s') /\ bg_good k D l skel s' /\ Forall (bg_utt_ok k D l skel s') utts /\
    bg_bound scale w l skel utts s <= bg_bound scale w l skel utts s'.
Proof.
  intros amax k D scale w lrate uw group l skel utts s Hs Hw Hnd Hlo Hr Hb HG HU.
  destruct (C173_step_partial amax k D scale w lrate uw group l skel utts s Hs Hw Hnd Hlo Hr HG HU) as (s' & E & G & F & B).
  assert (Hb' := bg_kind _ _ _ _ _ _ _ _ _ _ _ E Hb).
  exists s'. split; [exact E|]. split; [exact Hb'|]. split; [exact G|]. split; [exact F|]. cbv zeta in B.
  rewrite (sumf_zero _ utts) in B; [lra|]. intros x _. apply sumf_zero. intros i _. apply sumf_zero. intros j _.
  rewrite !used_sticks by auto. ring.
Qed.

Theorem C172_training : forall amax k D scale w steps l skel utts s,
  0 <= scale -> 0 <= w -> NoDup (params skel) -> bg_loop_ok l -> by_sticks (bg_set s) ->
  bg_good k D l skel s -> Forall (bg_utt_ok k D l skel s) utts ->
  Forall (fun x : R * bool * list nat => 0 <= fst (fst x) <= 1) steps ->
  exists s', bg_train amax scale w steps l skel utts s = Ok s' /\
    bg_good k D l skel s' /\ Forall (bg_utt_ok k D l skel s') utts /\
    bg_bound scale w l skel utts s <= bg_bound scale w l skel utts s'.
Proof.
  intros amax k D scale w steps l skel utts s Hs Hw Hnd Hlo Hb HG HU F. revert s Hb HG HU.
  induction F as [|[[lrate uw] group] steps Hr F IH]; intros s Hb HG HU.
  - exists s. split; [reflexivity|]. split; [exact HG|]. split; [exact HU|lra].
  - cbn [fst] in Hr. destruct (C172_step amax k D scale w lrate uw group l skel utts s) as (s1 & E1 & B1 & G1 & F1 & L1); auto.
    destruct (IH s1) as (s2 & E2 & G2 & F2 & L2); auto.
    exists s2. cbn [bg_train]. rewrite E1. split; [exact E2|]. split; [exact G2|]. split; [exact F2|lra].
Qed.

(** ** New loops *)
Theorem C172_creation : forall k D l skel st b, bg_loop_ok l -> typed k D st skel ->
  bg_ok (length (pl_ends l)) (length (pl_starts l)) b ->
  (forall e, In e (pl_ends l) -> ex (cg_trans (pl_graph l) e e) <= 1) ->
  bg_good k D l skel (bg_init l b st).
Proof.
  intros k D l skel st b Hlo T W He. split; [exact T|]. split; [exact W|]. now apply bg_tune_tuned.
Qed.

Lemma sbset_create_ok eps n s strength : is_order n (sb_ord s) -> length (sb_post s) = n -> positive_sticks (sb_post s) ->
  0 <= eps -> 0 < strength ->
  exists p q, sbset_create eps n s strength = WSBSet n p q s /\ bg_ok n n (BStick n (sb_ord s) p q).
Proof.
  intros Ho L P He Hs. destruct (C93_set_prior_proper n n (sb_ord s) (sb_post s) eps strength Ho L P He Hs) as (A & B).
  do 2 eexists. split; [reflexivity|]. cbn [bg_ok]. split; [reflexivity|]. split; [exact Ho|]. split; [exact A|].
  split; [|split; [exact B|]].
  - rewrite concat_repeat_length. now rewrite L.
  - apply Forall_concat, Forall_forall. intros x Hx. apply repeat_spec in Hx. subst x. exact P.
Qed.

Lemma cat_2g_ok n c : (0 < n)%nat -> 0 < c -> 
  exists a, build_categorical_2g n c = WCatSet a a /\ bg_ok n n (BCat a a).
Proof.
  intros Hn Hc. eexists. split; [reflexivity|]. cbn [bg_ok].
  assert (F : Forall (dir_ok n) (repeat (categorical_default (uniform_weights n) c) n)).
  { apply Forall_forall. intros x Hx. apply repeat_spec in Hx. subst x. now apply dir_default_ok. }
  rewrite !repeat_length. auto.
Qed.

Lemma sb_create_ok n c : 0 < c -> is_order n (sb_ord (sb_create n c)) /\ length (sb_post (sb_create n c)) = n /\ positive_sticks (sb_post (sb_create n c)).
Proof.
  intros Hc. cbn [sb_create sb_ord sb_post]. split; [apply seq_order|]. split; [apply repeat_length|].
  unfold sb_default. apply Forall_forall. intros x Hx. apply repeat_spec in Hx. subst x. cbn [fst snd]. split; lra.
Qed.

(** The bigram loops of `beer hmm mkphoneloop` *)
Theorem C172_mkphoneloop : forall eps prior conc k D l skel st lo, bg_loop_ok l -> typed k D st skel ->
  (forall e, In e (pl_ends l) -> ex (cg_trans (pl_graph l) e e) <= 1) ->
  0 < concentration_of (length (pl_starts l)) conc -> 0 <= eps ->
  mkphoneloop eps prior conc (pl_starts l) (pl_ends l) (cg_trans (pl_graph l)) = Ok lo ->
  lo_bigram lo = true ->
  exists b, bset_of (lo_weights lo) = Some b /\ lo_trans lo = bg_trans (bg_init l b st) /\
    bg_good k D l skel (bg_init l b st) /\
    (prior = Some "hierarchical_dirichlet_process"%string <-> by_sticks b).
Proof.
  intros eps prior conc k D l skel st lo Hlo T He Hc Heps E Hb.
  assert (Hn := bg_K_pos l Hlo). assert (EN := proj2 Hlo). set (n := length (pl_starts l)) in *.
  unfold mkphoneloop in E. fold n in E. set (c0 := concentration_of n conc) in *.
  destruct (parse_choice prior_names "gamma_dirichlet_process" prior) as [name|] eqn:En; [|discriminate]. cbn [bindr] in E.
  assert (Hname : name = "hierarchical_dirichlet_process"%string \/ name = "dirichlet2"%string).
  { destruct (existsb (String.eqb name) bigram_prior) eqn:Ebi.
    - cbn in Ebi. destruct (String.eqb_spec name "hierarchical_dirichlet_process"); [auto|].
      destruct (String.eqb_spec name "dirichlet2"); [auto|discriminate].
    - exfalso. destruct (build eps name n c0) as [w|]; [|discriminate]. cbn [bindr] in E. unfold mkloop in E.
      destruct (unigram_logw _ w); [injection E as <-; discriminate|]. discriminate. }
  assert (Hp : prior = Some name).
  { unfold parse_choice in En. destruct prior as [x|].
    - destruct (existsb _ _); [|discriminate]. now injection En as ->.
    - injection En as <-. destruct Hname as [H|H]; discriminate. }
  destruct Hname as [->| ->].
  - destruct (sb_create_ok n c0 Hc) as (A & B & C).
    destruct (sbset_create_ok eps n (sb_create n c0) c0 A B C Heps Hc) as (p & q & Es & W).
    unfold build in E. cbn [String.eqb Ascii.eqb Bool.eqb bindr] in E. unfold build_hsb in E. rewrite Es in E.
    cbn [mkloop bindr existsb bigram_prior String.eqb Ascii.eqb Bool.eqb orb unigram_logw bigram_logm] in E. rewrite B in E.
    exists (BStick n (sb_ord (sb_create n c0)) p q). injection E as <-. split; [reflexivity|]. split; [reflexivity|]. split.
    + apply C172_creation; auto. fold n. rewrite EN. exact W.
    + split; [exact (fun _ => I)|]. intros _. exact Hp.
  - destruct (cat_2g_ok n c0 Hn Hc) as (a & Es & W).
    unfold build in E. cbn [String.eqb Ascii.eqb Bool.eqb bindr] in E. rewrite Es in E.
    cbn [mkloop bindr existsb bigram_prior String.eqb Ascii.eqb Bool.eqb orb unigram_logw bigram_logm] in E.
    exists (BCat a a). injection E as <-. split; [reflexivity|]. split; [reflexivity|]. split.
    + apply C172_creation; auto. fold n. rewrite EN. exact W.
    + split; [rewrite Hp; discriminate|contradiction].
Qed.

(** The loops of `beer hmm mkphoneloopbigram`, made from a loop whose weights are
    sticks, which may be trained *)
Theorem C172_mkphoneloopbigram : forall eps prior k D l skel st lo r lo', bg_loop_ok l -> typed k D st skel ->
  (forall e, In e (pl_ends l) -> ex (cg_trans (pl_graph l) e e) <= 1) -> 0 <= eps ->
  lo_weights lo = WSB r -> lo_trans lo = cg_trans (pl_graph l) ->
  is_order (length (pl_starts l)) (sb_ord r) -> length (sb_post r) = length (pl_starts l) -> positive_sticks (sb_post r) ->
  mkphoneloopbigram eps prior lo (pl_starts l) (pl_ends l) = Ok lo' ->
  exists b, bset_of (lo_weights lo') = Some b /\ lo_trans lo' = bg_trans (bg_init l b st) /\
    bg_good k D l skel (bg_init l b st) /\
    (prior = Some "hierarchical_dirichlet_process"%string <-> by_sticks b).
Proof.
  intros eps prior k D l skel st lo r lo' Hlo T He Heps Ew Et Ho Lr Pr E.
  assert (Hn := bg_K_pos l Hlo). assert (EN := proj2 Hlo). set (n := length (pl_starts l)) in *.
  assert (HN := lt_0_INR n Hn). unfold mkphoneloopbigram in E. fold n in E. rewrite Ew, Et in E.
  destruct (parse_choice prior_names_2g "gamma_dirichlet_process" prior) as [name|] eqn:En; [|discriminate]. cbn [bindr] in E.
  destruct (existsb (String.eqb name) prior_names_2g) eqn:Ebi; [|discriminate]. cbn [negb] in E.
  destruct (lo_bigram lo); [discriminate|].
  assert (Hname : name = "hierarchical_dirichlet_process"%string \/ name = "dirichlet2"%string).
  { cbn in Ebi. destruct (String.eqb_spec name "dirichlet2"); [auto|].
    destruct (String.eqb_spec name "hierarchical_dirichlet_process"); [auto|discriminate]. }
  assert (Hp : prior = Some name).
  { unfold parse_choice in En. destruct prior as [x|].
    - destruct (existsb _ _); [|discriminate]. now injection En as ->.
    - injection En as <-. destruct Hname as [H|H]; discriminate. }
  destruct Hname as [->| ->].
  - destruct (sbset_create_ok eps n r (INR n / 2) Ho Lr Pr Heps ltac:(lra)) as (p & q & Es & W).
    unfold build_2g in E. cbn [String.eqb Ascii.eqb Bool.eqb bindr] in E. rewrite Es in E.
    cbn [mkloop bindr unigram_logw bigram_logm] in E. rewrite Lr in E.
    exists (BStick n (sb_ord r) p q). injection E as <-. split; [reflexivity|]. split; [reflexivity|]. split.
    + apply C172_creation; auto. fold n. rewrite EN. exact W.
    + split; [exact (fun _ => I)|]. intros _. exact Hp.
  - destruct (cat_2g_ok n 1 Hn ltac:(lra)) as (a & Es & W).
    unfold build_2g in E. cbn [String.eqb Ascii.eqb Bool.eqb bindr] in E. rewrite Es in E.
    cbn [mkloop bindr unigram_logw bigram_logm] in E.
    exists (BCat a a). injection E as <-. split; [reflexivity|]. split; [reflexivity|]. split.
    + apply C172_creation; auto. fold n. rewrite EN. exact W.
    + split; [rewrite Hp; discriminate|contradiction].
Qed.

(** ** Alignments *)
Lemma bg_acc_aligned amax k D scale l skel s x g : NoDup (params skel) -> bg_good k D l skel s ->
  utt_ok k D skel (lu_utt l (bg_trans s) x) -> lu_ali x = Some g ->
  bg_acc amax scale l (inst (forms (bg_pars s)) skel) (bg_set s) (bg_trans s) x =
  Err (match bg_set s with BStick _ _ _ _ => RuntimeError | BCat _ _ => TypeError end).
Proof.
  intros Hnd (T & _) H Ea. assert (H' := H). destruct H' as (Hst & _ & Ho & Hn & _).
  set (u := lu_utt l (bg_trans s) x) in *.
  set (m := inst (forms (bg_pars s)) skel). assert (Hw : wf m) by (now apply (inst_wf k D)).
  assert (Ho' : forall o, In o (u_order u) -> (o < size m)%nat).
  { intros o Hin. unfold m. rewrite (inst_size k D); auto. }
  destruct (C80_defined amax m (u_graph u) (u_order u) (u_own u) scale (u_stats u) Ho' Hst) as ([v c] & E).
  assert (Eacc : hmm_accumulate m (cg_n (u_graph u)) (u_order u) c (u_stats u) = Some (acc_of amax scale skel (bg_pars s) u)).
  { destruct (utt_rows amax k D scale skel Hnd (bg_pars s) u T H) as [A _].
    unfold utt_acc in A. fold m in A. rewrite E in A. exact A. }
  unfold bg_acc. fold u. cbv zeta. rewrite E. cbn [bindr snd]. rewrite Eacc.
  destruct (hmm_ellh_soft amax m (u_graph u) (u_order u) scale (u_stats u) Hw Ho' _ v c E) as (posts & lnm & _ & _ & _ & Hc).
  rewrite Hc. cbn [c_trans].
  assert (Eo : u_own u = false) by (unfold u, lu_utt; rewrite Ea; now destruct g). rewrite Eo.
  destruct (bg_set s); reflexivity.
Qed.

(** A step with one utterance that has an alignment fails, whatever the others. *)
Theorem C172_alignments_fail : forall amax k D scale w lrate uw group l skel utts s,
  NoDup (params skel) -> bg_loop_ok l -> bg_good k D l skel s ->
  Forall (fun x => utt_ok k D skel (lu_utt l (bg_trans s) x)) utts ->
  (exists x, In x utts /\ lu_ali x <> None) ->
  bg_step amax scale w lrate uw group l skel utts s =
  Err (match bg_set s with BStick _ _ _ _ => RuntimeError | BCat _ _ => TypeError end).
Proof.
  intros amax k D scale w lrate uw group l skel utts s Hnd Hlo HG HU Hx. unfold bg_step.
  set (e := match bg_set s with BStick _ _ _ _ => RuntimeError | BCat _ _ => TypeError end).
  set (f := bg_acc amax scale l (inst (forms (bg_pars s)) skel) (bg_set s) (bg_trans s)).
  assert (E : mapM f utts = Err e); [|now rewrite E]. destruct Hx as (x & Hin & Hx).
  induction HU as [|y ys Hy HU IH]; [contradiction|]. cbn [mapM]. destruct (lu_ali y) as [g|] eqn:Ea.
  - unfold f at 1. rewrite (bg_acc_aligned amax k D scale l skel s y g Hnd HG Hy Ea). reflexivity.
  - unfold f at 1. rewrite (bg_acc_ok amax k D scale l skel Hnd Hlo s y HG (conj Ea Hy)). cbn [bindr].
    destruct Hin as [->|Hin]; [congruence|]. rewrite (IH Hin). reflexivity.
Qed.

(** ** Dirichlet distributions *)

(** Training the emissions only never decreases the bound. *)
Theorem C173_emissions_training_partial : forall amax k D scale w steps l skel utts s,
  0 <= scale -> 0 <= w -> NoDup (params skel) -> bg_loop_ok l ->
  bg_good k D l skel s -> Forall (bg_utt_ok k D l skel s) utts ->
  Forall (fun x : R * bool * list nat => 0 <= fst (fst x) <= 1 /\ snd (fst x) = false) steps ->
  exists s', bg_train amax scale w steps l skel utts s = Ok s' /\
    bg_good k D l skel s' /\ Forall (bg_utt_ok k D l skel s') utts /\
    bg_bound scale w l skel utts s <= bg_bound scale w l skel utts s'.
Proof.
  intros amax k D scale w steps l skel utts s Hs Hw Hnd Hlo HG HU F. revert s HG HU.
  induction F as [|[[lrate uw] group] steps [Hr Hf] F IH]; intros s HG HU.
  - exists s. split; [reflexivity|]. split; [exact HG|]. split; [exact HU|lra].
  - cbn [fst snd] in Hr, Hf. subst uw.
    destruct (C173_step_partial amax k D scale w lrate false group l skel utts s Hs Hw Hnd Hlo Hr HG HU) as (s1 & E1 & G1 & F1 & L1).
    destruct (C172_set_update amax k D scale w lrate false group l skel utts s s1 Hs Hw Hr Hnd Hlo HG HU E1) as (A & _).
    destruct (A eq_refl) as [A1 _]. cbv zeta in L1. rewrite A1 in L1.
    rewrite (sumf_zero _ utts) in L1; [|intros x _; apply sumf_zero; intros i _; apply sumf_zero; intros; ring].
    destruct (IH s1) as (s2 & E2 & G2 & F2 & L2); auto.
    exists s2. cbn [bg_train]. rewrite E1. split; [exact E2|]. split; [exact G2|]. split; [exact F2|lra].
Qed.

(** Two phones of two states; the first one begins, the second one ends. *)
Definition bx_loop : ploop :=
  {| pl_weights := 0;
     pl_graph := {| cg_n := 4; cg_init := fun i => if Nat.eqb i 0 then Fin 0 else NInf;
                    cg_trans := fun i j =>
                      if Nat.eqb i j || (Nat.even i && Nat.eqb j (S i)) then Fin (- ln 2) else NInf;
                    cg_final := fun i => if Nat.eqb i 3 then Fin 0 else NInf |};
     pl_order := [0; 1; 2; 3]%nat; pl_starts := [0; 2]%nat; pl_ends := [1; 3]%nat |}.
Definition bx_utt : lutt := {| lu_ali := None; lu_stats := map nd_suff_stats [[0]; [1]; [2]; [3]] |}.
Definition bx_cat : bset := BCat [[1; 1]; [1; 1]] [[1; 1]; [1; 1]].
Definition bx_stick : bset := BStick 2 [0; 1]%nat [(1, 1); (1, 1); (1, 1); (1, 1)] [(1, 1); (1, 1); (1, 1); (1, 1)].

Lemma bx_loop_ok : bg_loop_ok bx_loop.
Proof. split; [exact rx_loop_ok|reflexivity]. Qed.

Lemma bx_self e : In e (pl_ends bx_loop) -> ex (cg_trans (pl_graph bx_loop) e e) <= 1.
Proof. exact (px_self e). Qed.

Lemma bx_cat_ok : bg_ok 2 2 bx_cat.
Proof.
  assert (H : dir_ok 2 [1; 1]).
  { split; [reflexivity|]. split; [lia|]. constructor; [lra|]. constructor; [lra|constructor]. }
  cbn. split; [reflexivity|]. split; [reflexivity|]. split; repeat constructor; try lra; apply H.
Qed.

Lemma bx_stick_ok : bg_ok 2 2 bx_stick.
Proof.
  cbn. split; [reflexivity|]. split; [apply order_01|]. split; [reflexivity|]. split; [reflexivity|].
  split; repeat constructor; cbn; lra.
Qed.

Lemma bx_good b : bg_ok 2 2 b -> bg_good KDiag 1 bx_loop rx_skel (bg_init bx_loop b rx_st).
Proof. intros W. apply C172_creation; [apply bx_loop_ok|apply rx_typed|exact W|apply bx_self]. Qed.

(** One path only *)
Lemma bx_path tr ls a b c d : (forall i j, ~ (In i [1; 3]%nat /\ In j [0; 2]%nat) -> tr i j = cg_trans (pl_graph bx_loop) i j) ->
  In [a; b; c; d] (paths 4 4) -> [a; b; c; d] <> [0; 1; 2; 3]%nat ->
  path_prob (with_trans (pl_graph bx_loop) tr) ls [a; b; c; d] = 0.
Proof.
  intros Ht Hin Hne.
  destruct ls as [|r0 [|r1 [|r2 [|r3 [|r4 ls]]]]]; [reflexivity|cbn [path_prob tail_prob]; ring..| |cbn [path_prob tail_prob]; ring].
  cbn [path_prob tail_prob with_trans cg_init cg_trans cg_final].
  destruct (Nat.eq_dec a 0) as [->|Na].
  2:{ cbn [bx_loop pl_graph cg_init]. destruct (Nat.eqb_spec a 0); [contradiction|]. cbn [ex]. ring. }
  destruct (Nat.eq_dec d 3) as [->|Nd].
  2:{ cbn [bx_loop pl_graph cg_final]. destruct (Nat.eqb_spec d 3); [contradiction|]. cbn [ex]. ring. }
  assert (L : (b < 4 /\ c < 4)%nat).
  { apply paths_in in Hin. destruct Hin as [_ H]. rewrite Forall_forall in H. split; apply H; simpl; auto. }
  rewrite (Ht 0%nat b) by (simpl; lia). rewrite (Ht c 3%nat) by (simpl; lia).
  destruct L as [Hb Hc].
  do 4 (destruct b as [|b]; [do 4 (destruct c as [|c]; [try (cbn [bx_loop pl_graph cg_trans Nat.eqb Nat.even andb orb ex]; ring); try congruence; try (rewrite (Ht 0%nat 2%nat) by (simpl; lia); cbn [bx_loop pl_graph cg_trans Nat.eqb Nat.even andb orb ex]; ring); try (rewrite (Ht 0%nat 3%nat) by (simpl; lia); cbn [bx_loop pl_graph cg_trans Nat.eqb Nat.even andb orb ex]; ring); try (rewrite (Ht 1%nat 3%nat) by (simpl; lia); cbn [bx_loop pl_graph cg_trans Nat.eqb Nat.even andb orb ex]; ring)|]); exfalso; lia|]). exfalso; lia.
Qed.

Lemma paths_four n p : In p (paths n 4) -> exists a b c d, p = [a; b; c; d].
Proof.
  intros H. assert (L := paths_length _ _ _ H). destruct p as [|a [|b [|c [|d [|e p]]]]]; try discriminate. eauto.
Qed.

Lemma bx_trans b i j : bg_ok 2 2 b -> ~ (In i [1; 3]%nat /\ In j [0; 2]%nat) ->
  bg_trans (bg_init bx_loop b rx_st) i j = cg_trans (pl_graph bx_loop) i j.
Proof.
  intros W H. exact (proj2 (bg_tune_tuned bx_loop b (cg_trans (pl_graph bx_loop)) bx_loop_ok W bx_self) i j H).
Qed.

Lemma bx_utt_ok b : bg_ok 2 2 b -> bg_utt_ok KDiag 1 bx_loop rx_skel (bg_init bx_loop b rx_st) bx_utt.
Proof.
  intros W. split; [reflexivity|].
  unfold utt_ok, lu_utt, bx_utt. cbn [lu_ali u_stats u_order u_graph lu_stats].
  split; [discriminate|]. split.
  - exists [[0]; [1]; [2]; [3]]. split; [reflexivity|]. repeat (constructor; [split; [reflexivity|exact I]|]). constructor.
  - split; [intros o Hin; change (In o [0; 1; 2; 3]%nat) in Hin; change (o < 4)%nat; simpl in Hin; lia|]. split; [reflexivity|].
    exists [0; 1; 2; 3]%nat. split; [apply paths_in; split; [reflexivity|repeat constructor; lia]|].
    unfold prior_prob. cbn [length map repeat path_prob tail_prob with_trans cg_init cg_trans cg_final].
    assert (T := proj2 (proj2 (proj2 (bx_good b W))) 0%nat 1%nat ltac:(cbn; lia) ltac:(cbn; lia)). cbv zeta in T.
    change (nth 0 (pl_ends bx_loop) 0%nat) with 1%nat in T. change (nth 1 (pl_starts bx_loop) 0%nat) with 2%nat in T.
    rewrite (bx_trans b 1 1 W) in T by (simpl; lia).
    assert (E12 : 0 < ex (bg_trans (bg_init bx_loop b rx_st) 1%nat 2%nat)).
    { rewrite T. apply Rmult_lt_0_compat; [|apply exp_pos]. cbn -[exp ln]. rewrite rx_half. lra. }
    rewrite (bx_trans b 0 1 W), (bx_trans b 2 3 W) by (simpl; lia).
    cbn [bx_loop pl_graph cg_init cg_trans cg_final Nat.eqb Nat.even andb orb ex]. rewrite rx_half, exp_0.
    repeat (apply Rmult_lt_0_compat; try lra); exact E12.
Qed.

(** The expected counts: the second phone follows the first one. *)
Lemma bx_count b i j : bg_ok 2 2 b -> (i < 2)%nat -> (j < 2)%nat ->
  bg_count 1 bx_loop rx_skel (bg_init bx_loop b rx_st) bx_utt i j = if Nat.eqb i 0 && Nat.eqb j 1 then 1 else 0.
Proof.
  intros W Hi Hj. unfold bg_count. cbv zeta. set (s := bg_init bx_loop b rx_st). set (u := lu_utt bx_loop (bg_trans s) bx_utt).
  set (fr := frames 1 (utt_ems rx_skel (bg_pars s) u) (u_stats u)).
  assert (Hev : 0 < evidence (u_graph u) fr) by exact (bg_evidence KDiag 1 1 bx_loop rx_skel s bx_utt (bx_good b W) (bx_utt_ok b W)).
  set (v := if Nat.eqb i 0 && Nat.eqb j 1 then 1 else 0).
  transitivity (expect (u_graph u) fr (fun _ => v)).
  - unfold expect. apply sumf_ext. intros p Hp. change (length fr) with 4%nat in Hp. change (cg_n (u_graph u)) with 4%nat in Hp.
    assert (Hp' := Hp). destruct (paths_four _ _ Hp) as (p0 & p1 & p2 & p3 & ->).
    destruct (list_eq_dec Nat.eq_dec [p0; p1; p2; p3] [0; 1; 2; 3]%nat) as [E|E].
    + rewrite E. f_equal. unfold v.
      destruct i as [|[|i]]; [| |lia]; (destruct j as [|[|j]]; [| |lia]); unfold bigram_count; cbn; rewrite ?sumf_cons, ?sumf_nil; unfold sumf; cbn; lra.
    + change (u_graph u) with (with_trans (pl_graph bx_loop) (bg_trans s)).
      rewrite (bx_path (bg_trans s) fr p0 p1 p2 p3); auto; [unfold Rdiv; ring|]. intros a c H. now apply bx_trans.
  - unfold expect. rewrite sumf_scal_r. unfold Rdiv. rewrite sumf_scal_r. fold (evidence (u_graph u) fr). field. lra.
Qed.

(** The counts go to the distribution of the first phone, the graph reads the one
    of the second: the likelihood does not change, the divergence increases. *)
Theorem C173_refuted : exists l skel utts s, bg_loop_ok l /\ NoDup (params skel) /\
  bg_good KDiag 1 l skel s /\ Forall (bg_utt_ok KDiag 1 l skel s) utts /\
  forall amax, exists s', bg_step amax 1 1 1 true [] l skel utts s = Ok s' /\
    bg_bound 1 1 l skel utts s' < bg_bound 1 1 l skel utts s.
Proof.
  assert (N : NoDup (params rx_skel)) by (constructor; [intros []|constructor]).
  set (s := bg_init bx_loop bx_cat rx_st). assert (W := bx_cat_ok).
  assert (G := bx_good bx_cat W). fold s in G.
  assert (F : Forall (bg_utt_ok KDiag 1 bx_loop rx_skel s) [bx_utt]) by (constructor; [exact (bx_utt_ok bx_cat W)|constructor]).
  exists bx_loop, rx_skel, [bx_utt], s. split; [apply bx_loop_ok|]. split; [exact N|].
  split; [exact G|]. split; [exact F|]. intros amax.
  destruct (C173_step_partial amax KDiag 1 1 1 1 true [] bx_loop rx_skel [bx_utt] s ltac:(lra) ltac:(lra) N bx_loop_ok ltac:(lra) G F)
    as (s' & E & G' & F' & _).
  exists s'. split; [exact E|].
  destruct (C172_set_update amax KDiag 1 1 1 1 true [] bx_loop rx_skel [bx_utt] s s' ltac:(lra) ltac:(lra) ltac:(lra) N bx_loop_ok G F E)
    as (_ & A & Ap).
  specialize (A eq_refl). change (bg_set s) with bx_cat in A. cbn [bx_cat] in A. destruct A as (q' & Eq & Lq & A).
  change (length (pl_starts bx_loop)) with 2%nat in *.
  assert (Q : q' = [[1; 2]; [1; 1]]).
  { destruct G' as (_ & W' & _). rewrite Eq in W'. destruct W' as (_ & _ & _ & Fq).
    destruct q' as [|r0 [|r1 [|r2 q']]]; try discriminate.
    inversion Fq as [|? ? (L0 & _) Fq']; subst. inversion Fq' as [|? ? (L1 & _) _]; subst.
    change (length (pl_starts bx_loop)) with 2%nat in L0, L1.
    destruct r0 as [|a [|b [|? r0]]]; try discriminate. destruct r1 as [|c [|d [|? r1]]]; try discriminate.
    assert (H := fun i j Hi Hj => A i j Hi Hj). cbv zeta in H.
    assert (A00 := H 0%nat 0%nat ltac:(lia) ltac:(lia)). assert (A01 := H 0%nat 1%nat ltac:(lia) ltac:(lia)).
    assert (A10 := H 1%nat 0%nat ltac:(lia) ltac:(lia)). assert (A11 := H 1%nat 1%nat ltac:(lia) ltac:(lia)).
    rewrite sumf_cons, sumf_nil in A00, A01, A10, A11. unfold s in A00, A01, A10, A11.
    rewrite (bx_count bx_cat) in A00, A01, A10, A11 by (auto; lia). cbn in A00, A01, A10, A11.
    replace a with 1 by lra. replace b with 2 by lra. replace c with 1 by lra. replace d with 1 by lra. reflexivity. }
  subst q'.
  assert (Pp : forall p, bg_pars s' p = bg_pars s p) by (intros p; apply Ap; intros []).
  assert (Ho : forall i j, ~ (In i [1; 3]%nat /\ In j [0; 2]%nat) -> bg_trans s' i j = cg_trans (pl_graph bx_loop) i j).
  { intros i j H. rewrite (bg_step_eq amax KDiag 1 1 bx_loop rx_skel N bx_loop_ok 1 1 true [] [bx_utt] s G F) in E. injection E as <-.
    rewrite (proj2 (bg_next_tuned amax KDiag 1 1 bx_loop rx_skel bx_loop_ok 1 1 true [] [bx_utt] s ltac:(lra) ltac:(lra) G F) i j H).
    now apply bx_trans. }
  set (u := lu_utt bx_loop (bg_trans s) bx_utt). set (u' := lu_utt bx_loop (bg_trans s') bx_utt).
  assert (E12 : ex (bg_trans s' 1%nat 2%nat) = ex (bg_trans s 1%nat 2%nat)).
  { assert (T := proj2 (proj2 (proj2 G)) 0%nat 1%nat ltac:(cbn; lia) ltac:(cbn; lia)).
    assert (T' := proj2 (proj2 (proj2 G')) 0%nat 1%nat ltac:(cbn; lia) ltac:(cbn; lia)). cbv zeta in T, T'.
    change (nth 0 (pl_ends bx_loop) 0%nat) with 1%nat in T, T'. change (nth 1 (pl_starts bx_loop) 0%nat) with 2%nat in T, T'.
    rewrite T, T', Eq. change (bg_set s) with bx_cat. rewrite (Ho 1%nat 1%nat) by (simpl; lia).
    unfold s. rewrite (bx_trans bx_cat) by (auto; simpl; lia). reflexivity. }
  assert (Ee : utt_ems rx_skel (bg_pars s') u' = utt_ems rx_skel (bg_pars s) u).
  { unfold utt_ems. change (u_order u') with (u_order u). apply map_ext. intros o. f_equal. f_equal. cbn [inst rx_skel].
    f_equal. unfold forms. now rewrite (Pp 1%nat). }
  assert (Eb : loglik 1 rx_skel (bg_pars s') (u_graph u') u' = loglik 1 rx_skel (bg_pars s) (u_graph u) u).
  { unfold loglik. f_equal. rewrite Ee. change (u_stats u') with (u_stats u). set (fr := frames _ _ _). unfold evidence.
    change (cg_n (u_graph u')) with (cg_n (u_graph u)). apply sumf_ext. intros p Hp. change (length fr) with 4%nat in Hp. change (cg_n (u_graph u)) with 4%nat in Hp.
    destruct (paths_four _ _ Hp) as (p0 & p1 & p2 & p3 & ->).
    change (u_graph u) with (with_trans (pl_graph bx_loop) (bg_trans s)). change (u_graph u') with (with_trans (pl_graph bx_loop) (bg_trans s')).
    assert (Hs : forall a c, ~ (In a [1; 3]%nat /\ In c [0; 2]%nat) -> bg_trans s a c = cg_trans (pl_graph bx_loop) a c) by (intros; now apply bx_trans).
    destruct (list_eq_dec Nat.eq_dec [p0; p1; p2; p3] [0; 1; 2; 3]%nat) as [Ep|Ep].
    - rewrite Ep. destruct fr as [|r0 [|r1 [|r2 [|r3 [|r4 fr]]]]];
        [reflexivity|cbn [path_prob tail_prob]; ring..| |cbn [path_prob tail_prob]; ring].
      cbn [path_prob tail_prob with_trans cg_init cg_trans cg_final].
      rewrite E12, (Ho 0%nat 1%nat), (Ho 2%nat 3%nat), (Hs 0%nat 1%nat), (Hs 2%nat 3%nat) by (simpl; lia). reflexivity.
    - now rewrite !bx_path. }
  unfold bg_bound. rewrite !sumf_cons, !sumf_nil. cbv zeta. fold u u'. rewrite Eb.
  assert (Et : total_kl rx_skel (bg_pars s') = total_kl rx_skel (bg_pars s)).
  { unfold total_kl. cbn [params rx_skel]. rewrite !sumf_cons, !sumf_nil. now rewrite (Pp 1%nat). }
  rewrite Et, Eq. change (bg_set s) with bx_cat. cbn [bg_kl bx_cat length seq nth]. rewrite !sumf_cons, !sumf_nil. cbn [nth].
  assert (D1 : dir_ok 2 [1; 1]).
  { split; [reflexivity|]. split; [lia|]. constructor; [lra|]. constructor; [lra|constructor]. }
  assert (D2 : dir_ok 2 [1; 2]).
  { split; [reflexivity|]. split; [lia|]. constructor; [lra|]. constructor; [lra|constructor]. }
  rewrite <- (Mx_Proofs.dir_kl_cross 2 [1; 2] [1; 1] D2 D1).
  assert (KL : dir_kl [1; 2] [1; 1] = ln 2 - 1 / 2).
  { rewrite dir_kl_dkl by (discriminate || reflexivity). unfold dkl. simpl.
    replace (1 + (2 + 0)) with (1 + 1 + 1) by lra. replace (1 + (1 + 0)) with (1 + 1) by lra.
    replace 2 with (1 + 1) by lra. rewrite !lgamma_rec, !digamma_rec, !lgamma_1, ln_1 by lra. field. }
  rewrite KL. assert (X := exp_ineq1 (- (1 / 2)) ltac:(lra)).
  assert (1 / 2 < ln 2); [|lra]. apply Ropp_lt_cancel. rewrite <- ln_Rinv by lra. rewrite <- (ln_exp (- (1 / 2))). apply ln_increasing; lra.
Qed.

(** The same loop with sticks: the bound increases in every training, the first
    stick of the first phone is passed once, the others stay. *)
Example C172_ex : forall amax, let s := bg_init bx_loop bx_stick rx_st in
  (exists s', bg_step amax 1 1 1 true [] bx_loop rx_skel [bx_utt] s = Ok s' /\
     bg_set s' = BStick 2 [0; 1]%nat [(1, 1); (1, 1); (1, 1); (1, 1)] [(1, 2); (2, 1); (1, 1); (1, 1)]) /\
  (exists s', bg_train amax 1 1 [(1, true, []); (1 / 2, true, [1%nat])] bx_loop rx_skel [bx_utt] s = Ok s' /\
     bg_bound 1 1 bx_loop rx_skel [bx_utt] s <= bg_bound 1 1 bx_loop rx_skel [bx_utt] s').
Proof.
  intros amax s. assert (N : NoDup (params rx_skel)) by (constructor; [intros []|constructor]).
  assert (W := bx_stick_ok). assert (G := bx_good bx_stick W). fold s in G.
  assert (F : Forall (bg_utt_ok KDiag 1 bx_loop rx_skel s) [bx_utt]) by (constructor; [exact (bx_utt_ok bx_stick W)|constructor]).
  split.
  - destruct (C172_step amax KDiag 1 1 1 1 true [] bx_loop rx_skel [bx_utt] s ltac:(lra) ltac:(lra) N bx_loop_ok ltac:(lra) I G F)
      as (s' & E & _).
    exists s'. split; [exact E|].
    destruct (C172_set_update amax KDiag 1 1 1 1 true [] bx_loop rx_skel [bx_utt] s s' ltac:(lra) ltac:(lra) ltac:(lra) N bx_loop_ok G F E)
      as (_ & A & _).
    specialize (A eq_refl). change (bg_set s) with bx_stick in A. cbn [bx_stick] in A. destruct A as (q' & Eq & Lq & A).
    rewrite Eq. f_equal. change (length (pl_starts bx_loop)) with 2%nat in *.
    assert (C00 := bx_count bx_stick 0 0 W ltac:(lia) ltac:(lia)). assert (C01 := bx_count bx_stick 0 1 W ltac:(lia) ltac:(lia)).
    assert (C10 := bx_count bx_stick 1 0 W ltac:(lia) ltac:(lia)). assert (C11 := bx_count bx_stick 1 1 W ltac:(lia) ltac:(lia)).
    fold s in C00, C01, C10, C11. cbn [Nat.eqb andb] in C00, C01, C10, C11.
    assert (A00 := A 0%nat 0%nat ltac:(lia) ltac:(lia)). assert (A01 := A 0%nat 1%nat ltac:(lia) ltac:(lia)).
    assert (A10 := A 1%nat 0%nat ltac:(lia) ltac:(lia)). assert (A11 := A 1%nat 1%nat ltac:(lia) ltac:(lia)).
    cbn [nth skipn] in A00, A01, A10, A11. rewrite ?sumf_cons, ?sumf_nil, ?C00, ?C01, ?C10, ?C11 in A00.
    rewrite ?sumf_cons, ?sumf_nil, ?C00, ?C01, ?C10, ?C11 in A01. rewrite ?sumf_cons, ?sumf_nil, ?C00, ?C01, ?C10, ?C11 in A10.
    rewrite ?sumf_cons, ?sumf_nil, ?C00, ?C01, ?C10, ?C11 in A11.
    destruct q' as [|a [|b [|c [|d [|? q']]]]]; try discriminate.
    unfold slice in A00, A01, A10, A11. cbn in A00, A01, A10, A11.
    f_equal; [rewrite A00; f_equal; lra|]. f_equal; [rewrite A01; f_equal; lra|]. f_equal; [rewrite A10; f_equal; lra|].
    f_equal. rewrite A11. f_equal; lra.
  - destruct (C172_training amax KDiag 1 1 1 [(1, true, []); (1 / 2, true, [1%nat])] bx_loop rx_skel [bx_utt] s) as (s' & E & _ & _ & B); auto; try lra.
    + apply bx_loop_ok.
    + exact I.
    + constructor; [cbn; lra|]. constructor; [cbn; lra|constructor].
    + exists s'. split; [exact E|exact B].
Qed.

(** With Dirichlet distributions, training the emissions of that loop *)
Example C173_ex : forall amax, let s := bg_init bx_loop bx_cat rx_st in
  exists s', bg_train amax 1 1 [(1, false, [1%nat]); (1 / 2, false, [1%nat])] bx_loop rx_skel [bx_utt] s = Ok s' /\
     bg_bound 1 1 bx_loop rx_skel [bx_utt] s <= bg_bound 1 1 bx_loop rx_skel [bx_utt] s'.
Proof.
  intros amax s. assert (N : NoDup (params rx_skel)) by (constructor; [intros []|constructor]).
  destruct (C173_emissions_training_partial amax KDiag 1 1 1 [(1, false, [1%nat]); (1 / 2, false, [1%nat])] bx_loop rx_skel [bx_utt] s)
    as (s' & E & _ & _ & B); auto; try lra.
  - apply bx_loop_ok.
  - exact (bx_good bx_cat bx_cat_ok).
  - constructor; [exact (bx_utt_ok bx_cat bx_cat_ok)|constructor].
  - constructor; [cbn; split; [lra|reflexivity]|]. constructor; [cbn; split; [lra|reflexivity]|constructor].
  - exists s'. split; [exact E|exact B].
Qed.

Print Assumptions C172_set_update.
Print Assumptions C172_training.
Print Assumptions C172_mkphoneloop.
Print Assumptions C172_mkphoneloopbigram.
Print Assumptions C172_alignments_fail.
Print Assumptions C173_step_partial.
Print Assumptions C173_refuted.
