(** C184: training with an utterance the graph cannot produce. *)
From Coq Require Import Reals String List Arith Bool Lia Lra Permutation ZArith.
From Verif Require Import Prelude Vec Edit_Model Edit_Proofs Dec_Model Dec_Spec Dec_Proofs Opt_Model Opt_Spec Opt_Proofs Opt_Pipe.
From Verif Require Import FB_Model FB_Spec FB_Proofs FB_Viterbi Graph_Model Graph_Spec Graph_Proofs Graph_Eps Graph_Hist
  Graph_Lang Graph_Props Gb_Model Gb_Spec Gb_Lang Gb_Proofs Gb_Loop Gb_Props Cl_Props Pa_Model Pa_Spec Pa_Proofs Pa_Rank Pa_Props.
From Verif Require Import Gibbs Lgamma Set_Model Set_Spec Set_Proofs
  HMM_Model HMM_Spec HMM_Proofs HMM_Props Dist_Model Dist_Spec Dist_Proofs Mat NW_Model NW_Spec
  SB_Model SB_Spec Sk_Model Sk_Spec Df_Model Pl_Model
  Vt_Model Vt_Spec Vt_Proofs Vt_Props Vl_Model Vl_Spec Vl_Proofs Vl_Props Mx_Model Mx_Spec Mx_Proofs Mx_Props
  Pw_Model Pw_Spec Pw_Proofs Pw_Props Bg_Model Bg_Spec Bg_Proofs Bg_Props
  Dt_Model Dt_Spec Dt_Proofs Dt_Props Dl_Model Dl_Spec Dl_Proofs Dl_Props Db_Model Db_Proofs Db_Props Rp_Graph Rp_Model Rp_Spec Rp_Proofs Rp_Start
  Rp_Props De_Model De_Spec De_Proofs De_Props Na_Model Na_Spec Na_Proofs.
From Verif Require Import Set_Model Set_Spec Set_Proofs.
Import ListNotations.
Local Open Scope R_scope.

(** ** Agreement with the model of the other utterances *)
Lemma nums_val n p r j : nums n p = Some r -> (j < n)%nat -> nval (p j) = Some (num_val (p j)).
Proof.
  unfold nums. destruct (forallb num_ok (map p (seq 0 n))) eqn:F; [|discriminate]. intros _ Hj.
  assert (Fj := proj1 (forallb_forall _ _) F (p j) (in_map p _ _ (proj2 (in_seq n 0 j) ltac:(lia)))).
  destruct (p j); cbn in Fj |- *; congruence.
Qed.

Lemma all_some_in {A} (l : list (option A)) r a : all_some l = Some r -> In a l -> exists b, a = Some b.
Proof.
  revert r. induction l as [|x l IH]; intros r E H; [destruct H|]. cbn in E. destruct x as [x|]; [|discriminate].
  destruct (all_some l) as [t|]; [|discriminate]. destruct H as [<-|H]; [eauto|now apply (IH t)].
Qed.

Lemma nframe_some n llhs : forall posts rs v, all_some (map2 (frame_value n) llhs posts) = Some v -> all_some (map (nums n) posts) = Some rs ->
  map2 nframe_value llhs (map (map Some) rs) = map Some v.
Proof.
  induction llhs as [|y llhs IH]; intros posts rs v E1 E2.
  - cbn in E1. injection E1 as <-. reflexivity.
  - destruct posts as [|p posts]; cbn in E1, E2.
    + injection E1 as <-. injection E2 as <-. reflexivity.
    + unfold frame_value in E1 at 1. destruct (nums n p) as [r|]; [|discriminate].
      destruct (all_some (map (nums n) posts)) as [rs'|] eqn:E3; [|discriminate]. injection E2 as <-.
      destruct (all_some (map2 (frame_value n) llhs posts)) as [v'|] eqn:E4; [|discriminate]. injection E1 as <-.
      cbn [map map2]. f_equal; [|now apply (IH posts)]. unfold nframe_value. rewrite <- nsum_some. f_equal.
      clear. revert r. induction y as [|a y IH]; intros [|b r]; cbn; auto. f_equal. apply IH.
Qed.

Lemma nsum_sumf {A} (f : A -> nr) (g : A -> R) l : (forall a, In a l -> f a = Some (g a)) -> nsum (map f l) = Some (sumf g l).
Proof.
  intros H. rewrite (map_ext_in f (fun a => Some (g a)) l H), <- (map_map g Some), nsum_some. reflexivity.
Qed.

Lemma counts_some starts ends trans first : (forall s, In s starts -> nval (first s) = Some (num_val (first s))) ->
  (forall xi e s, In xi trans -> In e ends -> In s starts -> nval (xi e s) = Some (num_val (xi e s))) ->
  nphone_counts starts ends trans first = map Some (phone_counts starts ends trans first).
Proof.
  intros Hf Ht. unfold nphone_counts, phone_counts. rewrite map_map. apply map_ext_in. intros s Hs.
  rewrite (nsum_sumf _ (fun e => sumf (fun xi => num_val (xi e s)) trans)).
  - rewrite Hf by exact Hs. reflexivity.
  - intros e He. apply nsum_sumf. intros xi Hxi. now apply Ht.
Qed.

Lemma nvadd_some u v : nvadd (map Some u) (map Some v) = map Some (vadd u v).
Proof. apply (nvadd_hom Some). intros. reflexivity. Qed.

Lemma nzeros_some n : nzeros n = map Some (vzeros n).
Proof. unfold nzeros, vzeros. now rewrite map_rep. Qed.

Lemma ncolsum_some n rows : ncolsum n (map (map Some) rows) = map Some (colsum n rows).
Proof.
  induction rows as [|r rows IH]; cbn [map ncolsum colsum fold_right]; [apply nzeros_some|].
  unfold ncolsum in IH. rewrite IH. apply nvadd_some.
Qed.

Lemma ncat_some row : ncat_stats (map Some row) = map Some (cat_stats row).
Proof.
  unfold ncat_stats, cat_stats. rewrite nsum_some, map_app. f_equal. apply removelast_map.
Qed.

Lemma rows_some starts ends b trans :
  (forall xi e s, In xi trans -> In e ends -> In s starts -> nval (xi e s) = Some (num_val (xi e s))) ->
  nbg_rows starts ends b trans = map (map Some) (bg_rows starts ends b trans).
Proof.
  intros Ht. unfold nbg_rows, bg_rows. rewrite map_map. apply map_ext_in. intros e He.
  rewrite <- ncolsum_some. f_equal. rewrite map_map. apply map_ext_in. intros xi Hxi.
  assert (E : map (fun s => nval (xi e s)) starts = map Some (map (fun s => num_val (xi e s)) starts)).
  { rewrite map_map. apply map_ext_in. intros s Hs. now apply Ht. }
  rewrite E. destruct b; [apply ncat_some|reflexivity].
Qed.

Lemma nflat_some (D : sdict) : nflat (nlift Some D) = map (fun pv => (fst pv, map Some (snd pv))) (map (fun pm => (fst pm, concat (snd pm))) D).
Proof. unfold nflat, nlift. rewrite !map_map. apply map_ext. intros (p, M). cbn. now rewrite concat_map. Qed.

Lemma hmm_ellh_parts amax m g order own scale stats v c : hmm_ellh amax m g order own Soft scale stats = Ok (v, c) ->
  exists llhs posts lnm, pc_llhs m order scale stats = Ok llhs /\ posteriors g (as_rows llhs) = Ok (posts, lnm) /\
    v = map2 (frame_value (cg_n g)) llhs posts /\
    c = {| c_resps := posts; c_trans := if own then Some (trans_posteriors g (as_rows llhs)) else None; c_scale := scale |}.
Proof.
  unfold hmm_ellh. intros E. destruct (pc_llhs m order scale stats) as [llhs|]; [|discriminate]. cbn [bindr inference] in E.
  destruct (posteriors g (as_rows llhs)) as [(posts, lnm)|] eqn:Ep; [|discriminate]. cbn [bindr fst snd] in E. injection E as <- <-.
  exists llhs, posts, lnm. auto.
Qed.

Section Agree.
  Variables (amax : nat -> (nat -> lp) -> nat) (scale : R) (l : ploop) (m : mset) (d wid : nat) (tr : nat -> nat -> lp) (x : lutt).
  Hypothesis Hwf : wf m.
  Hypothesis Hl : loop_ok l.
  Hypothesis Hf : fits d m (lu_utt l tr x).
  Let u := lu_utt l tr x.

  Lemma own_graph : u_own u = true -> cg_n (u_graph u) = cg_n (pl_graph l).
  Proof using. unfold u, lu_utt. destruct (lu_ali x) as [(g, o)|]; [discriminate|reflexivity]. Qed.

  Lemma trans_ok (llhs : mat) : u_own u = true -> forall xi e s, In xi (trans_posteriors (u_graph u) (as_rows llhs)) -> In e (pl_ends l) -> In s (pl_starts l) ->
    nval (xi e s) = Some (num_val (xi e s)).
  Proof using Hl.
    intros Ho xi e s Hxi He Hs. destruct Hl as (_ & _ & _ & _ & A & B).
    apply (trans_numbers (u_graph u) (as_rows llhs)); [exact Hxi|rewrite own_graph by exact Ho; auto|rewrite own_graph by exact Ho; auto].
  Qed.

  Lemma parts : exists llhs posts lnm c, pc_llhs m (u_order u) scale (u_stats u) = Ok llhs /\ length llhs = length (u_stats u) /\
    posteriors (u_graph u) (as_rows llhs) = Ok (posts, lnm) /\ length posts = length (u_stats u) /\
    hmm_ellh amax m (u_graph u) (u_order u) (u_own u) Soft scale (u_stats u) = Ok (map2 (frame_value (cg_n (u_graph u))) llhs posts, c) /\
    c = {| c_resps := posts; c_trans := if u_own u then Some (trans_posteriors (u_graph u) (as_rows llhs)) else None; c_scale := scale |}.
  Proof using Hf. destruct Hf as (F1 & _ & F3 & _). now apply soft_parts. Qed.

  Lemma emissions_agree v c rs dd posts llhs : c_resps c = posts -> length posts = length (u_stats u) ->
    all_some (map2 (frame_value (cg_n (u_graph u))) llhs posts) = Some v ->
    hmm_accumulate m (cg_n (u_graph u)) (u_order u) c (u_stats u) = Some dd ->
    all_some (map (nums (cg_n (u_graph u))) (c_resps c)) = Some rs ->
    map2 nframe_value llhs (nresps (cg_n (u_graph u)) c) = map Some v /\
    nflat (nhmm_accumulate m (cg_n (u_graph u)) (u_order u) c (u_stats u)) = map (fun pv => (fst pv, map Some (snd pv))) (map (fun pm => (fst pm, concat (snd pm))) dd).
  Proof using Hwf Hf.
    intros Ec Lp Ev Ed Er. destruct Hf as (F1 & _ & F3 & _). split.
    - unfold nresps. rewrite (proj1 (nums_some _ _ _ Er)). rewrite Ec in Er. now apply (nframe_some (cg_n (u_graph u)) llhs posts).
    - rewrite <- nflat_some. unfold hmm_accumulate in Ed. rewrite Er in Ed. injection Ed as <-. f_equal.
      apply nhmm_some; auto. now rewrite Ec.
  Qed.

  Lemma unigram_agree w b : loop_batch amax scale l m wid w tr x = Ok b -> nloop_batch amax scale l m wid w tr x = Ok (numbers b).
  Proof using Hwf Hl Hf.
    unfold loop_batch, nloop_batch. fold u. destruct parts as (llhs & posts & lnm & c & E1 & L1 & E2 & L2 & E3 & Ec).
    rewrite E1, E3. cbn [bindr fst snd]. destruct (all_some (map2 (frame_value (cg_n (u_graph u))) llhs posts)) as [v|] eqn:Ev; [|discriminate].
    destruct (hmm_accumulate m (cg_n (u_graph u)) (u_order u) c (u_stats u)) as [dd|] eqn:Ed; [|discriminate]. intros Eb. injection Eb as <-.
    assert (Ed0 := Ed). unfold hmm_accumulate in Ed0. destruct (all_some (map (nums (cg_n (u_graph u))) (c_resps c))) as [rs|] eqn:Er; [|discriminate].
    clear Ed0. destruct (emissions_agree v c rs dd posts llhs ltac:(now rewrite Ec) L2 Ev Ed Er) as (A & B). rewrite A, B. unfold numbers. cbn [b_llh b_acc].
    rewrite map_app. cbn [map fst snd]. do 5 f_equal. unfold npw_row, pw_row.
    destruct (c_trans c) as [trans|] eqn:Et; [|apply nzeros_some]. rewrite Ec in Et. cbn [c_trans] in Et. destruct (u_own u) eqn:Eo; [|discriminate]. injection Et as <-.
    assert (En : nphone_counts (pl_starts l) (pl_ends l) (trans_posteriors (u_graph u) (as_rows llhs)) (hd (fun _ => NaN) (c_resps c)) =
      map Some (phone_counts (pl_starts l) (pl_ends l) (trans_posteriors (u_graph u) (as_rows llhs)) (hd (fun _ => NaN) (c_resps c)))).
    { apply counts_some; [|now apply trans_ok]. intros s Hs. destruct Hf as (F1 & _).
      destruct (c_resps c) as [|p ps] eqn:Ep; [exfalso; rewrite Ec in Ep; cbn in Ep; subst posts; fold u in F1; destruct (u_stats u); [congruence|discriminate]|].
      cbn [hd]. destruct (all_some_in _ _ (nums (cg_n (u_graph u)) p) Er (or_introl eq_refl)) as (r & Hr).
      apply (nums_val _ _ _ _ Hr). rewrite own_graph by exact Eo. destruct Hl as (_ & _ & _ & _ & Hst & _). now apply Hst. }
    rewrite En. destruct w; auto. apply ncat_some.
  Qed.

  Lemma bigram_agree bs b : bg_batch amax scale l m wid bs tr x = Ok b -> nbg_batch amax scale l m wid bs tr x = Ok (numbers b).
  Proof using Hwf Hl Hf.
    unfold bg_batch, nbg_batch. fold u. destruct parts as (llhs & posts & lnm & c & E1 & L1 & E2 & L2 & E3 & Ec).
    rewrite E1, E3. cbn [bindr fst snd]. destruct (all_some (map2 (frame_value (cg_n (u_graph u))) llhs posts)) as [v|] eqn:Ev; [|discriminate].
    destruct (hmm_accumulate m (cg_n (u_graph u)) (u_order u) c (u_stats u)) as [dd|] eqn:Ed; [|discriminate].
    destruct (c_trans c) as [trans|] eqn:Et; [|destruct bs; discriminate]. intros Eb. injection Eb as <-.
    assert (Ed0 := Ed). unfold hmm_accumulate in Ed0. destruct (all_some (map (nums (cg_n (u_graph u))) (c_resps c))) as [rs|] eqn:Er; [|discriminate].
    clear Ed0. destruct (emissions_agree v c rs dd posts llhs ltac:(now rewrite Ec) L2 Ev Ed Er) as (A & B). rewrite A, B. unfold numbers. cbn [b_llh b_acc].
    rewrite map_app. cbn [map fst snd]. do 5 f_equal. rewrite Ec in Et. cbn [c_trans] in Et. destruct (u_own u) eqn:Eo; [|discriminate]. injection Et as <-.
    rewrite rows_some by now apply trans_ok. now rewrite concat_map.
  Qed.
End Agree.

Lemma nget_numbers p b : nget p (numbers b) = map Some (match dget Nat.eq_dec (b_acc b) p with Some v => v | None => [] end).
Proof.
  unfold nget, numbers. cbn [nb_acc]. induction (b_acc b) as [|(q, v) a IH]; [reflexivity|]. cbn. destruct (Nat.eq_dec p q); [reflexivity|exact IH].
Qed.

(** On the other utterances, and on the update, this model and the one with
    numbers only agree. *)
Theorem C184_numbers : forall amax scale l m d wid tr x, wf m -> loop_ok l -> fits d m (lu_utt l tr x) ->
  (forall w b, loop_batch amax scale l m wid w tr x = Ok b -> nloop_batch amax scale l m wid w tr x = Ok (numbers b)) /\
  (forall s b, bg_batch amax scale l m wid s tr x = Ok b -> nbg_batch amax scale l m wid s tr x = Ok (numbers b)) /\
  (forall s, lu_ali x <> None -> nbg_batch amax scale l m wid s tr x = Err (match s with BCat _ _ => TypeError | BStick _ _ _ _ => RuntimeError end)).
Proof.
  intros amax scale l m d wid tr x Hwf Hl Hf. split; [|split]; intros; [eapply unigram_agree|eapply bigram_agree|]; eauto.
  destruct (parts amax scale l m d tr x Hf) as (llhs & posts & lnm & c & E1 & L1 & E2 & L2 & E3 & Ec).
  unfold nbg_batch. rewrite E1, E3. cbn [bindr snd]. rewrite Ec. cbn [c_trans].
  assert (Eo : u_own (lu_utt l tr x) = false) by (unfold lu_utt; destruct (lu_ali x) as [(g, o)|]; [reflexivity|congruence]).
  rewrite Eo. now destruct s.
Qed.

Theorem C184_numbers_update : forall ds K p bs lrate prior post (q : param),
  let frames := list_sum (map (fun b => length (b_llh b)) bs) in
  let stats := vscale (INR ds / INR frames) (colsum K (map (fun b => match dget Nat.eq_dec (b_acc b) p with Some v => v | None => [] end) bs)) in
  nstats ds K p (map numbers bs) = map Some stats /\
  (p_prior q = prior -> p_post q = post -> p_stats q = stats -> nnew lrate prior post (map Some stats) = map Some (new_nparams lrate q)) /\
  (forall kl, nmessage ds kl (map numbers bs) =
     Some (rsum (map (fun b => INR ds / INR (length (b_llh b)) * rsum (b_llh b) - kl) bs) / INR (length bs * ds))).
Proof.
  intros ds K p bs lrate prior post q frames stats. split; [|split].
  - unfold nstats, stats, frames. rewrite !map_map.
    assert (E : map (fun x => length (nb_llh (numbers x))) bs = map (fun b => length (b_llh b)) bs) by (apply map_ext; intros b; apply map_length).
    rewrite E. rewrite (map_ext (fun x => nget p (numbers x)) (fun b => map Some (match dget Nat.eq_dec (b_acc b) p with Some v => v | None => [] end)))
      by (intros b; apply nget_numbers).
    rewrite <- (map_map (fun b => match dget Nat.eq_dec (b_acc b) p with Some v => v | None => [] end) (map Some)), ncolsum_some.
    unfold vscale. rewrite !map_map. reflexivity.
  - intros E1 E2 E3. unfold new_nparams. rewrite E1, E2, E3. unfold nnew. clearbody stats. clear. revert prior post.
    induction stats as [|s stats IH]; intros [|a prior] [|q post]; cbn; auto. f_equal. apply IH.
  - intros kl. unfold nmessage. rewrite map_map, (nsum_sumf _ (fun b => INR ds / INR (length (b_llh b)) * rsum (b_llh b) - kl)).
    + rewrite map_length. reflexivity.
    + intros b _. unfold nvalue, numbers. cbn [nb_llh]. rewrite map_length, nsum_some. reflexivity.
Qed.

(** ** An utterance the graph cannot produce *)
Lemma nans_length n : length (nans n) = n.
Proof. apply repeat_length. Qed.

Lemma nscale_nans n a : map (nmul a) (nans n) = nans n.
Proof. unfold nans. rewrite map_rep. f_equal. apply nmul_none_r. Qed.

Lemma nsum_nans l n : In None (repeat (None : nr) n) -> l = nans n -> nsum l = None.
Proof. intros H ->. now apply nsum_none. Qed.

Lemma nframe_nans (y : list R) n : (0 < n)%nat -> length y = n -> nframe_value y (repeat None n) = None.
Proof.
  intros H L. unfold nframe_value. apply nsum_none. destruct y as [|a y]; [cbn in L; lia|]. destruct n; [lia|]. cbn. now left.
Qed.

Lemma map_nan1 l : map nan1 l = nans (length l).
Proof. unfold nans, nan1. apply map_const. Qed.

Lemma ncat_nans n : (0 < n)%nat -> ncat_stats (nans n) = nans n.
Proof.
  intros H.
  assert (E : nans n = map nan1 (vzeros n)) by (rewrite map_nan1, vzeros_length; reflexivity). rewrite E at 1.
  rewrite (ncat_hom nan1); try (intros; reflexivity); [|destruct n; [lia|discriminate]].
  rewrite map_nan1. f_equal. unfold cat_stats. rewrite app_length, removelast_length, vzeros_length. cbn. lia.
Qed.

Lemma counts_nan starts ends trans first : (forall s, In s starts -> nval (first s) = None) ->
  nphone_counts starts ends trans first = nans (length starts).
Proof.
  intros Hf. unfold nphone_counts, nans. rewrite <- map_const. apply map_ext_in. intros s Hs. rewrite Hf by exact Hs. apply nadd_none_r.
Qed.

Lemma vadd_zeros n : vadd (vzeros n) (vzeros n) = vzeros n.
Proof.
  unfold vadd, vzeros. induction n as [|n IH]; [reflexivity|]. cbn [repeat map2]. rewrite IH. f_equal. lra.
Qed.

Lemma colsum_zeros {A} n (xs : list A) : colsum n (map (fun _ => vzeros n) xs) = vzeros n.
Proof.
  induction xs as [|x xs IH]; [reflexivity|]. cbn [map]. change (vadd (vzeros n) (colsum n (map (fun _ => vzeros n) xs)) = vzeros n).
  rewrite IH. apply vadd_zeros.
Qed.

Section Impossible.
  Variables (amax : nat -> (nat -> lp) -> nat) (scale : R) (l : ploop) (m : mset) (d wid : nat) (tr : nat -> nat -> lp) (x : lutt).
  Hypothesis Hwf : wf m.
  Hypothesis Hnd : NoDup (params m).
  Hypothesis Hac : accepts d m.
  Hypothesis Hwid : ~ In wid (params m).
  Hypothesis Hl : loop_ok l.
  Let u := lu_utt l tr x.
  Hypothesis Hf : fits d m u.
  Hypothesis Hcov : covers m u.
  Hypothesis Hsz : (0 < size m)%nat.
  Hypothesis Himp : impossible u.

  Lemma imp_parts : exists llhs posts lnm c, pc_llhs m (u_order u) scale (u_stats u) = Ok llhs /\
    hmm_ellh amax m (u_graph u) (u_order u) (u_own u) Soft scale (u_stats u) = Ok (map2 (frame_value (cg_n (u_graph u))) llhs posts, c) /\
    posteriors (u_graph u) (as_rows llhs) = Ok (posts, lnm) /\
    c = {| c_resps := posts; c_trans := if u_own u then Some (trans_posteriors (u_graph u) (as_rows llhs)) else None; c_scale := scale |} /\
    map2 nframe_value llhs (nresps (cg_n (u_graph u)) c) = nans (length (u_stats u)) /\
    (forall p r k tl, shape m p = Some (r, k) -> dget Nat.eq_dec (nflat (nhmm_accumulate m (cg_n (u_graph u)) (u_order u) c (u_stats u)) ++ tl) p = Some (nans (r * k))) /\
    (forall v, dget Nat.eq_dec (nflat (nhmm_accumulate m (cg_n (u_graph u)) (u_order u) c (u_stats u)) ++ [(wid, v)]) wid = Some v) /\
    length llhs = length (u_stats u) /\ nresps (cg_n (u_graph u)) c = map (fun _ => repeat None (cg_n (u_graph u))) (u_stats u).
  Proof using Hwf Hnd Hac Hwid Hf Hcov Hsz Himp.
    assert (Hf0 := Hf). destruct Hf0 as (F1 & F2 & F3 & F4). destruct (soft_parts amax scale m (u_graph u) (u_order u) (u_own u) (u_stats u) F1 F3)
      as (llhs & posts & lnm & c & E1 & L1 & E2 & L2 & E3 & Ec).
    assert (En : nresps (cg_n (u_graph u)) c = map (fun _ => repeat None (cg_n (u_graph u))) llhs).
    { apply (nresps_nan (u_graph u) (u_order u) F4 llhs posts lnm c); [exact E2|congruence|now rewrite Ec|]. rewrite L1. exact Himp. }
    assert (En' : nresps (cg_n (u_graph u)) c = map (fun _ => repeat None (cg_n (u_graph u))) (u_stats u)).
    { rewrite En, !map_const. now rewrite L1. }
    assert (Ea : nhmm_accumulate m (cg_n (u_graph u)) (u_order u) c (u_stats u) = nlift nan1 (accumulate m (u_stats u) (map (fun _ => vzeros (size m)) (u_stats u)))).
    { exact (nhmm_nan m (u_graph u) (u_order u) (u_stats u) Hwf F1 F4 c (cg_n (u_graph u)) Hcov eq_refl En'). }
    assert (Lz : length (map (fun _ : list R => vzeros (size m)) (u_stats u)) = length (u_stats u)) by apply map_length.
    assert (Fz : Forall (fun r => length r = size m) (map (fun _ : list R => vzeros (size m)) (u_stats u))).
    { apply Forall_map. apply Forall_forall. intros. apply vzeros_length. }
    exists llhs, posts, lnm, c. repeat (split; [assumption|]). split; [|split; [|split]].
    - rewrite En. assert (Ly : Forall (fun y => length y = cg_n (u_graph u)) llhs).
      { rewrite pc_llhs_ok in E1 by auto. injection E1 as <-. apply Forall_map. apply Forall_forall. intros y _. unfold vscale. now rewrite !map_length. }
      assert (Hn : (0 < cg_n (u_graph u))%nat).
      { rewrite <- F4. specialize (Hcov 0%nat Hsz). destruct (u_order u); [destruct Hcov|cbn; lia]. }
      rewrite <- L1. clear - Ly Hn. induction llhs as [|y llhs IH]; [reflexivity|]. cbn [map map2 length]. unfold nans. cbn [repeat].
      inversion Ly; subst. f_equal; [now apply nframe_nans|]. now apply IH.
    - intros p r k tl Hs. rewrite Ea. destruct (acc_shape m d (u_stats u) Hwf Hnd Hac F2 (map (fun _ => vzeros (size m)) (u_stats u)) p r k Lz Fz Hs) as (M & EM & LM).
      rewrite (dget_nflat nan1 _ p M tl EM), map_nan1, LM. reflexivity.
    - intros v. rewrite Ea. apply dget_nflat_miss. eapply dget_keys; eauto.
    - split; [exact L1|exact En'].
  Qed.

  Lemma unigram_nan w : exists b, nloop_batch amax scale l m wid w tr x = Ok b /\ nb_llh b = nans (length (lu_stats x)) /\
    (forall p r k, shape m p = Some (r, k) -> nget p b = nans (r * k)) /\
    nget wid b = match lu_ali x with None => nans (length (pl_starts l)) | Some _ => nzeros (length (pl_starts l)) end.
  Proof using Hwf Hnd Hac Hwid Hl Hf Hcov Hsz Himp.
    destruct imp_parts as (llhs & posts & lnm & c & E1 & E3 & E2 & Ec & A & B & C & L1 & En).
    eexists. unfold nloop_batch. fold u. rewrite E1, E3. cbn [bindr fst snd]. split; [reflexivity|]. cbn [nb_llh nb_acc]. rewrite A.
    assert (Es : u_stats u = lu_stats x) by (unfold u, lu_utt; destruct (lu_ali x) as [(g, o)|]; reflexivity). rewrite <- Es. split; [reflexivity|].
    split; [intros p r k Hs; unfold nget; cbn [nb_acc]; now rewrite (B p r k _ Hs)|]. unfold nget. cbn [nb_acc]. rewrite C.
    unfold npw_row. rewrite Ec. cbn [c_trans c_resps].
    assert (Eo : u_own u = match lu_ali x with None => true | Some _ => false end) by (unfold u, lu_utt; destruct (lu_ali x) as [(g, o)|]; reflexivity).
    destruct (lu_ali x) as [a|] eqn:Eali; rewrite Eo; [reflexivity|].
    assert (Hs0 := Hl). destruct Hs0 as (_ & _ & _ & Hne & Hst & _).
    rewrite counts_nan.
    - destruct w; auto. apply ncat_nans. destruct (pl_starts l); [congruence|cbn; lia].
    - intros s Hs. assert (Hn : (s < cg_n (u_graph u))%nat) by (unfold u; rewrite own_graph by exact Eo; now apply Hst).
      destruct Hf as (F1 & _). rewrite Ec in En. unfold nresps in En. cbn [c_resps] in En.
      destruct (u_stats u) as [|r0 st0]; [congruence|]. destruct posts as [|p0 posts]; [discriminate|]. cbn [map hd] in En |- *. injection En as En _.
      assert (G := f_equal (fun q => nth s q (Some 0)) En). cbn beta in G. rewrite (map_nth_lt _ _ _ 0%nat), seq_nth in G by (rewrite ?seq_length; lia).
      cbn [Nat.add] in G. rewrite G. apply (repeat_spec (cg_n (u_graph u)) None). apply nth_In. now rewrite repeat_length.
  Qed.

  Lemma bigram_nan bs : lu_ali x = None -> exists b, nbg_batch amax scale l m wid bs tr x = Ok b /\ nb_llh b = nans (length (lu_stats x)) /\
    (forall p r k, shape m p = Some (r, k) -> nget p b = nans (r * k)) /\
    nget wid b = nzeros (length (pl_ends l) * length (pl_starts l)).
  Proof using Hwf Hnd Hac Hwid Hl Hf Hcov Hsz Himp.
    intros Eali. destruct imp_parts as (llhs & posts & lnm & c & E1 & E3 & E2 & Ec & A & B & C & L1 & En).
    assert (Eo : u_own u = true) by (unfold u, lu_utt; rewrite Eali; reflexivity).
    assert (Es : u_stats u = lu_stats x) by (unfold u, lu_utt; rewrite Eali; reflexivity).
    eexists. unfold nbg_batch. fold u. rewrite E1, E3. cbn [bindr fst snd]. rewrite Ec at 1. cbn [c_trans]. rewrite Eo. split; [reflexivity|]. cbn [nb_llh nb_acc]. rewrite A.
    rewrite <- Es. split; [reflexivity|].
    split; [intros p r k Hs; unfold nget; cbn [nb_acc]; now rewrite (B p r k _ Hs)|]. unfold nget. cbn [nb_acc]. rewrite C.
    assert (Z : forall e s xi, In e (pl_ends l) -> In s (pl_starts l) -> In xi (trans_posteriors (u_graph u) (as_rows llhs)) -> num_val (xi e s) = 0).
    { intros e s xi He Hs Hxi. assert (Hl0 := Hl). destruct Hl0 as (_ & _ & _ & _ & Hst & Hen). destruct (In_nth _ _ (fun _ _ => NaN) Hxi) as (t & Lt & <-).
      assert (Lr : length (as_rows llhs) = length llhs) by apply map_length.
      rewrite trans_posteriors_impossible; auto.
      - apply no_path_evidence. rewrite L1. exact Himp.
      - rewrite trans_posteriors_length in Lt. lia.
      - unfold u. rewrite own_graph by exact Eo. auto.
      - unfold u. rewrite own_graph by exact Eo. auto. }
    rewrite rows_some by (now apply (trans_ok l tr x Hl llhs)). rewrite <- concat_map, nzeros_some. f_equal. unfold bg_rows.
    assert (K0 : forall e, In e (pl_ends l) -> colsum (length (pl_starts l)) (map (fun xi : nat -> nat -> num =>
      let row := map (fun s => num_val (xi e s)) (pl_starts l) in match bs with BCat _ _ => cat_stats row | BStick _ _ _ _ => row end)
      (trans_posteriors (u_graph u) (as_rows llhs))) = vzeros (length (pl_starts l))).
    { intros e He. rewrite (map_ext_in _ (fun _ => vzeros (length (pl_starts l)))).
      - apply colsum_zeros.
      - intros xi Hxi. cbv zeta. assert (Er : map (fun s => num_val (xi e s)) (pl_starts l) = vzeros (length (pl_starts l))).
        { unfold vzeros. rewrite <- map_const. apply map_ext_in. intros s Hs. now apply Z. }
        rewrite Er. destruct bs; [|reflexivity]. unfold cat_stats.
        assert (Hne : (0 < length (pl_starts l))%nat) by (destruct Hl as (_ & _ & _ & Hne & _); destruct (pl_starts l); [congruence|cbn; lia]).
        clear - Hne. destruct (length (pl_starts l)) as [|n]; [lia|]. clear. unfold vzeros.
        assert (Ez : forall n, rsum (repeat 0 n) = 0). { induction n0 as [|n0 IH]; [reflexivity|]. cbn [repeat rsum]. rewrite IH. lra. }
        rewrite Ez. clear. induction n as [|n IH]; [reflexivity|]. cbn [repeat] in *. cbn [removelast app]. destruct n; [reflexivity|]. cbn [repeat] in *. f_equal. exact IH. }
    etransitivity; [apply (f_equal (@concat R)); apply map_ext_in; exact K0|]. clear. unfold vzeros. induction (pl_ends l) as [|e es IH]; [reflexivity|].
    cbn [map concat length Nat.mul]. rewrite IH, repeat_app. reflexivity.
  Qed.
End Impossible.

(** An utterance with no path: the log-likelihoods of its frames and the
    statistics of all the parameters of the emissions are NaN.  The statistics of
    the weights of the phones are NaN as well, except with an alignment graph,
    where there are none. *)
Theorem C184_unigram : forall amax scale l m d wid w tr x, wf m -> NoDup (params m) -> accepts d m -> ~ In wid (params m) -> loop_ok l ->
  (0 < size m)%nat -> fits d m (lu_utt l tr x) -> covers m (lu_utt l tr x) -> impossible (lu_utt l tr x) ->
  exists b, nloop_batch amax scale l m wid w tr x = Ok b /\ nb_llh b = nans (length (lu_stats x)) /\
    (forall p r k, shape m p = Some (r, k) -> nget p b = nans (r * k)) /\
    nget wid b = match lu_ali x with None => nans (length (pl_starts l)) | Some _ => map Some (vzeros (length (pl_starts l))) end.
Proof. intros. rewrite <- nzeros_some. eapply unigram_nan; eauto. Qed.

(** With weights that depend on the previous phone, the statistics of the weights
    of this utterance are zeros: the NaN probabilities of the transitions are
    replaced (graph.py:319-321). *)
Theorem C184_bigram : forall amax scale l m d wid s tr x, wf m -> NoDup (params m) -> accepts d m -> ~ In wid (params m) -> loop_ok l ->
  (0 < size m)%nat -> fits d m (lu_utt l tr x) -> covers m (lu_utt l tr x) -> impossible (lu_utt l tr x) -> lu_ali x = None ->
  exists b, nbg_batch amax scale l m wid s tr x = Ok b /\ nb_llh b = nans (length (lu_stats x)) /\
    (forall p r k, shape m p = Some (r, k) -> nget p b = nans (r * k)) /\
    nget wid b = map Some (vzeros (length (pl_ends l) * length (pl_starts l))).
Proof. intros. rewrite <- nzeros_some. eapply bigram_nan; eauto. Qed.

(** ** The round *)
Lemma phone_counts_len starts ends trans first : length (phone_counts starts ends trans first) = length starts.
Proof. apply map_length. Qed.

Lemma cat_len row : row <> [] -> length (cat_stats row) = length row.
Proof. intros H. unfold cat_stats. rewrite app_length, removelast_length. destruct row; [congruence|]. cbn. lia. Qed.

Lemma pw_row_len starts ends w c : starts <> [] -> length (pw_row starts ends w c) = length starts.
Proof.
  intros H. unfold pw_row. destruct (c_trans c) as [trans|]; [|apply vzeros_length].
  destruct w; try apply phone_counts_len. rewrite cat_len; [apply phone_counts_len|].
  destruct starts; [congruence|discriminate].
Qed.

Lemma concat_len {A} n (ls : list (list A)) : Forall (fun l => length l = n) ls -> length (concat ls) = (length ls * n)%nat.
Proof. induction 1; [reflexivity|]. cbn [concat length Nat.mul]. rewrite app_length. congruence. Qed.

Lemma bg_rows_len starts ends b trans : starts <> [] -> length (concat (bg_rows starts ends b trans)) = (length ends * length starts)%nat.
Proof.
  intros H. rewrite (concat_len (length starts)).
  - unfold bg_rows. now rewrite map_length.
  - unfold bg_rows. apply Forall_map. apply Forall_forall. intros e _. apply colsum_length. apply Forall_map. apply Forall_forall. intros xi _.
    cbv zeta. destruct b; [|apply map_length]. rewrite cat_len; [apply map_length|]. destruct starts; [congruence|discriminate].
Qed.

Section Possible.
  Variables (amax : nat -> (nat -> lp) -> nat) (scale : R) (l : ploop) (m : mset) (d wid : nat) (tr : nat -> nat -> lp) (x : lutt).
  Hypothesis Hwf : wf m.
  Hypothesis Hnd : NoDup (params m).
  Hypothesis Hac : accepts d m.
  Hypothesis Hwid : ~ In wid (params m).
  Hypothesis Hl : loop_ok l.
  Let u := lu_utt l tr x.
  Hypothesis Hf : fits d m u.
  Hypothesis Hpos : possible u.

  Lemma pos_parts : exists llhs posts c v dd, pc_llhs m (u_order u) scale (u_stats u) = Ok llhs /\
    hmm_ellh amax m (u_graph u) (u_order u) (u_own u) Soft scale (u_stats u) = Ok (map2 (frame_value (cg_n (u_graph u))) llhs posts, c) /\
    c = {| c_resps := posts; c_trans := if u_own u then Some (trans_posteriors (u_graph u) (as_rows llhs)) else None; c_scale := scale |} /\
    all_some (map2 (frame_value (cg_n (u_graph u))) llhs posts) = Some v /\ length v = length (u_stats u) /\
    hmm_accumulate m (cg_n (u_graph u)) (u_order u) c (u_stats u) = Some dd /\
    (forall p r k, shape m p = Some (r, k) -> exists M, dget Nat.eq_dec dd p = Some M /\ length (concat M) = (r * k)%nat) /\
    dget Nat.eq_dec dd wid = None.
  Proof using Hwf Hnd Hac Hwid Hf Hpos.
    assert (Hf0 := Hf). destruct Hf0 as (F1 & F2 & F3 & F4). destruct (soft_parts amax scale m (u_graph u) (u_order u) (u_own u) (u_stats u) F1 F3)
      as (llhs & posts & lnm & c & E1 & L1 & E2 & L2 & E3 & Ec).
    assert (Lr : length (as_rows llhs) = length llhs) by apply map_length.
    assert (Ev : 0 < evidence (u_graph u) (as_rows llhs)) by (apply has_path_evidence; rewrite L1; exact Hpos).
    assert (Es := soft_nums _ _ _ _ E2 Ev ltac:(congruence)).
    assert (Fv : exists v, all_some (map2 (frame_value (cg_n (u_graph u))) llhs posts) = Some v /\ length v = length (u_stats u)).
    { rewrite <- L1. assert (L3 : length posts = length llhs) by congruence. clear - Es L3. revert posts Es L3. generalize (soft_resps (u_graph u) (as_rows llhs)).
      intros rs posts. revert rs posts. induction llhs as [|y llhs IH]; intros rs [|p posts] Es L3; try discriminate; [exists []; auto|].
      cbn in Es. destruct (nums (cg_n (u_graph u)) p) as [r|] eqn:Er; [|discriminate].
      destruct (all_some (map (nums (cg_n (u_graph u))) posts)) as [rs'|] eqn:Es'; [|discriminate].
      destruct (IH rs' posts Es' ltac:(cbn in L3; lia)) as (v & A & B). cbn [map2]. assert (Ef : frame_value (cg_n (u_graph u)) y p = Some (rsum (map2 Rmult y r))) by (unfold frame_value; now rewrite Er).
      rewrite Ef. cbn [all_some]. rewrite A. eexists. split; [reflexivity|]. cbn. now rewrite B. }
    destruct Fv as (v & Ev' & Lv).
    destruct (hmm_accumulate m (cg_n (u_graph u)) (u_order u) c (u_stats u)) as [dd|] eqn:Ed;
      [|unfold hmm_accumulate in Ed; rewrite Ec in Ed; cbn [c_resps] in Ed; rewrite Es in Ed; discriminate].
    exists llhs, posts, c, v, dd. repeat (split; [assumption|]).
    assert (Ed0 := Ed). unfold hmm_accumulate in Ed0. rewrite Ec in Ed0. cbn [c_resps] in Ed0. rewrite Es in Ed0. injection Ed0 as <-.
    unfold dyn_accumulate. split.
    - intros p r k Hs. apply (acc_shape m d); auto.
      + rewrite !map_length. unfold soft_resps. rewrite map_length, seq_length. congruence.
      + apply Forall_map. apply Forall_forall. intros r0 _. apply scatter_length.
    - eapply dget_keys; eauto.
  Qed.

  Lemma dget_flat (dd : sdict) p M (tl : list (nat * list R)) : dget Nat.eq_dec dd p = Some M ->
    dget Nat.eq_dec (map (fun pm => (fst pm, concat (snd pm))) dd ++ tl) p = Some (concat M).
  Proof using.
    induction dd as [|(q, v) dd IH]; intros E; [discriminate|]. cbn in E |- *. destruct (Nat.eq_dec p q); [congruence|auto].
  Qed.

  Lemma dget_flat_miss (dd : sdict) p (v : list R) : dget Nat.eq_dec dd p = None ->
    dget Nat.eq_dec (map (fun pm => (fst pm, concat (snd pm))) dd ++ [(p, v)]) p = Some v.
  Proof using.
    induction dd as [|(q, w) dd IH]; intros E.
    - cbn. destruct (Nat.eq_dec p p); congruence.
    - cbn in E |- *. destruct (Nat.eq_dec p q); [discriminate|auto].
  Qed.

  Lemma unigram_possible w : exists b, loop_batch amax scale l m wid w tr x = Ok b /\ length (b_llh b) = length (lu_stats x) /\
    (forall p r k, shape m p = Some (r, k) -> exists v, dget Nat.eq_dec (b_acc b) p = Some v /\ length v = (r * k)%nat) /\
    exists v, dget Nat.eq_dec (b_acc b) wid = Some v /\ length v = length (pl_starts l).
  Proof using Hwf Hnd Hac Hwid Hl Hf Hpos.
    destruct pos_parts as (llhs & posts & c & v & dd & E1 & E3 & Ec & Ev & Lv & Ed & Hd & Hm).
    assert (Es : u_stats u = lu_stats x) by (unfold u, lu_utt; destruct (lu_ali x) as [(g, o)|]; reflexivity).
    eexists. unfold loop_batch. fold u. rewrite E3. cbn [bindr fst snd]. rewrite Ev, Ed. split; [reflexivity|]. cbn [b_llh b_acc].
    split; [congruence|]. split.
    - intros p r k Hs. destruct (Hd p r k Hs) as (M & A & B). exists (concat M). split; [now apply dget_flat|exact B].
    - eexists. split; [now apply dget_flat_miss|]. apply pw_row_len. apply Hl.
  Qed.

  Lemma bigram_possible bs : lu_ali x = None -> exists b, bg_batch amax scale l m wid bs tr x = Ok b /\ length (b_llh b) = length (lu_stats x) /\
    (forall p r k, shape m p = Some (r, k) -> exists v, dget Nat.eq_dec (b_acc b) p = Some v /\ length v = (r * k)%nat) /\
    exists v, dget Nat.eq_dec (b_acc b) wid = Some v /\ length v = (length (pl_ends l) * length (pl_starts l))%nat.
  Proof using Hwf Hnd Hac Hwid Hl Hf Hpos.
    intros Eali. destruct pos_parts as (llhs & posts & c & v & dd & E1 & E3 & Ec & Ev & Lv & Ed & Hd & Hm).
    assert (Es : u_stats u = lu_stats x) by (unfold u, lu_utt; rewrite Eali; reflexivity).
    assert (Eo : u_own u = true) by (unfold u, lu_utt; rewrite Eali; reflexivity).
    eexists. unfold bg_batch. fold u. rewrite E3. cbn [bindr fst snd]. rewrite Ev, Ed. rewrite Ec. cbn [c_trans]. rewrite Eo. split; [reflexivity|]. cbn [b_llh b_acc].
    split; [congruence|]. split.
    - intros p r k Hs. destruct (Hd p r k Hs) as (M & A & B). exists (concat M). split; [now apply dget_flat|exact B].
    - eexists. split; [now apply dget_flat_miss|]. apply bg_rows_len. apply Hl.
  Qed.
End Possible.

Lemma not_both g T : has_path g T -> no_path g T -> False.
Proof. intros (p & Hp & H) N. rewrite (N p Hp) in H. lra. Qed.

Lemma nvadd_length u v n : length u = n -> length v = n -> length (nvadd u v) = n.
Proof. intros A B. unfold nvadd. revert v n A B. induction u as [|a u IH]; intros [|b v] n A B; cbn in *; auto; try lia. destruct n; [lia|]. f_equal. apply (IH v n); lia. Qed.

Lemma ncolsum_length n rows : Forall (fun r => length r = n) rows -> length (ncolsum n rows) = n.
Proof. induction 1; [apply repeat_length|]. now apply nvadd_length. Qed.

Lemma nvadd_nan_l n v : length v = n -> nvadd (nans n) v = nans n.
Proof. unfold nvadd, nans. revert n. induction v as [|b v IH]; intros [|n] L; cbn in *; try lia; auto. f_equal. apply IH. lia. Qed.

Lemma nvadd_nan_r n v : length v = n -> nvadd v (nans n) = nans n.
Proof. unfold nvadd, nans. revert n. induction v as [|b v IH]; intros [|n] L; cbn in *; try lia; auto. f_equal; [apply nadd_none_r|]. apply IH. lia. Qed.

Lemma ncolsum_nan n rows : Forall (fun r => length r = n) rows -> In (nans n) rows -> ncolsum n rows = nans n.
Proof.
  induction 1 as [|r rows Hr Hrs IH]; intros H; [destruct H|]. change (nvadd r (ncolsum n rows) = nans n). destruct H as [->|H].
  - apply nvadd_nan_l. now apply ncolsum_length.
  - rewrite IH by exact H. now apply nvadd_nan_r.
Qed.

Lemma nnew_nan lrate prior post n : length prior = n -> length post = n -> nnew lrate prior post (nans n) = nans n.
Proof.
  intros A B. unfold nnew, nans. revert prior post A B. induction n as [|n IH]; intros [|a prior] [|q post] A B; cbn in *; try lia; auto.
  f_equal. apply IH; lia.
Qed.

Lemma nmessage_nan ds kl bs : (exists b, In b bs /\ In None (nb_llh b)) -> nmessage ds kl bs = None.
Proof.
  intros (b & Hb & H). unfold nmessage. rewrite nsum_none; [reflexivity|]. apply in_map_iff. exists b. split; [|exact Hb].
  unfold nvalue. rewrite (nsum_none _ H). now rewrite nmul_none_r.
Qed.

Lemma f2_in {A B} (P : A -> B -> Prop) la lb a : Forall2 P la lb -> In a la -> exists b, In b lb /\ P a b.
Proof.
  induction 1 as [|x y la lb H _ IH]; intros Ha; [destruct Ha|]. destruct Ha as [->|Ha]; [exists y; split; [now left|exact H]|].
  destruct (IH Ha) as (b & H1 & H2). exists b. split; [now right|exact H2].
Qed.

Lemma f2_forall {A B} (P : A -> B -> Prop) (Q : B -> Prop) la lb : Forall2 P la lb -> (forall a b, P a b -> Q b) -> Forall Q lb.
Proof. induction 1; constructor; eauto. Qed.

(** What every utterance gives, with a path or without *)
Definition gives (m : mset) (wid K T : nat) (b : nbatch) : Prop :=
  length (nb_llh b) = T /\ (forall p r k, shape m p = Some (r, k) -> length (nget p b) = (r * k)%nat) /\ length (nget wid b) = K.

Lemma gives_numbers m wid K T b : length (b_llh b) = T ->
  (forall p r k, shape m p = Some (r, k) -> exists v, dget Nat.eq_dec (b_acc b) p = Some v /\ length v = (r * k)%nat) ->
  (exists v, dget Nat.eq_dec (b_acc b) wid = Some v /\ length v = K) -> gives m wid K T (numbers b).
Proof.
  intros A B C. split; [unfold numbers; cbn [nb_llh]; now rewrite map_length|]. split.
  - intros p r k Hs. destruct (B p r k Hs) as (v & E & L). now rewrite nget_numbers, E, map_length.
  - destruct C as (v & E & L). now rewrite nget_numbers, E, map_length.
Qed.

Section Round.
  Variables (amax : nat -> (nat -> lp) -> nat) (scale : R) (l : ploop) (m : mset) (d wid : nat) (tr : nat -> nat -> lp).
  Hypothesis Hwf : wf m.
  Hypothesis Hnd : NoDup (params m).
  Hypothesis Hac : accepts d m.
  Hypothesis Hwid : ~ In wid (params m).
  Hypothesis Hl : loop_ok l.
  Hypothesis Hsz : (0 < size m)%nat.

  Lemma one_unigram w x : fits d m (lu_utt l tr x) -> covers m (lu_utt l tr x) \/ possible (lu_utt l tr x) ->
    exists b, nloop_batch amax scale l m wid w tr x = Ok b /\ gives m wid (length (pl_starts l)) (length (lu_stats x)) b /\
      (impossible (lu_utt l tr x) -> nb_llh b = nans (length (lu_stats x)) /\ (forall p r k, shape m p = Some (r, k) -> nget p b = nans (r * k)) /\
        (lu_ali x = None -> nget wid b = nans (length (pl_starts l)))).
  Proof.
    intros Hf Hc. destruct (has_or_none (u_graph (lu_utt l tr x)) (length (u_stats (lu_utt l tr x)))) as [P|N].
    - destruct (unigram_possible amax scale l m d wid tr x Hwf Hnd Hac Hwid Hl Hf P w) as (b & A & B & C & D).
      exists (numbers b). split; [now apply (unigram_agree amax scale l m d)|]. split; [now apply gives_numbers|].
      intros N. destruct (not_both _ _ P N).
    - destruct Hc as [Hc|P]; [|destruct (not_both _ _ P N)].
      destruct (unigram_nan amax scale l m d wid tr x Hwf Hnd Hac Hwid Hl Hf Hc Hsz N w) as (b & A & B & C & D).
      exists b. split; [exact A|]. split; [|intros _; split; [exact B|]; split; [exact C|intros E; now rewrite D, E]].
      split; [rewrite B; apply nans_length|]. split; [intros p r k Hs; rewrite (C p r k Hs); apply nans_length|].
      rewrite D. destruct (lu_ali x); apply repeat_length.
  Qed.

  Lemma one_bigram s x : lu_ali x = None -> fits d m (lu_utt l tr x) -> covers m (lu_utt l tr x) \/ possible (lu_utt l tr x) ->
    exists b, nbg_batch amax scale l m wid s tr x = Ok b /\ gives m wid (length (pl_ends l) * length (pl_starts l)) (length (lu_stats x)) b /\
      (impossible (lu_utt l tr x) -> nb_llh b = nans (length (lu_stats x)) /\ (forall p r k, shape m p = Some (r, k) -> nget p b = nans (r * k))) /\
      exists v, nget wid b = map Some v /\ (impossible (lu_utt l tr x) -> v = vzeros (length (pl_ends l) * length (pl_starts l))) /\
        (forall b', bg_batch amax scale l m wid s tr x = Ok b' -> dget Nat.eq_dec (b_acc b') wid = Some v).
  Proof.
    intros Ea Hf Hc. destruct (has_or_none (u_graph (lu_utt l tr x)) (length (u_stats (lu_utt l tr x)))) as [P|N].
    - destruct (bigram_possible amax scale l m d wid tr x Hwf Hnd Hac Hwid Hl Hf P s Ea) as (b & A & B & C & D).
      exists (numbers b). split; [now apply (bigram_agree amax scale l m d)|]. split; [now apply gives_numbers|].
      split; [intros N; destruct (not_both _ _ P N)|]. destruct D as (v & D1 & D2). exists v. split; [now rewrite nget_numbers, D1|].
      split; [intros N; destruct (not_both _ _ P N)|]. intros b' E. congruence.
    - destruct Hc as [Hc|P]; [|destruct (not_both _ _ P N)].
      destruct (bigram_nan amax scale l m d wid tr x Hwf Hnd Hac Hwid Hl Hf Hc Hsz N s Ea) as (b & A & B & C & D).
      exists b. split; [exact A|]. split; [|split; [intros _; split; [exact B|exact C]|]].
      + split; [rewrite B; apply nans_length|]. split; [intros p r k Hs; rewrite (C p r k Hs); apply nans_length|].
        rewrite D. apply repeat_length.
      + exists (vzeros (length (pl_ends l) * length (pl_starts l))). split; [now rewrite D, nzeros_some|]. split; [auto|].
        intros b' E. exfalso. apply (bigram_agree amax scale l m d wid tr x Hwf Hl Hf) in E. rewrite A in E. injection E as E.
        subst b. unfold numbers in B. cbn [nb_llh] in B. assert (Hne : lu_stats x <> []) by (destruct Hf as (F & _); unfold lu_utt in F; rewrite Ea in F; exact F).
        destruct (lu_stats x) as [|r0 st]; [congruence|]. destruct (b_llh b'); discriminate.
  Qed.

  Lemma round_nan (K : nat) (bs : list nbatch) (x0 : lutt) (b0 : nbatch) :
    Forall (fun b => exists x, gives m wid K (length (lu_stats x)) b) bs -> In b0 bs -> lu_stats x0 <> [] -> nb_llh b0 = nans (length (lu_stats x0)) ->
    (forall p r k, shape m p = Some (r, k) -> nget p b0 = nans (r * k)) ->
    (forall ds kl, nmessage ds kl bs = None) /\
    (forall ds lrate p r k prior post, shape m p = Some (r, k) -> length prior = (r * k)%nat -> length post = (r * k)%nat ->
      nnew lrate prior post (nstats ds (r * k) p bs) = nans (r * k)) /\
    (nget wid b0 = nans K -> forall ds lrate prior post, length prior = K -> length post = K -> nnew lrate prior post (nstats ds K wid bs) = nans K).
  Proof using.
    intros F H0 Hne A B. split; [|split].
    - intros ds kl. apply nmessage_nan. exists b0. split; [exact H0|]. rewrite A. destruct (lu_stats x0); [congruence|]. now left.
    - intros ds lrate p r k prior post Hs L1 L2. unfold nstats. rewrite (ncolsum_nan (r * k)).
      + rewrite nscale_nans. now apply nnew_nan.
      + apply Forall_map. eapply Forall_impl; [|exact F]. intros b (x & _ & C & _). now apply C.
      + rewrite <- (B p r k Hs). now apply in_map.
    - intros Ew ds lrate prior post L1 L2. unfold nstats. rewrite (ncolsum_nan K).
      + rewrite nscale_nans. now apply nnew_nan.
      + apply Forall_map. eapply Forall_impl; [|exact F]. intros b (x & _ & _ & C). exact C.
      + rewrite <- Ew. now apply in_map.
  Qed.
End Round.

(** One such utterance among any number of others: after the update every
    parameter of the emissions is NaN, whatever the learning rate, the prior and
    the posterior; so is the printed value; and so are the weights of the phones,
    when the utterance has no alignment. *)
Theorem C184_round : forall amax scale l m d wid w tr xs x0, wf m -> NoDup (params m) -> accepts d m -> ~ In wid (params m) -> loop_ok l ->
  (0 < size m)%nat -> Forall (fun x => fits d m (lu_utt l tr x) /\ (covers m (lu_utt l tr x) \/ possible (lu_utt l tr x))) xs ->
  In x0 xs -> impossible (lu_utt l tr x0) ->
  exists bs, mapM (nloop_batch amax scale l m wid w tr) xs = Ok bs /\
    (forall ds kl, nmessage ds kl bs = None) /\
    (forall ds lrate p r k prior post, shape m p = Some (r, k) -> length prior = (r * k)%nat -> length post = (r * k)%nat ->
      nnew lrate prior post (nstats ds (r * k) p bs) = nans (r * k)) /\
    (lu_ali x0 = None -> forall ds lrate prior post, length prior = length (pl_starts l) -> length post = length (pl_starts l) ->
      nnew lrate prior post (nstats ds (length (pl_starts l)) wid bs) = nans (length (pl_starts l))).
Proof.
  intros amax scale l m d wid w tr xs x0 Hwf Hnd Hac Hwid Hl Hsz F H0 Himp.
  destruct (Gb_Loop.mapM_ok (nloop_batch amax scale l m wid w tr) (fun x b => gives m wid (length (pl_starts l)) (length (lu_stats x)) b /\
    (impossible (lu_utt l tr x) -> nb_llh b = nans (length (lu_stats x)) /\ (forall p r k, shape m p = Some (r, k) -> nget p b = nans (r * k)) /\
        (lu_ali x = None -> nget wid b = nans (length (pl_starts l))))) xs) as (bs & Eb & F2).
  { intros x Hx. destruct (proj1 (Forall_forall _ _) F x Hx) as (A & B). now apply (one_unigram amax scale l m d). }
  exists bs. split; [exact Eb|]. destruct (f2_in _ _ _ _ F2 H0) as (b0 & Hb & _ & I). destruct (I Himp) as (I1 & I2 & I3).
  assert (Hne : lu_stats x0 <> []).
  { destruct (proj1 (Forall_forall _ _) F x0 H0) as ((A & _) & _). unfold lu_utt in A. destruct (lu_ali x0) as [(g, o)|]; exact A. }
  destruct (round_nan m wid (length (pl_starts l)) bs x0 b0) as (R1 & R2 & R3); auto.
  { eapply f2_forall; [exact F2|]. intros x b (G & _). eauto. }
Qed.

(** With weights that depend on the previous phone, the weights survive: they are
    updated with the other utterances, as if this one had no transition. *)
Theorem C184_bigram_round : forall amax scale l m d wid s tr xs x0, wf m -> NoDup (params m) -> accepts d m -> ~ In wid (params m) -> loop_ok l ->
  (0 < size m)%nat -> Forall (fun x => lu_ali x = None /\ fits d m (lu_utt l tr x) /\ (covers m (lu_utt l tr x) \/ possible (lu_utt l tr x))) xs ->
  In x0 xs -> impossible (lu_utt l tr x0) ->
  let n := (length (pl_ends l) * length (pl_starts l))%nat in
  exists bs vs, mapM (nbg_batch amax scale l m wid s tr) xs = Ok bs /\
    (forall ds kl, nmessage ds kl bs = None) /\
    (forall ds lrate p r k prior post, shape m p = Some (r, k) -> length prior = (r * k)%nat -> length post = (r * k)%nat ->
      nnew lrate prior post (nstats ds (r * k) p bs) = nans (r * k)) /\
    Forall2 (fun x v => (impossible (lu_utt l tr x) -> v = vzeros n) /\
      (forall b, bg_batch amax scale l m wid s tr x = Ok b -> dget Nat.eq_dec (b_acc b) wid = Some v)) xs vs /\
    (forall ds, nstats ds n wid bs = map Some (vscale (INR ds / INR (loop_frames xs)) (colsum n vs))).
Proof.
  intros amax scale l m d wid s tr xs x0 Hwf Hnd Hac Hwid Hl Hsz F H0 Himp n.
  destruct (Gb_Loop.mapM_ok (nbg_batch amax scale l m wid s tr) (fun x b => gives m wid n (length (lu_stats x)) b /\
    (impossible (lu_utt l tr x) -> nb_llh b = nans (length (lu_stats x)) /\ (forall p r k, shape m p = Some (r, k) -> nget p b = nans (r * k))) /\
    exists v, nget wid b = map Some v /\ (impossible (lu_utt l tr x) -> v = vzeros n) /\
        (forall b', bg_batch amax scale l m wid s tr x = Ok b' -> dget Nat.eq_dec (b_acc b') wid = Some v)) xs) as (bs & Eb & F2).
  { intros x Hx. destruct (proj1 (Forall_forall _ _) F x Hx) as (A & B & C). now apply (one_bigram amax scale l m d). }
  assert (G : exists vs, map (nget wid) bs = map (map Some) vs /\ map (fun b => length (nb_llh b)) bs = map (fun x => length (lu_stats x)) xs /\
    Forall2 (fun x v => (impossible (lu_utt l tr x) -> v = vzeros n) /\
      (forall b, bg_batch amax scale l m wid s tr x = Ok b -> dget Nat.eq_dec (b_acc b) wid = Some v)) xs vs).
  { clear - F2. induction F2 as [|x b xs bs (Hg & _ & v & V1 & V2 & V3) _ IH]; [exists []; auto|].
    destruct IH as (vs & W1 & W2 & W3). exists (v :: vs). cbn [map]. rewrite V1, W1, W2. destruct Hg as (-> & _). auto. }
  destruct G as (vs & W1 & W2 & W3). exists bs, vs. split; [exact Eb|].
  destruct (f2_in _ _ _ _ F2 H0) as (b0 & Hb & _ & I & _). destruct (I Himp) as (I1 & I2).
  assert (Hne : lu_stats x0 <> []).
  { destruct (proj1 (Forall_forall _ _) F x0 H0) as (Ea & (A & _) & _). unfold lu_utt in A. rewrite Ea in A. exact A. }
  destruct (round_nan m wid n bs x0 b0) as (R1 & R2 & _); auto.
  { eapply f2_forall; [exact F2|]. intros x b (G & _). eauto. }
  split; [exact R1|]. split; [exact R2|]. split; [exact W3|]. intros ds. unfold nstats, loop_frames. rewrite W1, W2, ncolsum_some.
  unfold vscale. now rewrite !map_map.
Qed.

(** ** Which utterances have no path *)
Lemma imp_not u : impossible u <-> ~ possible u.
Proof.
  unfold impossible, possible. split.
  - intros N P. exact (not_both _ _ P N).
  - intros N. destruct (has_or_none (u_graph u) (length (u_stats u))) as [P|P]; [contradiction|exact P].
Qed.

(** With the phone-loop of a configuration, before or after any training: the
    utterances that no sequence of units allowed by the loop can produce. *)
Theorem C184_loop : forall conf lines ul group wid l units tots tr x ls0,
  config_ok conf lines ul group -> (forall g t, In (g, t) conf -> entered_once t /\ no_dead_end t) ->
  build_loop conf lines group wid = Ok (l, units, tots) -> loop_trans l tr ->
  sayable group ul units ls0 -> ls0 <> [] -> lu_ali x = None -> lu_stats x <> [] ->
  (possible (lu_utt l tr x) <-> exists ls, sayable group ul units ls /\ length ls = length (lu_stats x)) /\
  (impossible (lu_utt l tr x) <-> ~ exists ls, sayable group ul units ls /\ length ls = length (lu_stats x)).
Proof.
  intros conf lines ul group wid l units tots tr x ls0 Hcfg Hent Eb (T1 & T2) Hs0 Hn0 Hali Hne.
  assert (M : possible (lu_utt l tr x) <-> exists ls, sayable group ul units ls /\ length ls = length (lu_stats x)).
  2:{ split; [exact M|]. rewrite imp_not, M. tauto. }
  destruct (build_ok conf lines ul group wid Hcfg) as (l' & units' & tots' & c & g & E' & _ & Eg & Eo & Ec & En & Em & Hl & Ln & Nu & Pm & HU &
    Wg & Pg & S1 & S2 & S3 & S4 & Hdg & HL).
  rewrite Eb in E'. injection E' as <- <- <-.
  unfold possible, lu_utt. rewrite Hali. cbn [u_graph u_stats]. set (T := length (lu_stats x)).
  assert (Eor : pl_order l = seq 0 (list_sum tots)) by (rewrite Eo, Em, En; reflexivity).
  assert (Ecg : cg_n (with_trans (pl_graph l) tr) = c_n c) by (cbn [with_trans cg_n]; rewrite Eg; reflexivity).
  assert (HT : T <> 0%nat) by (unfold T; destruct (lu_stats x); [congruence|discriminate]).
  split.
  - intros (p & Hp & Hpos). exists p. rewrite Ecg in Hp. assert (Hp' := Hp). apply in_paths in Hp'. destruct Hp' as (Lp & Fp).
    split; [|exact Lp]. apply HL. apply (C155_exact g c 0%nat 1%nat); auto.
    { intros ->. cbn in Lp. congruence. }
    rewrite <- Eg, <- Eo. set (rows := repeat (fun _ : nat => Fin 0) T : list row).
    assert (Lr : length rows = T) by apply repeat_length.
    assert (Acc := score_accepts (pl_graph l) (pl_order l) rows p). rewrite Eor, seq_labels in Acc by (rewrite <- En; exact Fp). rewrite Eor. apply Acc.
    + rewrite Lr, Eg. exact Hp.
    + apply (path_keep (with_trans (pl_graph l) tr) (pl_graph l)); [reflexivity|reflexivity| |].
      * cbn [with_trans cg_trans]. intros i j Hij. destruct (in_dec Nat.eq_dec i (pl_ends l)) as [Hi|Hi]; [|rewrite T1 in Hij by tauto; exact Hij].
        destruct (in_dec Nat.eq_dec j (pl_starts l)) as [Hj|Hj]; [|rewrite T1 in Hij by tauto; exact Hij].
        now apply (loop_links conf lines ul group wid l units tots Hcfg Hent Eb ls0).
      * apply fin_ex. unfold rows. unfold prior_prob in Hpos. now rewrite <- ex_path_score in Hpos.
  - intros (ls & Hsay & Hlen). assert (Hls : ls <> []) by (intros ->; cbn in Hlen; congruence).
    destruct (graph_path g c 0%nat 1%nat ls Wg Pg S1 S2 S3 S4 Ec Hdg Hls (proj2 (HL ls) Hsay)) as (p & Hp & Hsc).
    rewrite Hlen in Hp, Hsc. exists p. rewrite Ecg. split; [exact Hp|]. apply score_prior.
    apply (path_keep (to_cgraph c)); [cbn [with_trans cg_init]; now rewrite Eg|cbn [with_trans cg_final]; now rewrite Eg| |exact Hsc].
    cbn [with_trans cg_trans]. intros i j Hij. rewrite <- Eg in Hij.
    destruct (in_dec Nat.eq_dec i (pl_ends l)) as [Hi|Hi]; [|rewrite T1 by tauto; exact Hij].
    destruct (in_dec Nat.eq_dec j (pl_starts l)) as [Hj|Hj]; [|rewrite T1 by tauto; exact Hij]. now apply T2.
Qed.

Lemma aud_says ul group wid l units tots : aud_units ul group ->
  build_loop aud_conf (map (fun u => [fst u; snd u]) ul) group wid = Ok (l, units, tots) ->
  forall T, T <> 0%nat -> (exists ls, sayable group ul units ls /\ length ls = T) <-> (3 <= T)%nat.
Proof.
  intros Hu E T HT. set (xs := repeat [0] T). set (x := {| lu_ali := None; lu_stats := map (suff KDiag) xs |}).
  assert (Lx : length xs = T) by apply repeat_length.
  assert (Hx : xs <> []) by (intros Ex; rewrite Ex in Lx; cbn in Lx; congruence).
  assert (Fx : Forall (frame_ok KDiag 1) xs).
  { apply Forall_forall. intros y Hy. apply repeat_spec in Hy. subst y. split; [reflexivity|exact I]. }
  rewrite <- Lx. rewrite <- (C178_aud_frames ul group wid KDiag 1 x xs l units tots Hu E eq_refl eq_refl Fx Hx). split.
  - intros (ls & A & B). exists xs. split; [reflexivity|]. split; [exact Fx|]. split; [exact Hx|]. exists ls. auto.
  - intros (ys & Ey & _ & _ & ls & A & B). exists ls. split; [exact A|]. rewrite B. cbn [x lu_stats] in Ey.
    apply (f_equal (@length (list R))) in Ey. rewrite !map_length in Ey. now symmetry.
Qed.

(** Acoustic unit discovery: whatever the training before, a round with one
    utterance of one or two frames turns the whole model into NaN. *)
Theorem C184_aud : forall enum sort amax eps conc ul group wid k D scale ds skel st eg xs jobss,
  aud_units ul group -> match conc with Some c => 0 <= c | None => True end ->
  is_enum enum -> (forall counts, sorts_desc counts (sort counts)) -> 0 <= scale -> (0 < ds)%nat ->
  exists l lo units tots w, make_loop eps None conc aud_conf (map (fun u => [fst u; snd u]) ul) group wid = Ok (l, lo, units, tots) /\
    wpar_of (lo_weights lo) = Some w /\
    (size skel = list_sum (map aud_states ul) -> typed k D st skel -> NoDup (params skel) -> ~ In wid (params skel) ->
     Forall (@NoDup nat) eg -> incl (concat eg) (params skel) ->
     let utterance n x := lu_ali x = None /\ exists ys, lu_stats x = map (suff k) ys /\ Forall (frame_ok k D) ys /\ (n <= length ys)%nat in
     Forall (utterance 3%nat) xs -> xs <> [] -> Forall (shares xs) jobss ->
     forall n, (n <= length jobss)%nat ->
     exists s v, loop_rounds enum sort amax scale ds l skel wid eg 1 true xs (firstn n jobss) (pw_init l w st, None) = Ok (s, v) /\
       let m := inst (forms (pw_pars s)) skel in
       forall xs' x0, Forall (utterance 1%nat) xs' -> In x0 xs' -> (length (lu_stats x0) < 3)%nat ->
       exists bs, mapM (nloop_batch amax scale l m wid (pw_weights s) (pw_trans s)) xs' = Ok bs /\
         (forall ds' kl, nmessage ds' kl bs = None) /\
         (forall ds' lrate p r c prior post, shape m p = Some (r, c) -> length prior = (r * c)%nat -> length post = (r * c)%nat ->
           nnew lrate prior post (nstats ds' (r * c) p bs) = nans (r * c)) /\
         (forall ds' lrate prior post, length prior = length (pl_starts l) -> length post = length (pl_starts l) ->
           nnew lrate prior post (nstats ds' (length (pl_starts l)) wid bs) = nans (length (pl_starts l)))).
Proof.
  intros enum sort amax eps conc ul group wid k D scale ds skel st eg xs jobss Hu Hconc He Hso Hs Hds.
  assert (Hc := aud_config ul group Hu).
  destruct (C178_unigram_training enum sort amax eps None conc aud_conf _ ul group wid k D scale ds skel st eg 1 xs jobss Hc)
    as (l & lo & units & tots & w & E1 & Ew & HT); auto.
  { simpl. tauto. }
  { lra. }
  assert (E2 := make_built _ _ _ _ _ _ _ _ _ _ _ E1).
  exists l, lo, units, tots, w. split; [exact E1|]. split; [exact Ew|].
  rewrite <- (C178_aud_size ul group wid l units tots Hu E2).
  intros Hsz T Hnd Hwid Hgn Hgi utterance Hx Hne Hj n Hn.
  assert (Sp : forall x, utterance 3%nat x -> spoken k D group ul units x).
  { intros x (Xa & ys & Xs & Xf & Xl). apply (C178_aud_frames ul group wid k D x ys l units tots); auto. intros ->. simpl in Xl. lia. }
  destruct (HT Hsz T Hnd Hwid Hgn Hgi) with (n := n) (m := n) as (s & s' & v & v' & A & A' & G & _); auto.
  { eapply Forall_impl; [|exact Hx]. exact Sp. }
  rewrite A in A'. injection A' as <- <-. exists s, v. split; [exact A|]. intros m xs' x0 Hxs Hx0 Hlt.
  destruct G as (G1 & _ & (_ & G3)). destruct (ends_leave _ _ ul group wid l units tots Hc E2) as (Hl & Hlt').
  assert (Htr : loop_trans l (pw_trans s)).
  { apply (good_trans l _ (fun _ q => elog_weight (pw_weights s) q)); auto.
    - apply loop_rounds_else in A. cbn [fst] in A. intros i j Hij. rewrite A by exact Hij. now apply unigram_other.
    - intros i q Hi Hq. cbv zeta. apply G3; [now apply nth_In|exact Hq]. }
  assert (Hm : size m = list_sum tots) by (unfold m; rewrite (inst_size k D) by exact G1; exact Hsz).
  destruct (build_ok _ _ ul group wid Hc) as (l' & units' & tots' & c & g & E' & _ & Eg & Eo & Ec & En & Em & _).
  rewrite E2 in E'. injection E' as <- <- <-.
  assert (Eor : pl_order l = seq 0 (list_sum tots)) by (rewrite Eo, Em, En; reflexivity).
  assert (Hpos : (0 < size m)%nat).
  { rewrite Hm. destruct Hl as (_ & _ & _ & Hn0 & Hst & _). destruct (pl_starts l) as [|s0 ss]; [congruence|].
    specialize (Hst s0 (or_introl eq_refl)). rewrite Eg in Hst. cbn [to_cgraph cg_n] in Hst. lia. }
  assert (Fit : forall x, utterance 1%nat x -> fits (suff_dim k D) m (lu_utt l (pw_trans s) x) /\ covers m (lu_utt l (pw_trans s) x)).
  { intros x (Xa & ys & Xs & Xf & Xl). unfold fits, covers, lu_utt. rewrite Xa. cbn [u_stats u_order u_graph]. rewrite Eor, Hm. split; [split; [|split; [|split]]|].
    - rewrite Xs. destruct ys; [cbn in Xl; lia|discriminate].
    - rewrite Xs. apply Forall_map. eapply Forall_impl; [|exact Xf]. intros y Hy. now apply suff_length.
    - intros o Ho. apply in_seq in Ho. lia.
    - rewrite seq_length. cbn [with_trans cg_n]. rewrite Eg. cbn [to_cgraph cg_n]. now symmetry.
    - intros o Ho. apply in_seq. lia. }
  assert (Hu0 := proj1 (Forall_forall _ _) Hxs x0 Hx0).
  destruct (C184_round amax scale l m (suff_dim k D) wid (pw_weights s) (pw_trans s) xs' x0) as (bs & B1 & B2 & B3 & B4); auto.
  - unfold m. now apply (inst_wf k D).
  - unfold m. now rewrite inst_params.
  - unfold m. now apply inst_accepts.
  - unfold m. now rewrite inst_params.
  - eapply Forall_impl; [|exact Hxs]. intros x Ux. destruct (Fit x Ux). auto.
  - destruct Hu0 as (Xa & ys & Xs & Xf & Xl).
    assert (Hn0 : lu_stats x0 <> []) by (rewrite Xs; destruct ys; [cbn in Xl; lia|discriminate]).
    assert (Hn1 : length (lu_stats x0) <> 0%nat) by (destruct (lu_stats x0); [congruence|discriminate]).
    destruct (proj2 (aud_says ul group wid l units tots Hu E2 3%nat ltac:(lia)) (le_n 3)) as (ls0 & Sa & Sl).
    apply (C184_loop _ _ ul group wid l units tots (pw_trans s) x0 ls0 Hc aud_entered E2 Htr Sa); auto.
    + intros ->. discriminate Sl.
    + intros X. apply (aud_says ul group wid l units tots Hu E2 _ Hn1) in X. lia.
  - exists bs. split; [exact B1|]. split; [exact B2|]. split; [exact B3|]. apply B4. apply Hu0.
Qed.

(** One unit of five states and one of three, 32 numbers for the emissions: an
    utterance of three frames and one of two *)
Example C184_ex : forall enum sort amax, is_enum enum -> (forall counts, sorts_desc counts (sort counts)) ->
  let xs := [ux_utt [0; 3; 5]; ux_utt [1; 1]] in
  exists l lo units tots w bs,
    make_loop 1 None None aud_conf [["sil"; "non-speech-unit"]; ["au1"; "speech-unit"]]%string (Some "non-speech-unit"%string) 9 =
      Ok (l, lo, units, tots) /\ wpar_of (lo_weights lo) = Some w /\
    mapM (nloop_batch amax 1 l (inst (forms ux_st) ux_skel) 9 w (pw_trans (pw_init l w ux_st))) xs = Ok bs /\
    nmessage 5 0 bs = None /\ nnew 1 (vzeros 32) (vzeros 32) (nstats 5 32 1 bs) = nans 32 /\
    nnew 1 [1; 1] [1; 2] (nstats 5 2 9 bs) = [None; None] /\
    exists b, nth_error bs 0 = Some (numbers b).
Proof.
  intros enum sort amax He Hso xs.
  destruct (C184_aud enum sort amax 1 None ux_units (Some "non-speech-unit"%string) 9 KDiag 1 1 5 ux_skel ux_st [[1]]%nat
    [ux_utt [0; 3; 5]] [] ux_aud I He Hso Rle_0_1 ltac:(lia)) as (l & lo & units & tots & w & E & Ew & HT).
  assert (El : map (fun u : string * string => [fst u; snd u]) ux_units = [["sil"; "non-speech-unit"]; ["au1"; "speech-unit"]]%string) by reflexivity.
  assert (E2 := make_built _ _ _ _ _ _ _ _ _ _ _ E).
  assert (Hc := aud_config ux_units _ ux_aud).
  destruct (C178_loop _ _ _ _ 9 Hc) as (l' & units' & tots' & E' & _ & (Hl & _) & Ln & _). rewrite E2 in E'. injection E' as <- <- <-.
  assert (Hg : Forall (@NoDup nat) [[1]]%nat).
  { constructor; [|constructor]. constructor; [intros []|constructor]. }
  assert (N : NoDup (params ux_skel)) by (constructor; [intros []|constructor]).
  assert (Hw : ~ In 9%nat (params ux_skel)) by (intros [H|[]]; discriminate).
  assert (Ut : forall n f, (n <= length f)%nat -> lu_ali (ux_utt f) = None /\
    exists ys, lu_stats (ux_utt f) = map (suff KDiag) ys /\ Forall (frame_ok KDiag 1) ys /\ (n <= length ys)%nat).
  { intros n f H. split; [reflexivity|]. exists (map (fun v => [v]) f). split; [apply ux_frames|]. split; [apply ux_frames|]. now rewrite map_length. }
  destruct (HT eq_refl ux_typed N Hw Hg (incl_refl _)) with (n := 0%nat) as (s & v & A & B).
  { constructor; [apply Ut; cbn; lia|constructor]. }
  { discriminate. }
  { constructor. }
  { cbn. lia. }
  cbn [firstn] in A. injection A as <- <-. destruct (B xs (ux_utt [1; 1])) as (bs & B1 & B2 & B3 & B4).
  { constructor; [apply Ut; cbn; lia|]. constructor; [apply Ut; cbn; lia|constructor]. }
  { right. now left. }
  { cbn. lia. }
  exists l, lo, units, tots, w, bs. rewrite El in E. split; [exact E|]. split; [exact Ew|]. split; [exact B1|]. split; [apply B2|].
  split; [apply (B3 5%nat 1 1%nat 8%nat 4%nat); reflexivity|].
  assert (L2 : length (pl_starts l) = 2%nat) by (rewrite Ln; reflexivity). rewrite L2 in B4. split; [now apply (B4 5%nat 1)|].
  cbn [mapM] in B1. unfold xs in B1. cbn [mapM] in B1.
  destruct (nloop_batch amax 1 l (inst (forms (pw_pars (pw_init l w ux_st))) ux_skel) 9 (pw_weights (pw_init l w ux_st))
    (pw_trans (pw_init l w ux_st)) (ux_utt [0; 3; 5])) as [b1|e] eqn:Eb1; [|discriminate].
  destruct (nloop_batch amax 1 l (inst (forms (pw_pars (pw_init l w ux_st))) ux_skel) 9 (pw_weights (pw_init l w ux_st))
    (pw_trans (pw_init l w ux_st)) (ux_utt [1; 1])) as [b2|e] eqn:Eb2; [|discriminate].
  cbn [bindr] in B1. injection B1 as <-.
  destruct (C178_unigram_training enum sort amax 1 None None aud_conf _ ux_units (Some "non-speech-unit"%string) 9 KDiag 1 1 5 ux_skel ux_st [[1]]%nat 1
    [ux_utt [0; 3; 5]] [] Hc) as (l0 & lo0 & units0 & tots0 & w0 & E0 & Ew0 & HT0); auto.
  { simpl. tauto. }
  { lra. }
  { lia. }
  { lra. }
  rewrite El in E0. rewrite E in E0. injection E0 as <- <- <- <-. rewrite Ew in Ew0. injection Ew0 as <-.
  destruct HT0 with (n := 0%nat) (m := 0%nat) as (s1 & s2 & v1 & v2 & _ & A2 & G & _); auto.
  { rewrite (C178_aud_size _ _ _ _ _ _ ux_aud E2). reflexivity. }
  { exact ux_typed. }
  { apply incl_refl. }
  { constructor; [|constructor]. apply (C178_aud_frames ux_units _ 9 KDiag 1 (ux_utt [0; 3; 5]) (map (fun v => [v]) [0; 3; 5]) l units tots ux_aud E2 eq_refl);
      [apply ux_frames|apply ux_frames|discriminate|cbn; lia]. }
  { discriminate. }
  cbn [firstn] in A2. injection A2 as <- <-. destruct G as (G1 & _ & (_ & G3)).
  destruct (ends_leave _ _ _ _ 9 l units tots Hc E2) as (_ & Hlt).
  assert (Htr : loop_trans l (pw_trans (pw_init l w ux_st))).
  { apply (good_trans l _ (fun _ q => elog_weight w q)); auto.
    - intros i j Hij. now apply unigram_other.
    - intros i q Hi Hq. cbv zeta. apply G3; [now apply nth_In|exact Hq]. }
  destruct (proj2 (aud_says ux_units _ 9 l units tots ux_aud E2 3%nat ltac:(lia)) (le_n 3)) as (ls0 & Sa & Sl).
  assert (Hp : possible (lu_utt l (pw_trans (pw_init l w ux_st)) (ux_utt [0; 3; 5]))).
  { apply (C184_loop _ _ ux_units _ 9 l units tots (pw_trans (pw_init l w ux_st)) (ux_utt [0; 3; 5]) ls0 Hc aud_entered E2 Htr Sa); auto.
    - intros ->. discriminate Sl.
    - discriminate.
    - exists ls0. auto. }
  set (m := inst (forms ux_st) ux_skel).
  assert (Wm : wf m) by (apply (inst_wf KDiag 1); exact ux_typed).
  assert (Am : accepts 4 m) by (apply (inst_accepts KDiag 1); exact ux_typed).
  assert (Hf : fits 4 m (lu_utt l (pw_trans (pw_init l w ux_st)) (ux_utt [0; 3; 5]))).
  { destruct (build_ok _ _ _ _ 9 Hc) as (l'' & units'' & tots'' & c & g & E'' & _ & Eg & Eo & Ec & En & Em & _).
    rewrite E2 in E''. injection E'' as <- <- <-.
    assert (Es : list_sum tots = 8%nat) by (rewrite (C178_aud_size _ _ _ _ _ _ ux_aud E2); reflexivity).
    unfold fits, lu_utt. cbn [ux_utt lu_ali lu_stats u_stats u_order u_graph]. rewrite Eo, Em, En, Es. split; [discriminate|]. split; [|split].
    - repeat constructor.
    - intros o Ho. apply in_seq in Ho. change (size m) with 8%nat. lia.
    - rewrite seq_length. cbn [with_trans cg_n]. rewrite Eg. cbn [to_cgraph cg_n]. lia. }
  destruct (unigram_possible amax 1 l m 4 9 (pw_trans (pw_init l w ux_st)) (ux_utt [0; 3; 5]) Wm N Am Hw Hl Hf Hp w) as (b & Hb & _).
  apply (unigram_agree amax 1 l m 4 9 (pw_trans (pw_init l w ux_st)) (ux_utt [0; 3; 5]) Wm Hl Hf) in Hb.
  exists b. change (inst (forms (pw_pars (pw_init l w ux_st))) ux_skel) with m in Eb1. change (pw_weights (pw_init l w ux_st)) with w in Eb1.
  rewrite Hb in Eb1. injection Eb1 as <-. reflexivity.
Qed.

Print Assumptions C184_numbers.
Print Assumptions C184_numbers_update.
Print Assumptions C184_unigram.
Print Assumptions C184_bigram.
Print Assumptions C184_round.
Print Assumptions C184_bigram_round.
Print Assumptions C184_loop.
Print Assumptions C184_aud.
