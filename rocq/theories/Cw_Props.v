(** C188: the training of the phone-loops converges. *)
From Coq Require Import Reals List Arith Bool Lia Lra String.
From Coq Require Import List.
From Verif Require Import Prelude Vec Lgamma FB_Model FB_Spec FB_Proofs Edit_Model Dec_Model Set_Model Set_Spec Set_Proofs
  HMM_Model HMM_Spec HMM_Proofs Dist_Model Dist_Spec Mat NW_Model NW_Spec
  SB_Model SB_Spec Sk_Model Sk_Spec Vt_Model Vt_Spec Vt_Proofs Vt_Props Vl_Model Vl_Spec Vl_Proofs Vl_Props Mx_Model Mx_Spec Mx_Proofs Mx_Props
  Df_Model Pl_Model Pl_Props De_Proofs Pw_Model Pw_Spec Pw_Proofs Pw_Props Bg_Model Bg_Spec Bg_Proofs Bg_Props Cv_Spec Cv_Proofs Cv_Props Cw_Spec Cw_Proofs.
Import ListNotations.
Local Open Scope R_scope.

(** ** Unigram loops *)
Definition pw_kept (l : ploop) (skel : mset) (s0 s : pwst) : Prop :=
  loop_kept l skel (pw_pars s0) (pw_trans s0) (pw_pars s) (pw_trans s).

(** Whatever the posteriors of the emissions, the model of the weights and its
    posteriors *)
Theorem C188_bounded : forall k D scale w l skel utts s0,
  0 <= scale -> 0 <= w -> pw_good k D l skel s0 -> Forall (pw_utt_ok k D l skel s0) utts ->
  exists B, forall s, pw_good k D l skel s -> Forall (pw_utt_ok k D l skel s) utts -> pw_kept l skel s0 s ->
    pw_bound scale w l skel utts s <= B /\
    forall i0, one_initial (pl_graph l) i0 -> pw_drawn scale w l skel utts s <= B.
Proof.
  intros k D scale w l skel utts s0 Hs Hw (T0 & _) H0.
  destruct (loop_ub k D scale w l skel utts Hs Hw (pw_pars s0) (pw_trans s0) T0 H0) as (B & HB).
  exists B. intros s G HU K. assert (G' := G). destruct G' as (T & W & (He & Ht)).
  assert (E1 : forall i j, In i (pl_ends l) -> In j (pl_starts l) -> ex (pw_trans s i j) <= 1).
  { intros i j Hi Hj. destruct (In_nth _ _ 0%nat Hj) as (n & Hn & <-). rewrite (Ht i n Hi Hn).
    assert (A := elog_weight_neg _ _ n W Hn). assert (X : exp (elog_weight (pw_weights s) n) <= 1).
    { rewrite <- exp_0. destruct A as [A|A]; [left; now apply exp_increasing|rewrite A; lra]. }
    assert (Y := He i Hi). assert (Z := ex_nonneg (pw_trans s i i)).
    assert (V := exp_pos (elog_weight (pw_weights s) n)). nra. }
  specialize (HB (pw_pars s) (pw_trans s) T HU K E1). assert (N := weights_div_nonneg _ _ W).
  assert (Hb : pw_bound scale w l skel utts s <= B) by (unfold pw_bound; lra).
  split; [exact Hb|]. intros i0 Hi. rewrite (pw_drawn_split k D scale w l skel utts s i0 Hi G HU).
  assert (F : sumf (fun x => match lu_ali x with Some _ => 0 | None => pw_first_logw l (pw_weights s) i0 end) utts <= 0).
  { eapply Rle_trans; [apply (sumf_le _ (fun _ : lutt => 0))|rewrite sumf_const; lra]. intros x _.
    destruct (lu_ali x); [lra|]. unfold pw_first_logw. destruct (position i0 (pl_starts l)) as [j|] eqn:Ej; [|lra].
    apply (elog_weight_neg (length (pl_starts l))); [exact W|]. revert j Ej. clear. induction (pl_starts l) as [|a t IH]; intros j E; [discriminate|].
    cbn [position] in E. destruct (Nat.eqb i0 a); [injection E as <-; cbn; lia|]. destruct (position i0 t) as [m|]; [|discriminate].
    injection E as <-. cbn [length]. specialize (IH m eq_refl). lia. }
  apply (Rmult_le_compat_l w) in F; [|exact Hw]. lra.
Qed.

Lemma pw_kept_refl l skel s : pw_kept l skel s s.
Proof. split; [apply priors_kept_refl|auto]. Qed.

Lemma pw_step_kept sort amax scale w lrate uw group l skel utts s0 s s' :
  pw_kept l skel s0 s -> pw_step sort amax scale w lrate uw group l skel utts s = Some s' -> pw_kept l skel s0 s'.
Proof.
  intros (K1 & K2) E. unfold pw_step in E. destruct (all_some _) as [Ds|]; [|discriminate]. injection E as <-.
  cbn [pw_kept pw_pars pw_trans]. split.
  - eapply priors_kept_trans; [exact K1|apply apply_step_kept].
  - intros i j H. rewrite <- K2 by exact H. destruct uw; [|reflexivity]. unfold pw_tune. now apply De_Proofs.unigram_other.
Qed.

Lemma pw_snoc sort amax scale w t x l skel utts s :
  pw_train sort amax scale w (t ++ [x]) l skel utts s =
  match pw_train sort amax scale w t l skel utts s with
  | Some s' => pw_step sort amax scale w (fst (fst x)) (snd (fst x)) (snd x) l skel utts s'
  | None => None
  end.
Proof.
  revert s. induction t as [|[[r uw] g] t IH]; intros s; cbn [app pw_train].
  - destruct x as [[r uw] g]. cbn [fst snd]. now destruct (pw_step _ _ _ _ _ _ _ _ _ _ _).
  - destruct (pw_step _ _ _ _ _ _ _ _ _ _ _); auto.
Qed.

Lemma pw_converges sort amax k D scale w (steps : nat -> R * bool * list nat) l skel utts s0 (b : pwst -> R) B :
  pw_good k D l skel s0 -> Forall (pw_utt_ok k D l skel s0) utts ->
  (forall n, rate_ok (pw_weights s0) (fst (fst (steps n))) (snd (fst (steps n)))) ->
  (forall n s, pw_good k D l skel s -> Forall (pw_utt_ok k D l skel s) utts ->
     rate_ok (pw_weights s) (fst (fst (steps n))) (snd (fst (steps n))) ->
     exists s', pw_train sort amax scale w [steps n] l skel utts s = Some s' /\
       pw_good k D l skel s' /\ Forall (pw_utt_ok k D l skel s') utts /\ b s <= b s') ->
  (forall s, pw_good k D l skel s -> Forall (pw_utt_ok k D l skel s) utts -> pw_kept l skel s0 s -> b s <= B) ->
  exists (run : nat -> pwst) (L : R),
    (forall n, pw_train sort amax scale w (map steps (seq 0 n)) l skel utts s0 = Some (run n)) /\
    (forall n, b (run n) <= b (run (S n)) <= L) /\ Un_cv (fun n => b (run n)) L.
Proof.
  intros G0 U0 R0 Hst HB.
  destruct (run_limit (fun s => pw_good k D l skel s /\ Forall (pw_utt_ok k D l skel s) utts /\ pw_kept l skel s0 s /\
      forall n, rate_ok (pw_weights s) (fst (fst (steps n))) (snd (fst (steps n)))) b
    (fun n s => pw_step sort amax scale w (fst (fst (steps n))) (snd (fst (steps n))) (snd (steps n)) l skel utts s) B s0)
    as (run & L & E0 & HS & _ & HL & HC).
  - split; [exact G0|]. split; [exact U0|]. split; [apply pw_kept_refl|exact R0].
  - intros n s (G & U & K & Rt). destruct (Hst n s G U (Rt n)) as (s' & E & G' & U' & Hb). exists s'.
    assert (E' : pw_step sort amax scale w (fst (fst (steps n))) (snd (fst (steps n))) (snd (steps n)) l skel utts s = Some s').
    { destruct (steps n) as [[r uw] g]. cbn [pw_train fst snd] in *. now destruct (pw_step _ _ _ _ _ _ _ _ _ _ _). }
    split; [exact E'|]. split; [|exact Hb]. split; [exact G'|]. split; [exact U'|]. split; [now apply (pw_step_kept _ _ _ _ _ _ _ _ _ _ _ _ _ K E')|].
    intros m. eapply rate_kind; [exact (pw_kind _ _ _ _ _ _ _ _ _ _ _ _ E')|apply Rt].
  - intros s (G & U & K & _). now apply HB.
  - exists run, L. split; [|split; [exact HL|exact HC]].
    induction n as [|n IH]; [cbn; now rewrite E0|]. rewrite seq_S, map_app. cbn [map Nat.add]. rewrite pw_snoc, IH. apply HS.
Qed.

(** When the weights are not trained, or all the utterances have alignments
    (the recipes that train on transcriptions) *)
Theorem C188_aligned_converges : forall sort amax k D scale w (steps : nat -> R * bool * list nat) l skel utts s0,
  (forall counts, sorts_desc counts (sort counts)) -> 0 <= scale -> 0 <= w -> NoDup (params skel) -> loop_ok l ->
  pw_good k D l skel s0 -> Forall (pw_utt_ok k D l skel s0) utts ->
  (forall n, rate_ok (pw_weights s0) (fst (fst (steps n))) (snd (fst (steps n)))) ->
  (forall n, snd (fst (steps n)) = false) \/ Forall (fun x => lu_ali x <> None) utts ->
  exists (run : nat -> pwst) (L : R),
    (forall n, pw_train sort amax scale w (map steps (seq 0 n)) l skel utts s0 = Some (run n)) /\
    (forall n, pw_bound scale w l skel utts (run n) <= pw_bound scale w l skel utts (run (S n)) <= L) /\
    Un_cv (fun n => pw_bound scale w l skel utts (run n)) L.
Proof.
  intros sort amax k D scale w steps l skel utts s0 Hso Hs Hw Hnd Hlo G0 U0 R0 Hor.
  destruct (C188_bounded k D scale w l skel utts s0 Hs Hw G0 U0) as (B & HB).
  apply (pw_converges sort amax k D scale w steps l skel utts s0 (pw_bound scale w l skel utts) B); auto.
  - intros n s G U Rt. apply (C171_unchanged_first_training sort amax k D scale w [steps n] l skel utts s); auto.
    destruct Hor as [H|H]; [left; constructor; auto|now right].
  - intros s G U K. now apply HB.
Qed.

(** When all the paths of the loop begin with the same phone: the bound where
    the first phone is drawn with the weights as well *)
Theorem C188_one_first_phone_converges : forall sort amax k D scale w (steps : nat -> R * bool * list nat) l skel utts s0 i0,
  (forall counts, sorts_desc counts (sort counts)) -> 0 <= scale -> 0 <= w -> NoDup (params skel) -> loop_ok l ->
  one_initial (pl_graph l) i0 ->
  pw_good k D l skel s0 -> Forall (pw_utt_ok k D l skel s0) utts ->
  (forall n, rate_ok (pw_weights s0) (fst (fst (steps n))) (snd (fst (steps n)))) ->
  exists (run : nat -> pwst) (L : R),
    (forall n, pw_train sort amax scale w (map steps (seq 0 n)) l skel utts s0 = Some (run n)) /\
    (forall n, pw_drawn scale w l skel utts (run n) <= pw_drawn scale w l skel utts (run (S n)) <= L) /\
    Un_cv (fun n => pw_drawn scale w l skel utts (run n)) L.
Proof.
  intros sort amax k D scale w steps l skel utts s0 i0 Hso Hs Hw Hnd Hlo Hi G0 U0 R0.
  destruct (C188_bounded k D scale w l skel utts s0 Hs Hw G0 U0) as (B & HB).
  apply (pw_converges sort amax k D scale w steps l skel utts s0 (pw_drawn scale w l skel utts) B); auto.
  - intros n s G U Rt. now apply (C171_one_first_phone_training sort amax k D scale w [steps n] l skel utts s i0); auto.
  - intros s G U K. now apply (proj2 (HB s G U K) i0).
Qed.

(** ** Bigram loops *)
Definition bg_kept (l : ploop) (skel : mset) (s0 s : bgst) : Prop :=
  loop_kept l skel (bg_pars s0) (bg_trans s0) (bg_pars s) (bg_trans s).

Theorem C188_bigram_bounded : forall k D scale w l skel utts s0,
  0 <= scale -> 0 <= w -> bg_loop_ok l -> bg_good k D l skel s0 -> Forall (bg_utt_ok k D l skel s0) utts ->
  exists B, forall s, bg_good k D l skel s -> Forall (bg_utt_ok k D l skel s) utts -> bg_kept l skel s0 s ->
    bg_bound scale w l skel utts s <= B.
Proof.
  intros k D scale w l skel utts s0 Hs Hw (_ & Hl) (T0 & _) H0.
  assert (H0' : Forall (fun x => utt_ok k D skel (lu_utt l (bg_trans s0) x)) utts) by (eapply Forall_impl; [|exact H0]; intros x (_ & H); exact H).
  destruct (loop_ub k D scale w l skel utts Hs Hw (bg_pars s0) (bg_trans s0) T0 H0') as (B & HB).
  exists B. intros s (T & W & (He & Ht)) HU K.
  assert (HU' : Forall (fun x => utt_ok k D skel (lu_utt l (bg_trans s) x)) utts) by (eapply Forall_impl; [|exact HU]; intros x (_ & H); exact H).
  assert (E1 : forall i j, In i (pl_ends l) -> In j (pl_starts l) -> ex (bg_trans s i j) <= 1).
  { intros i j Hi Hj. destruct (In_nth _ _ 0%nat Hj) as (n & Hn & <-). destruct (In_nth _ _ 0%nat Hi) as (m & Hm & <-).
    specialize (Ht m n Hm Hn). cbv zeta in Ht. rewrite Ht.
    assert (A : elog_used (length (pl_starts l)) (bg_set s) m n <= 0).
    { unfold elog_used. rewrite Hl in W, Hm. destruct (bg_set s); apply (elog_next_neg (length (pl_starts l))); auto. }
    assert (X : exp (elog_used (length (pl_starts l)) (bg_set s) m n) <= 1).
    { rewrite <- exp_0. destruct A as [A|A]; [left; now apply exp_increasing|rewrite A; lra]. }
    assert (Y := He _ Hi). assert (Z := ex_nonneg (bg_trans s (nth m (pl_ends l) 0%nat) (nth m (pl_ends l) 0%nat))).
    assert (V := exp_pos (elog_used (length (pl_starts l)) (bg_set s) m n)). nra. }
  specialize (HB (bg_pars s) (bg_trans s) T HU' K E1). assert (N := bg_kl_nonneg _ _ _ W). unfold bg_bound. lra.
Qed.

Lemma bg_step_kept amax scale w lrate uw group l skel utts s0 s s' :
  bg_kept l skel s0 s -> bg_step amax scale w lrate uw group l skel utts s = Ok s' -> bg_kept l skel s0 s'.
Proof.
  intros (K1 & K2) E. unfold bg_step in E. destruct (mapM _ _) as [Ds|]; [|discriminate]. cbn [bindr] in E. injection E as <-.
  cbn [bg_kept bg_pars bg_trans]. split.
  - eapply priors_kept_trans; [exact K1|apply apply_step_kept].
  - intros i j H. rewrite <- K2 by exact H. destruct uw; [|reflexivity]. unfold bg_tune. now apply De_Proofs.bigram_other.
Qed.

Lemma bg_snoc amax scale w t x l skel utts s :
  bg_train amax scale w (t ++ [x]) l skel utts s =
  bindr (bg_train amax scale w t l skel utts s) (fun s' => bg_step amax scale w (fst (fst x)) (snd (fst x)) (snd x) l skel utts s').
Proof.
  revert s. induction t as [|[[r uw] g] t IH]; intros s; cbn [app bg_train].
  - destruct x as [[r uw] g]. cbn [fst snd bindr]. now destruct (bg_step _ _ _ _ _ _ _ _ _ _).
  - destruct (bg_step _ _ _ _ _ _ _ _ _ _); cbn [bindr]; auto.
Qed.

(** Hierarchical Dirichlet process *)
Theorem C188_bigram_converges : forall amax k D scale w (steps : nat -> R * bool * list nat) l skel utts s0,
  0 <= scale -> 0 <= w -> NoDup (params skel) -> bg_loop_ok l -> by_sticks (bg_set s0) ->
  bg_good k D l skel s0 -> Forall (bg_utt_ok k D l skel s0) utts ->
  (forall n, 0 <= fst (fst (steps n)) <= 1) ->
  exists (run : nat -> bgst) (L : R),
    (forall n, bg_train amax scale w (map steps (seq 0 n)) l skel utts s0 = Ok (run n)) /\
    (forall n, bg_bound scale w l skel utts (run n) <= bg_bound scale w l skel utts (run (S n)) <= L) /\
    Un_cv (fun n => bg_bound scale w l skel utts (run n)) L.
Proof.
  intros amax k D scale w steps l skel utts s0 Hs Hw Hnd Hlo Hb0 G0 U0 R0.
  destruct (C188_bigram_bounded k D scale w l skel utts s0 Hs Hw Hlo G0 U0) as (B & HB).
  set (st := fun n s => bg_step amax scale w (fst (fst (steps n))) (snd (fst (steps n))) (snd (steps n)) l skel utts s).
  destruct (run_limit (fun s => bg_good k D l skel s /\ Forall (bg_utt_ok k D l skel s) utts /\ bg_kept l skel s0 s /\ by_sticks (bg_set s))
    (bg_bound scale w l skel utts) (fun n s => match st n s with Ok s' => Some s' | Err _ => None end) B s0)
    as (run & L & E0 & HS & _ & HL & HC).
  - split; [exact G0|]. split; [exact U0|]. split; [|exact Hb0]. split; [apply priors_kept_refl|auto].
  - intros n s (G & U & K & Hb).
    destruct (C172_step amax k D scale w (fst (fst (steps n))) (snd (fst (steps n))) (snd (steps n)) l skel utts s) as (s' & E & Hb' & G' & U' & Hle); auto.
    exists s'. unfold st. rewrite E. split; [reflexivity|]. split; [|exact Hle]. split; [exact G'|]. split; [exact U'|]. split; [|exact Hb'].
    now apply (bg_step_kept _ _ _ _ _ _ _ _ _ _ _ _ K E).
  - intros s (G & U & K & _). now apply HB.
  - exists run, L. split; [|split; [exact HL|exact HC]].
    induction n as [|n IH]; [cbn; now rewrite E0|]. rewrite seq_S, map_app. cbn [map Nat.add]. rewrite bg_snoc, IH. cbn [bindr].
    specialize (HS n). cbv beta in HS. unfold st in HS. destruct (bg_step _ _ _ _ _ _ _ _ _ _); congruence.
Qed.

(** The two loops of C171 and C172, trained for ever, the weights every other
    step. *)
Example C188_ex : forall sort amax, (forall counts, sorts_desc counts (sort counts)) ->
  let steps := fun n : nat => (1, Nat.even n, [1%nat]) in
  (exists (run : nat -> pwst) (L : R),
    (forall n, pw_train sort amax 1 1 (map steps (seq 0 n)) rx_loop rx_skel [rx_utt] px_s = Some (run n)) /\
    (forall n, pw_drawn 1 1 rx_loop rx_skel [rx_utt] (run n) <= pw_drawn 1 1 rx_loop rx_skel [rx_utt] (run (S n)) <= L) /\
    Un_cv (fun n => pw_drawn 1 1 rx_loop rx_skel [rx_utt] (run n)) L) /\
  (exists (run : nat -> bgst) (L : R),
    (forall n, bg_train amax 1 1 (map steps (seq 0 n)) bx_loop rx_skel [bx_utt] (bg_init bx_loop bx_stick rx_st) = Ok (run n)) /\
    (forall n, bg_bound 1 1 bx_loop rx_skel [bx_utt] (run n) <= bg_bound 1 1 bx_loop rx_skel [bx_utt] (run (S n)) <= L) /\
    Un_cv (fun n => bg_bound 1 1 bx_loop rx_skel [bx_utt] (run n)) L).
Proof.
  intros sort amax Hso steps. assert (N : NoDup (params rx_skel)) by (constructor; [intros []|constructor]). split.
  - apply (C188_one_first_phone_converges sort amax KDiag 1 1 1 steps rx_loop rx_skel [rx_utt] px_s 0); auto; try lra.
    + apply rx_loop_ok.
    + intros i Hi. cbn. destruct (Nat.eqb_spec i 0); [contradiction|reflexivity].
    + apply px_good.
    + constructor; [apply px_utt_ok|constructor].
    + intros n. split; [cbn; lra|]. intros _. reflexivity.
  - assert (W := bx_stick_ok). assert (G := bx_good bx_stick W).
    apply (C188_bigram_converges amax KDiag 1 1 1 steps bx_loop rx_skel [bx_utt] (bg_init bx_loop bx_stick rx_st)); auto; try lra.
    + apply bx_loop_ok.
    + exact I.
    + constructor; [exact (bx_utt_ok bx_stick W)|constructor].
    + intros n. cbn. lra.
Qed.

Print Assumptions C188_bounded.
Print Assumptions C188_aligned_converges.
Print Assumptions C188_one_first_phone_converges.
Print Assumptions C188_bigram_bounded.
Print Assumptions C188_bigram_converges.
