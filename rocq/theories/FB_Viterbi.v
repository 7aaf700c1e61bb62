(** Optimality of best_path and invariance of the inference to per-frame
    offsets. *)
From Coq Require Import Reals List Lra Lia Arith Bool.
From Verif Require Import Prelude FB_Model FB_Spec FB_Proofs.
Import ListNotations.
Local Open Scope R_scope.

Lemma lp_le_refl a : lp_le a a.
Proof. destruct a; simpl; auto; lra. Qed.

Lemma lp_le_trans a b c : lp_le a b -> lp_le b c -> lp_le a c.
Proof. destruct a, b, c; simpl; intros; try tauto; lra. Qed.

Lemma ladd_mono a b c d : lp_le a b -> lp_le c d -> lp_le (ladd a c) (ladd b d).
Proof. destruct a, b, c, d; simpl; intros; try tauto; lra. Qed.

Lemma ladd_comm a b : ladd a b = ladd b a.
Proof. destruct a, b; simpl; auto. f_equal; ring. Qed.

Lemma ladd_assoc a b c : ladd (ladd a b) c = ladd a (ladd b c).
Proof. destruct a, b, c; simpl; auto. f_equal; ring. Qed.

(** Score of a continuation without the final probability. *)
Fixpoint mid_score (g : cgraph) (s : nat) (ls : list row) (p : list nat) : lp :=
  match ls, p with
  | [], [] => Fin 0
  | l :: ls', j :: p' =>
    ladd (ladd (cg_trans g s j) (l j)) (mid_score g j ls' p')
  | _, _ => NInf
  end.

Lemma ladd_0_r a : ladd a (Fin 0) = a.
Proof. destruct a; simpl; auto. f_equal; ring. Qed.

Local Arguments ladd : simpl never.

Lemma tail_mid g ls : forall s p, length p = length ls ->
  tail_score g s ls p = ladd (mid_score g s ls p) (cg_final g (last p s)).
Proof.
  induction ls as [|l ls IH]; intros s [|j p] H; simpl in H; try lia.
  - simpl. rewrite ladd_comm, ladd_0_r. reflexivity.
  - simpl tail_score. simpl mid_score. rewrite IH by lia.
    rewrite <- !ladd_assoc. f_equal.
    destruct p as [|k p]; [reflexivity|].
    assert (E : forall (q : list nat) x a b, last (x :: q) a = last (x :: q) b).
    { clear. induction q as [|y q IHq]; intros; [reflexivity|].
      change (last (y :: q) a = last (y :: q) b). apply IHq. }
    f_equal. exact (E p k j s).
Qed.

Section V.
  Variable amax : nat -> (nat -> lp) -> nat.
  Hypothesis Hamax : is_argmax amax.
  Variable g : cgraph.
  Hypothesis Hn : (0 < cg_n g)%nat.

  Definition recon (bts : list (nat -> nat)) (e : nat) : list nat :=
    fold_left bt_insert (rev bts) [e].

  Lemma recon_cons bt bts e :
    recon (bt :: bts) e = bt (hd 0%nat (recon bts e)) :: recon bts e.
  Proof. unfold recon. simpl. rewrite fold_left_app. reflexivity. Qed.

  Lemma backtrack_lt omega j : (backtrack amax g omega j < cg_n g)%nat.
  Proof. unfold backtrack. apply Hamax. exact Hn. Qed.

  (** The omega of the loop is the score of the reconstructed path. *)
  Lemma vit_sound ls : forall omega e,
    (e < cg_n g)%nat ->
    let r := vit_loop amax g omega ls in
    exists p0 rest,
      recon (snd r) e = p0 :: rest /\ length rest = length ls /\
      last rest p0 = e /\ (p0 < cg_n g)%nat /\
      Forall (fun i => (i < cg_n g)%nat) rest /\
      fst r e = ladd (omega p0) (mid_score g p0 ls rest).
  Proof.
    induction ls as [|l ls IH]; intros omega e He r.
    - exists e, []. subst r. simpl. rewrite ladd_0_r. repeat split; auto.
    - specialize (IH (vit_step amax g omega l) e He).
      destruct IH as (p0 & rest & H1 & H2 & H3 & H4 & H5 & H6).
      subst r. simpl. rewrite recon_cons, H1. simpl hd.
      set (b := backtrack amax g omega p0).
      exists b, (p0 :: rest). repeat split.
      + simpl. now rewrite H2.
      + destruct rest as [|k rest]; [exact H3|].
        rewrite <- H3. clear.
        change (last (k :: rest) b = last (k :: rest) p0).
        revert k. induction rest as [|y q IHq]; intros; [reflexivity|].
        change (last (y :: q) b = last (y :: q) p0). apply IHq.
      + apply backtrack_lt.
      + constructor; auto.
      + rewrite H6. unfold vit_step, hyp. fold b.
        simpl mid_score. rewrite <- !ladd_assoc. f_equal.
        rewrite (ladd_comm (l p0) (omega b)), !ladd_assoc. f_equal. apply ladd_comm.
  Qed.

  (** No path scores more than omega. *)
  Lemma vit_complete ls : forall omega s p,
    (s < cg_n g)%nat -> length p = length ls ->
    Forall (fun i => (i < cg_n g)%nat) p ->
    lp_le (ladd (omega s) (mid_score g s ls p))
          (fst (vit_loop amax g omega ls) (last p s)).
  Proof.
    induction ls as [|l ls IH]; intros omega s [|j p] Hs Hl Hf; simpl in Hl; try lia.
    - simpl. rewrite ladd_0_r. apply lp_le_refl.
    - inversion_clear Hf as [|? ? Hj Hf'].
      assert (El : last (j :: p) s = last p j).
      { clear. revert j. induction p as [|k p IHp]; intros j; [reflexivity|].
        change (last (k :: p) s = last (k :: p) j).
        rewrite IHp. clear. symmetry.
        destruct p; [reflexivity|]. 
        change (last (n :: p) j = last (n :: p) k).
        revert n. induction p as [|y q IHq]; intros; [reflexivity|].
        change (last (y :: q) j = last (y :: q) k). apply IHq. }
      rewrite El. simpl vit_loop. simpl fst.
      eapply lp_le_trans; [|apply IH; auto; lia].
      simpl mid_score. rewrite <- !ladd_assoc.
      apply ladd_mono; [|apply lp_le_refl].
      unfold vit_step. rewrite (ladd_comm (l j)). apply ladd_mono; [|apply lp_le_refl].
      unfold backtrack. apply (proj2 (Hamax (cg_n g) (hyp g omega j) Hn)). exact Hs.
  Qed.

  Lemma best_path_optimal ls : ls <> [] ->
    exists best, best_path amax g ls = Ok best /\
      In best (paths (cg_n g) (length ls)) /\
      forall p, In p (paths (cg_n g) (length ls)) ->
        lp_le (path_score g ls p) (path_score g ls best).
  Proof.
    destruct ls as [|l ls]; [congruence|]. intros _.
    unfold best_path.
    set (omega0 := fun j => ladd (l j) (cg_init g j)).
    set (r := vit_loop amax g omega0 ls).
    set (e := amax (cg_n g) (fun j => ladd (fst r j) (cg_final g j))).
    assert (He : (e < cg_n g)%nat) by (apply Hamax; exact Hn).
    destruct (vit_sound ls omega0 e He) as (p0 & rest & H1 & H2 & H3 & H4 & H5 & H6).
    fold r in H1, H6.
    exists (p0 :: rest). unfold recon in H1. rewrite H1. split; [reflexivity|].
    split.
    { apply paths_in. simpl. split; [now rewrite H2|]. constructor; auto. }
    intros p Hp. apply paths_in in Hp. destruct Hp as [Hl Hf].
    destruct p as [|s p]; [discriminate|]. simpl in Hl.
    inversion_clear Hf as [|? ? Hs Hf'].
    simpl path_score. rewrite !tail_mid by lia. rewrite H3.
    rewrite <- !ladd_assoc.
    rewrite (ladd_comm (cg_init g s)), (ladd_comm (cg_init g p0)).
    change (ladd (l s) (cg_init g s)) with (omega0 s).
    change (ladd (l p0) (cg_init g p0)) with (omega0 p0).
    rewrite <- H6.
    eapply lp_le_trans.
    - apply ladd_mono; [|apply lp_le_refl]. apply (vit_complete ls omega0 s p); auto; lia.
    - fold r.
      apply (proj2 (Hamax (cg_n g) (fun j => ladd (fst r j) (cg_final g j)) Hn)).
      clear -Hs Hf'. revert s Hs. induction Hf' as [|k q Hk _ IHq]; intros s Hs; [exact Hs|].
      specialize (IHq k Hk).
      destruct q as [|y q]; [exact Hk|].
      assert (E : forall (q : list nat) x a b, last (x :: q) a = last (x :: q) b).
      { clear. induction q as [|z q IHq']; intros; [reflexivity|].
        change (last (z :: q) a = last (z :: q) b). apply IHq'. }
      change (last (y :: q) s < cg_n g)%nat. rewrite (E q y s k). exact IHq.
  Qed.
End V.

Lemma first_max_is_argmax : is_argmax first_max.
Proof.
  intros n f Hn. unfold first_max.
  assert (H : forall l b,
    let m := fold_left (fun best i => if lp_ltb (f best) (f i) then i else best) l b in
    (m = b \/ In m l) /\ lp_le (f b) (f m) /\ forall i, In i l -> lp_le (f i) (f m)).
  { induction l as [|x l IH]; intros b; simpl.
    - split; [now left|]. split; [apply lp_le_refl|tauto].
    - destruct (lp_ltb (f b) (f x)) eqn:E.
      + destruct (IH x) as (H1 & H2 & H3). split; [destruct H1; auto|].
        split.
        * eapply lp_le_trans; [|exact H2].
          destruct (f b), (f x); simpl in *; try discriminate; auto.
          destruct (Rlt_dec r r0); [lra|discriminate].
        * intros i [->|Hi]; auto.
      + destruct (IH b) as (H1 & H2 & H3). split; [destruct H1; auto|].
        split; [exact H2|]. intros i [->|Hi]; auto.
        eapply lp_le_trans; [|exact H2].
        destruct (f b), (f i); simpl in *; try discriminate; auto.
        destruct (Rlt_dec r r0); [discriminate|lra]. }
  destruct (H (seq 0 n) 0%nat) as (H1 & H2 & H3). split.
  - destruct H1 as [->|Hi]; [exact Hn|]. apply in_seq in Hi. lia.
  - intros i Hi. apply H3. apply in_seq. lia.
Qed.

(** ** Per-frame offsets *)
Definition shift_row (c : R) (l : row) : row := fun j => ladd (l j) (Fin c).

Definition shift_rows (cs : list R) (ls : list row) : list row :=
  map (fun x => shift_row (fst x) (snd x)) (combine cs ls).

Lemma shift_rows_length cs ls :
  length cs = length ls -> length (shift_rows cs ls) = length ls.
Proof. intros. unfold shift_rows. rewrite map_length, combine_length. lia. Qed.

Lemma tail_prob_shift g ls : forall cs s p,
  length cs = length ls -> length p = length ls ->
  tail_prob g s (shift_rows cs ls) p = exp (rsum cs) * tail_prob g s ls p.
Proof.
  induction ls as [|l ls IH]; intros [|c cs] s [|j p] H1 H2; simpl in *; try lia.
  - rewrite exp_0. ring.
  - change (map _ (combine cs ls)) with (shift_rows cs ls).
    rewrite IH by lia. unfold shift_row. rewrite ex_ladd, exp_plus. simpl. ring.
Qed.

Lemma path_prob_shift g ls cs p :
  length cs = length ls -> length p = length ls ->
  path_prob g (shift_rows cs ls) p = exp (rsum cs) * path_prob g ls p.
Proof.
  destruct ls as [|l ls], cs as [|c cs], p as [|j p]; simpl; intros; try lia.
  - ring.
  - change (map _ (combine cs ls)) with (shift_rows cs ls).
    rewrite tail_prob_shift by lia. unfold shift_row. rewrite ex_ladd, exp_plus.
    simpl. ring.
Qed.

Lemma evidence_shift g ls cs :
  length cs = length ls ->
  evidence g (shift_rows cs ls) = exp (rsum cs) * evidence g ls.
Proof.
  intros H. unfold evidence. rewrite shift_rows_length by auto.
  rewrite <- sumf_scal_l. apply sumf_ext. intros p Hp.
  apply path_prob_shift; auto. eapply paths_length; eauto.
Qed.

Lemma visit_mass_shift g ls cs t j :
  length cs = length ls ->
  visit_mass g (shift_rows cs ls) t j = exp (rsum cs) * visit_mass g ls t j.
Proof.
  intros H. unfold visit_mass. rewrite shift_rows_length by auto.
  rewrite <- sumf_scal_l. apply sumf_ext. intros p Hp.
  apply path_prob_shift; auto. apply filter_In in Hp.
  eapply paths_length; apply Hp.
Qed.

Lemma pair_mass_shift g ls cs t i j :
  length cs = length ls ->
  pair_mass g (shift_rows cs ls) t i j = exp (rsum cs) * pair_mass g ls t i j.
Proof.
  intros H. unfold pair_mass. rewrite shift_rows_length by auto.
  rewrite <- sumf_scal_l. apply sumf_ext. intros p Hp.
  apply path_prob_shift; auto. apply filter_In in Hp.
  eapply paths_length; apply Hp.
Qed.

Lemma ex_tail_score g ls : forall s p, ex (tail_score g s ls p) = tail_prob g s ls p.
Proof.
  induction ls as [|l ls IH]; intros s [|j p]; simpl; auto.
  rewrite !ex_ladd, IH. reflexivity.
Qed.

Lemma ex_path_score g ls p : ex (path_score g ls p) = path_prob g ls p.
Proof.
  destruct ls as [|l ls], p as [|j p]; simpl; auto.
  rewrite !ex_ladd, ex_tail_score. reflexivity.
Qed.

Lemma lp_le_ex a b : lp_le a b <-> ex a <= ex b.
Proof.
  destruct a as [|x], b as [|y]; simpl.
  - split; auto; lra.
  - split; auto. intros _. left; apply exp_pos.
  - split; [tauto|]. pose proof (exp_pos x). lra.
  - split.
    + intros [H| ->]; [left; now apply exp_increasing|lra].
    + intros [H|H]; [left; now apply exp_lt_inv|right; now apply exp_inv].
Qed.

Lemma shift_invariance_posteriors g ls cs posts lnm :
  length cs = length ls -> 0 < evidence g ls ->
  posteriors g ls = Ok (posts, lnm) ->
  exists posts',
    posteriors g (shift_rows cs ls) =
      Ok (posts', ladd lnm (Fin (rsum cs))) /\
    (forall t j d, (t < length ls)%nat -> (j < cg_n g)%nat ->
       nth t posts' d j = nth t posts d j) /\
    (forall t i j d, (S t < length ls)%nat -> (i < cg_n g)%nat -> (j < cg_n g)%nat ->
       nth t (trans_posteriors g (shift_rows cs ls)) d i j =
       nth t (trans_posteriors g ls) d i j).
Proof.
  intros Hl Hev Hp.
  assert (Hls : ls <> []) by (intros ->; discriminate).
  assert (Hne : shift_rows cs ls <> []).
  { intros E. pose proof (shift_rows_length cs ls Hl) as HH. rewrite E in HH.
    destruct ls; [congruence|discriminate]. }
  destruct (posteriors_ok g _ Hne) as (posts' & lnm' & Hp' & Hlen).
  pose proof (exp_pos (rsum cs)) as Hexp.
  assert (Hev' : 0 < evidence g (shift_rows cs ls)).
  { rewrite evidence_shift by auto. now apply Rmult_lt_0_compat. }
  exists posts'. split; [|split].
  - rewrite Hp'. f_equal. f_equal.
    rewrite (posteriors_lognorm _ _ _ _ Hp'), (posteriors_lognorm _ _ _ _ Hp).
    destruct (Rlt_dec 0 (evidence g (shift_rows cs ls))); [|lra].
    destruct (Rlt_dec 0 (evidence g ls)); [|lra].
    rewrite evidence_shift by auto. rewrite ln_mult by auto.
    rewrite ln_exp. unfold ladd. f_equal. ring.
  - intros t j d Ht Hj.
    rewrite (posteriors_state _ _ _ _ t j d Hp' Hev')
      by (rewrite ?shift_rows_length; auto).
    rewrite (posteriors_state _ _ _ _ t j d Hp Hev) by auto.
    rewrite visit_mass_shift, evidence_shift by auto. f_equal. field. lra.
  - intros t i j d Ht Hi Hj.
    rewrite (trans_posteriors_pair _ _ t d i j Hev')
      by (rewrite ?shift_rows_length; auto).
    rewrite (trans_posteriors_pair _ _ t d i j Hev) by auto.
    rewrite pair_mass_shift, evidence_shift by auto. f_equal. field. lra.
Qed.

Lemma shift_invariance_score g ls cs p q :
  length cs = length ls -> length p = length ls -> length q = length ls ->
  (lp_le (path_score g (shift_rows cs ls) p) (path_score g (shift_rows cs ls) q)
   <-> lp_le (path_score g ls p) (path_score g ls q)).
Proof.
  intros Hc Hp Hq. rewrite !lp_le_ex, !ex_path_score, !path_prob_shift by auto.
  pose proof (exp_pos (rsum cs)). split.
  - intros H0. eapply Rmult_le_reg_l; eauto.
  - intros H0. apply Rmult_le_compat_l; lra.
Qed.
