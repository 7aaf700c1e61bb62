(** Proofs for C195: the recipe with the state of the optimizer does the same
    as the recipe of Ep_Model.v when the state does not matter to the update. *)
From Coq Require Import List Arith Bool Ascii Lia Permutation.
From Verif Require Import Prelude Fe_Model Jb_Model Jb_Props Ep_Model Ep_Spec Ep_Proofs Ep_Props Rs_Model.
Import ListNotations.
Local Open Scope nat_scope.

Section Sim.
  Context {M A T : Type}.
  Variables (acc : M -> list str -> option A) (upd : option T -> M -> list A -> option (M * T)) (ord : nat -> list A -> list A).
  Variable okT : T -> Prop.
  Definition ok_file (f : option T) : Prop := match f with Some x => okT x | None => True end.
  Definition upd0 (m : M) (l : list A) : option M := option_map fst (upd None m l).
  Hypothesis Hsame : forall f m l, ok_file f -> option_map fst (upd f m l) = upd0 m l.
  Hypothesis Hnext : forall f m l m' x, ok_file f -> upd f m l = Some (m', x) -> okT x.

  Definition proj (o : run_opts) (ps : spc T * sdir M A T) : pc * outdir M A :=
    (match fst ps with Base p => p | PSave e _ => head o e end, r_out (snd ps)).
  Definition sok (ps : spc T * sdir M A T) : Prop :=
    ok_file (r_opt (snd ps)) /\ match fst ps with Base _ => True | PSave _ x => okT x end.
  Definition late (ps : spc T * sdir M A T) : nat := match fst ps with Base _ => 0 | PSave _ _ => 1 end.

  Lemma smicro_sim o lines ps : sok ps ->
    sok (smicro acc upd ord o lines ps) /\
    ((late ps = 1 /\ late (smicro acc upd ord o lines ps) = 0 /\ proj o (smicro acc upd ord o lines ps) = proj o ps) \/
     (late ps = 0 /\ proj o (smicro acc upd ord o lines ps) = micro acc upd0 ord o lines (proj o ps))).
  Proof.
    destruct ps as [p s]. unfold sok, proj, late. cbn [fst snd]. intros [H1 H2]. destruct p as [p|e x].
    - destruct p as [mdl e|mdl e rest|mdl e|mdl|b].
      + cbn. auto.
      + cbn [smicro micro]. destruct rest as [|id rest]; cbn; auto.
      + cbn [smicro micro]. destruct (getn (models (r_out s)) mdl) as [m|]; [|cbn; auto].
        assert (E := Hsame (r_opt s) m (ord e (map snd (pkls (r_out s) e))) H1).
        destruct (upd (r_opt s) m (ord e (map snd (pkls (r_out s) e)))) as [[m' x]|] eqn:Eu; cbn [option_map fst] in E; rewrite <- E; cbn; [|auto].
        split; [split; [exact H1|eapply Hnext; eauto]|]. right. auto.
      + cbn [smicro micro]. destruct (getn (models (r_out s)) mdl); cbn; auto.
      + cbn. auto.
    - cbn. auto.
  Qed.

  Lemma iter_S {B} (f : B -> B) k x : Nat.iter (S k) f x = f (Nat.iter k f x).
  Proof. reflexivity. Qed.

  Lemma ssteps_sim o lines k ps : sok ps -> late ps = 0 -> sok (ssteps acc upd ord o lines k ps) /\
    exists k', k + late (ssteps acc upd ord o lines k ps) <= 2 * k' /\
      proj o (ssteps acc upd ord o lines k ps) = steps acc upd0 ord o lines k' (proj o ps).
  Proof.
    intros H L. unfold ssteps. induction k as [|k (I1 & k' & I2 & I3)].
    - split; [exact H|]. exists 0. cbn [Nat.iter nat_rect]. rewrite L. split; [lia|reflexivity].
    - rewrite iter_S. destruct (smicro_sim o lines _ I1) as [S1 S2]. split; [exact S1|].
      destruct S2 as [(L1 & L2 & Ep)|(L1 & Ep)].
      + exists k'. rewrite L2, Ep. split; [lia|exact I3].
      + exists (S k'). rewrite Ep, I3. split; [|reflexivity].
        assert (late (smicro acc upd ord o lines (Nat.iter k (smicro acc upd ord o lines) ps)) <= 1).
        { unfold late. destruct (fst _); lia. }
        lia.
  Qed.

  Lemma start_sim o s : ok_file (r_opt s) -> sok (sstart o s, s) /\ late (sstart (T := T) o s, s) = 0 /\
    proj o (sstart o s, s) = (start o (r_out s), r_out s).
  Proof. intros H. unfold sok, late, proj, sstart. cbn. auto. Qed.

  (** A run killed at any point leaves the directory of a run of Ep_Model.v
      killed at some point. *)
  Lemma srun_sim o lines k s : ok_file (r_opt s) -> ok_file (r_opt (srun acc upd ord o lines k s)) /\
    exists k', r_out (srun acc upd ord o lines k s) = run acc upd0 ord o lines k' (r_out s).
  Proof.
    intros H. destruct (start_sim o s H) as (A1 & A2 & A3).
    destruct (ssteps_sim o lines k _ A1 A2) as ([B1 _] & k' & _ & B3). unfold srun. split; [exact B1|].
    exists k'. rewrite A3 in B3. unfold run. rewrite <- B3. reflexivity.
  Qed.

  Lemma sruns_sim lines l : forall s, ok_file (r_opt s) -> ok_file (r_opt (sruns acc upd ord lines l s)) /\
    exists l', map fst l' = map fst l /\ r_out (sruns acc upd ord lines l s) = runs acc upd0 ord lines l' (r_out s).
  Proof.
    induction l as [|[o k] l IH]; intros s H; cbn [sruns fold_left fst snd].
    - split; [exact H|]. now exists [].
    - destruct (srun_sim o lines k s H) as (H' & k' & E). destruct (IH _ H') as (H2 & l' & E1 & E2). split; [exact H2|].
      exists ((o, k') :: l'). cbn [map fst]. split; [now rewrite E1|]. unfold sruns in E2. rewrite E2. cbn [runs fold_left fst snd]. now rewrite E.
  Qed.

  Lemma head_not_done o e b : head o e <> PDone b.
  Proof. unfold head. destruct (S e <=? epochs o); discriminate. Qed.

  Variables (cut : nat -> nat) (N E : nat) (lines : list str) (m0 : M).
  Hypothesis Hmono : forall a b, a <= b -> cut a <= cut b.
  Hypothesis Hcut : forall a, cut a < N.
  Hypothesis Hord : forall e l, Permutation (ord e l) l.
  (** What one round does: [Q] holds of the models, [nxt] is the next model,
      however the utterances are shared. *)
  Variables (Q : M -> Prop) (nxt : M -> option M).
  Hypothesis Hround : forall m shares, Q m -> Permutation (concat shares) lines ->
    exists l m', map (acc m) shares = map Some l /\ upd0 m l = Some m' /\ Q m' /\ nxt m = Some m'.
  Hypothesis Hm0 : Q m0.

  Let shs := map (chunk cut lines) (seq 0 N).

  Lemma shs_lines : concat shs = lines.
  Proof.
    destruct (C193_share cut N lines [] Hmono Hcut) as (S1 & S2 & S3); [constructor|constructor|].
    etransitivity; [|exact S2]. f_equal. unfold shs. apply (nth_ext _ _ [] []).
    - rewrite map_length, seq_length. now rewrite S1.
    - intros n Hn. rewrite map_length, seq_length in Hn. rewrite S3 by exact Hn.
      rewrite (nth_indep _ [] (chunk cut lines 0)) by (now rewrite map_length, seq_length).
      rewrite (map_nth (chunk cut lines)), seq_nth by exact Hn. reflexivity.
  Qed.

  Lemma all_of_Some {B} (l : list B) : all_of (map Some l) = Some l.
  Proof. induction l as [|x l IH]; [reflexivity|]. cbn. now rewrite IH. Qed.

  Lemma rounds_nxt e : exists m, after_rounds acc upd0 shs m0 e = Some m /\ Q m /\
    exists m', after_rounds acc upd0 shs m0 (S e) = Some m' /\ nxt m = Some m'.
  Proof.
    assert (G : forall m, Q m -> exists m', round acc upd0 shs m = Some m' /\ Q m' /\ nxt m = Some m').
    { intros m Hm. destruct (Hround m shs Hm) as (l & m' & E1 & E2 & E3 & E4); [now rewrite shs_lines|].
      exists m'. unfold round. rewrite E1, all_of_Some. auto. }
    induction e as [|e (m & E1 & E2 & m' & E3 & E4)].
    - exists m0. split; [reflexivity|]. split; [exact Hm0|]. destruct (G m0 Hm0) as (m' & G1 & _ & G3). exists m'. auto.
    - destruct (G m E2) as (m1 & G1 & G2 & G3). rewrite G3 in E4. injection E4 as <-. exists m1. split; [exact E3|]. split; [exact G2|].
      destruct (G m1 G2) as (m2 & G4 & _ & G5). exists m2. split; [|exact G5].
      change (match after_rounds acc upd0 shs m0 (S e) with Some m => round acc upd0 shs m | None => None end = Some m2). now rewrite E3.
  Qed.

  Lemma upd0_perm m l l' : Q m -> map (acc m) shs = map Some l -> Permutation l l' -> upd0 m l' = upd0 m l.
  Proof.
    intros Hm El Hp. assert (P : Permutation (map Some l') (map (acc m) shs)) by (rewrite El; apply Permutation_map; now symmetry).
    apply Permutation_map_inv in P. destruct P as (shs' & E1 & P1).
    destruct (Hround m shs Hm) as (l1 & m1 & A1 & A2 & _ & A4); [now rewrite shs_lines|].
    destruct (Hround m shs' Hm) as (l2 & m2 & B1 & B2 & _ & B4).
    { replace lines with (concat shs) by exact shs_lines.
      assert (X : forall (a b : list (list str)), Permutation a b -> Permutation (concat a) (concat b)).
      { clear. intros a b H. induction H; cbn; auto.
        - now apply Permutation_app_head.
        - rewrite !app_assoc. apply Permutation_app_tail, Permutation_app_comm.
        - etransitivity; eauto. }
      symmetry. now apply X. }
    rewrite El in A1. apply map_Some_inj in A1. subst l1. rewrite <- E1 in B1. apply map_Some_inj in B1. subst l2. congruence.
  Qed.

  (** The recipe, however it is killed *)
  Lemma sresume killed o : Forall (fun ok => ok_opts cut N E (fst ok)) killed -> ok_opts cut N E o ->
    let s := sruns acc upd ord lines killed (sfresh m0) in
    exists (run : nat -> M) K d, run 0 = m0 /\ (forall e, Q (run e) /\ nxt (run e) = Some (run (S e))) /\
      (forall k, K <= k -> exists f, ssteps acc upd ord o lines k (sstart o s, s) = (Base (PDone true), {| r_out := d; r_opt := f |})) /\
      final d = Some (run E) /\ (forall e, e <= E -> getn (models d) e = Some (run e)) /\
      (forall e, E < e -> getn (models d) e = None).
  Proof.
    intros HF Ho s. destruct (sruns_sim lines killed (sfresh m0) I) as (Hf & l' & E1 & E2). fold s in Hf, E2.
    set (rn := fun e => match after_rounds acc upd0 shs m0 e with Some m => m | None => m0 end).
    assert (Hrn : forall e, after_rounds acc upd0 shs m0 e = Some (rn e)).
    { intros e. unfold rn. destruct (rounds_nxt e) as (m & Em & _). now rewrite Em. }
    assert (HF' : Forall (fun ok => ok_opts cut N E (fst ok)) l').
    { apply Forall_map. rewrite E1. now apply Forall_map. }
    destruct (C194_resume M A acc upd0 ord cut N E lines m0 l' o Hmono Hcut Hord) as (K & d & D1 & D2 & D3 & D4); auto.
    - intros e m l l2 He Em. destruct (rounds_nxt e) as (m1 & Em1 & Hq & _). fold shs in Em. rewrite Em in Em1. injection Em1 as <-. now apply upd0_perm.
    - intros e _. fold shs. rewrite Hrn. discriminate.
    - change (fresh m0) with (r_out (sfresh (T := T) m0) : outdir M A) in D1. rewrite <- E2 in D1.
      destruct (start_sim o s Hf) as (A1 & A2 & A3).
      exists rn, (2 * K), d. split; [reflexivity|]. split.
      { intros e. destruct (rounds_nxt e) as (m & Em & Hq & m' & Em' & Hn). rewrite Hrn in Em, Em'. injection Em as <-. injection Em' as <-. auto. }
      split; [|fold shs in D2, D3; rewrite D2, Hrn; split; [reflexivity|]; split; [|exact D4]; intros e He; now rewrite D3, Hrn].
      intros k Hk. destruct (ssteps_sim o lines k _ A1 A2) as (_ & k' & B2 & B3). rewrite A3, D1 in B3 by lia.
      destruct (ssteps acc upd ord o lines k (sstart o s, s)) as [p [d' f]]. unfold proj in B3. cbn [fst snd r_out] in B3.
      injection B3 as B4 B5. subst d'. exists f. f_equal. destruct p as [p|e x]; [now subst p|exfalso; now apply (head_not_done o e true)].
  Qed.
End Sim.
