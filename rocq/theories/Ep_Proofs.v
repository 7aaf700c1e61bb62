(** Proofs for C194: invariants of the training loop of a recipe. *)
From Coq Require Import List Arith Bool Ascii Lia Permutation.
From Verif Require Import Prelude Fe_Model Jb_Model Jb_Props Ep_Model Ep_Spec.
Import ListNotations.
Local Open Scope nat_scope.

(** ** Numbered files *)
Lemma getn_putn {B} (l : list (nat * B)) k v j : getn (putn l k v) j = if k =? j then Some v else getn l j.
Proof.
  induction l as [|[a b] l IH]; cbn [putn getn].
  - reflexivity.
  - destruct (Nat.eqb_spec a k) as [->|E]; cbn [getn].
    + destruct (Nat.eqb_spec k j); reflexivity.
    + destruct (Nat.eqb_spec a j) as [->|E'].
      * destruct (Nat.eqb_spec k j); [congruence|reflexivity].
      * exact IH.
Qed.

Lemma getn_in {B} (l : list (nat * B)) k v : getn l k = Some v -> In k (map fst l).
Proof.
  induction l as [|[a b] l IH]; cbn; [discriminate|]. destruct (Nat.eqb_spec a k); auto.
Qed.

Lemma putn_keys {B} (l : list (nat * B)) k v j : In j (map fst (putn l k v)) <-> j = k \/ In j (map fst l).
Proof.
  induction l as [|[a b] l IH]; cbn [putn map fst].
  - cbn. intuition.
  - destruct (Nat.eqb_spec a k) as [->|E]; cbn [map fst]; [cbn; intuition|]. cbn [In]. rewrite IH. intuition.
Qed.

Lemma putn_nodup {B} (l : list (nat * B)) k v : NoDup (map fst l) -> NoDup (map fst (putn l k v)).
Proof.
  induction l as [|[a b] l IH]; intros H; cbn [putn map fst] in *.
  - constructor; [intros []|constructor].
  - inversion H as [|? ? N1 N2]; subst. destruct (Nat.eqb_spec a k) as [->|E]; cbn [map fst]; constructor; auto.
    rewrite putn_keys. intuition.
Qed.

Lemma getn_values {B} (l : list (nat * B)) : NoDup (map fst l) -> map (getn l) (map fst l) = map Some (map snd l).
Proof.
  induction l as [|[a b] l IH]; intros H; [reflexivity|]. inversion H as [|? ? N1 N2]; subst. cbn [map fst snd getn].
  rewrite Nat.eqb_refl. f_equal. rewrite <- IH by auto. apply map_ext_in. intros k Hk.
  destruct (Nat.eqb_spec a k) as [->|]; [tauto|reflexivity].
Qed.

Lemma map_Some_inj {B} (l l' : list B) : map Some l = map Some l' -> l = l'.
Proof.
  revert l'. induction l as [|x l IH]; intros [|y l'] H; try discriminate; [reflexivity|].
  cbn in H. injection H as -> H. f_equal. auto.
Qed.

Lemma perm_Some {B} (l l' : list B) : Permutation (map Some l) (map Some l') -> Permutation l l'.
Proof.
  intros H. apply Permutation_map_inv in H. destruct H as (l3 & E & H). apply map_Some_inj in E. subst. now symmetry.
Qed.

Lemma all_of_some {B} (l : list (option B)) x : all_of l = Some x -> l = map Some x.
Proof.
  revert x. induction l as [|[a|] l IH]; intros x H; cbn in H; try discriminate.
  - injection H as <-. reflexivity.
  - destruct (all_of l) as [t|]; [|discriminate]. injection H as <-. cbn. f_equal. auto.
Qed.

Lemma fold_max_spec ks k : In (fold_left Nat.max ks k) (k :: ks) /\ forall j, In j (k :: ks) -> j <= fold_left Nat.max ks k.
Proof.
  revert k. induction ks as [|a ks IH]; intros k; cbn [fold_left].
  - split; [now left|]. intros j [->|[]]. lia.
  - destruct (IH (Nat.max k a)) as [I1 I2]. split.
    + destruct I1 as [I1|I1]; [|right; now right]. rewrite <- I1. destruct (Nat.max_spec k a) as [[_ ->]|[_ ->]]; cbn; auto.
    + assert (Nat.max k a <= fold_left Nat.max ks (Nat.max k a)) by (apply I2; now left).
      intros j [->|[->|Hj]]; [lia|lia|]. apply I2. now right.
Qed.

(** ** The loop *)
Section Loop.
  Context {M A : Type}.
  Variables (acc : M -> list str -> option A) (upd : M -> list A -> option M) (ord : nat -> list A -> list A).
  Variables (cut : nat -> nat) (N E : nat) (lines : list str) (m0 : M).
  Hypothesis Hmono : forall a b, a <= b -> cut a <= cut b.
  Hypothesis Hcut : forall a, cut a < N.
  Hypothesis Hord : forall e l, Permutation (ord e l) l.
  Let rounds := after_rounds acc upd (map (chunk cut lines) (seq 0 N)) m0.
  Hypothesis Hupd : forall e m l l', e < E -> rounds e = Some m ->
    map (acc m) (map (chunk cut lines) (seq 0 N)) = map Some l -> Permutation l l' -> upd m l' = upd m l.
  Hypothesis Hok : forall e, e <= E -> rounds e <> None.

  Definition ok_opts (o : run_opts) : Prop :=
    njobs o = N /\ cuts o = cut /\ epochs o = E /\ forall e l, Permutation (sched o e l) l.

  Definition good_split (d : dir) : Prop := NoDup (map fst d) /\ Forall (fun f => split_name N (fst f)) d.

  Record Inv (last : nat) (s : outdir M A) : Prop := {
    i_le : last <= E;
    i_get : forall i, i <= last -> getn (models s) i = rounds i;
    i_keys : forall k, In k (map fst (models s)) -> k <= last;
    i_split : forall e, good_split (splits s e);
    i_pkl : forall e, NoDup (map fst (pkls s e)) /\ forall k, In k (map fst (pkls s e)) -> 1 <= k <= N;
    i_fin : final s = None \/ (last = E /\ final s = rounds E)
  }.

  Definition jobs_done (mdl e : nat) (s : outdir M A) (rest : list nat) : Prop :=
    e = S mdl /\ e <= E /\ Inv mdl s /\ final s = None /\
    (forall id, 1 <= id <= N -> task_input (splits s e) id = chunk cut lines (id - 1)) /\
    exists done, Permutation (done ++ rest) (seq 1 N) /\
      forall m, rounds mdl = Some m -> forall id, In id done -> getn (pkls s e) id = acc m (chunk cut lines (id - 1)).

  Definition PI (ps : pc * outdir M A) : Prop :=
    match fst ps with
    | PSplit mdl e => e = S mdl /\ e <= E /\ Inv mdl (snd ps) /\ final (snd ps) = None
    | PJobs mdl e rest => jobs_done mdl e (snd ps) rest
    | PUpdate mdl e => jobs_done mdl e (snd ps) []
    | PCopy mdl => mdl = E /\ Inv E (snd ps)
    | PDone b => b = true /\ Inv E (snd ps) /\ final (snd ps) = rounds E
    end.

  Lemma rounds_accs mdl m : S mdl <= E -> rounds mdl = Some m ->
    exists l, map (acc m) (map (chunk cut lines) (seq 0 N)) = map Some l /\ upd m l = rounds (S mdl) /\ upd m l <> None.
  Proof.
    intros He Hm. assert (H := Hok (S mdl) He). unfold rounds in H, Hm |- *. cbn [after_rounds] in H |- *. rewrite Hm in H |- *. unfold round in *.
    destruct (all_of _) as [l|] eqn:El; [|tauto]. exists l. split; [now apply all_of_some|]. split; [reflexivity|exact H].
  Qed.

  Lemma rounds_acc mdl m id : S mdl <= E -> rounds mdl = Some m -> 1 <= id <= N ->
    exists a, acc m (chunk cut lines (id - 1)) = Some a.
  Proof.
    intros He Hm Hid. destruct (rounds_accs mdl m He Hm) as (l & El & _).
    assert (Hin : In (acc m (chunk cut lines (id - 1))) (map Some l)).
    { rewrite <- El. apply in_map, in_map. apply in_seq. lia. }
    apply in_map_iff in Hin. destruct Hin as (a & Ea & _). now exists a.
  Qed.

  Lemma head_PI o mdl s : ok_opts o -> Inv mdl s -> final s = None \/ mdl = E -> PI (head o mdl, s).
  Proof.
    intros (_ & _ & Ho & _) HI Hf. unfold head. rewrite Ho. assert (L := i_le _ _ HI).
    destruct (Nat.leb_spec (S mdl) E) as [H|H]; unfold PI; cbn [fst snd].
    - split; [reflexivity|]. split; [exact H|]. split; [exact HI|]. destruct Hf; [auto|lia].
    - assert (mdl = E) by lia. subst mdl. auto.
  Qed.

  Lemma start_PI o last s : ok_opts o -> Inv last s -> PI (start o s, s).
  Proof.
    intros Ho HI. assert (Ho' := Ho). destruct Ho' as (_ & _ & Ee & _). unfold start. rewrite Ee.
    assert (HK : match map fst (models s) with [] => PDone false | k :: ks => head o (fold_left Nat.max ks k) end = head o last).
    { assert (Hl : In last (map fst (models s))).
      { assert (G := i_get _ _ HI last (Nat.le_refl _)). destruct (rounds last) as [m|] eqn:Er; [now apply getn_in in G|].
        exfalso. apply (Hok last); [apply (i_le _ _ HI)|exact Er]. }
      assert (Hb := i_keys _ _ HI). destruct (map fst (models s)) as [|k ks]; [destruct Hl|]. f_equal.
      destruct (fold_max_spec ks k) as [F1 F2]. apply Nat.le_antisymm; [apply Hb; exact F1|apply F2; exact Hl]. }
    destruct (i_fin _ _ HI) as [F|[Fl F]].
    - rewrite F, HK. apply head_PI; auto.
    - subst last. assert (G := i_get _ _ HI E (Nat.le_refl _)).
      destruct (final s) as [m|] eqn:Ef; [|rewrite HK; apply head_PI; auto].
      rewrite G, <- F. unfold PI. cbn [fst snd]. split; [reflexivity|]. split; [exact HI|]. now rewrite Ef.
  Qed.

  Lemma split_task d i : good_split d -> i < N ->
    task_input (split_sh cut N lines d) (S i) = chunk cut lines i.
  Proof.
    intros [D1 D2] Hi. destruct (C193_share cut N lines d Hmono Hcut D1 D2) as (S1 & _ & S3).
    destruct (C193_again cut N lines d D1 D2) as (_ & _ & L). unfold submit in S1, S3, L. cbn [fst snd] in S1, S3, L.
    rewrite <- (S3 i Hi). unfold tasks. rewrite L.
    rewrite (nth_indep _ [] (task_input (split_sh cut N lines d) 0)) by (rewrite map_length, seq_length; auto).
    rewrite map_nth, seq_nth by auto. reflexivity.
  Qed.

  Lemma micro_PI o ps : ok_opts o -> PI ps -> PI (micro acc upd ord o lines ps).
  Proof.
    intros Ho HP. assert (Ho' := Ho). destruct Ho' as (O1 & O2 & O3 & O4). destruct ps as [p s]. unfold PI in HP. cbn [fst snd] in HP.
    destruct p as [mdl e|mdl e rest|mdl e|mdl|b]; cbn [micro].
    - destruct HP as (He & Hle & HI & Hf). unfold PI, jobs_done. cbn [fst snd]. rewrite O1, O2.
      assert (HI' := i_split _ _ HI e). assert (HI'' := HI'). destruct HI'' as [D1 D2].
      destruct (C193_again cut N lines (splits s e) D1 D2) as (G1 & G2 & G3). unfold submit in G1, G2, G3. cbn [fst] in G1, G2, G3.
      split; [exact He|]. split; [exact Hle|]. split; [|split; [exact Hf|split]].
      + destruct HI. constructor; cbn; auto. intros e'. destruct (e' =? e); [split; auto|auto].
      + intros id Hid. cbn [set_split splits]. rewrite Nat.eqb_refl. destruct id as [|i]; [lia|].
        rewrite split_task by (auto; lia). f_equal. lia.
      + exists []. cbn [app]. split; [|intros ? ? ? []]. unfold tasks. rewrite G3. apply O4.
    - destruct HP as (He & Hle & HI & Hf & HT & done & HD & HG). destruct rest as [|id rest].
      + unfold PI. cbn [fst snd]. split; [exact He|]. split; [exact Hle|]. split; [exact HI|]. split; [exact Hf|]. split; [exact HT|]. now exists done.
      + destruct (rounds mdl) as [m|] eqn:Em; [|exfalso; apply (Hok mdl); [lia|exact Em]].
        assert (Gm := i_get _ _ HI mdl (Nat.le_refl _)). rewrite Em in Gm. rewrite Gm.
        assert (Hid : 1 <= id <= N).
        { assert (X : In id (seq 1 N)) by (eapply Permutation_in; [exact HD|apply in_or_app; right; now left]). apply in_seq in X. lia. }
        rewrite HT by exact Hid. destruct (rounds_acc mdl m id ltac:(lia) Em Hid) as (a & Ea). rewrite Ea.
        unfold PI, jobs_done. cbn [fst snd]. split; [exact He|]. split; [exact Hle|]. split; [|split; [exact Hf|split]].
        * destruct HI. constructor; cbn; auto. intros e'. destruct (Nat.eqb_spec e' e) as [->|]; [|auto].
          destruct (i_pkl0 e) as [P1 P2]. split; [now apply putn_nodup|]. intros k Hk. apply putn_keys in Hk. destruct Hk as [->|Hk]; auto.
        * intros id' Hid'. cbn [set_pkls splits]. now apply HT.
        * exists (done ++ [id]). split; [now rewrite <- app_assoc|]. intros m' Em' id' Hin. rewrite Em in Em'. injection Em' as <-.
          cbn [set_pkls pkls]. rewrite Nat.eqb_refl, getn_putn. destruct (Nat.eqb_spec id id') as [->|Hne]; [now symmetry|].
          apply HG; [reflexivity|]. apply in_app_iff in Hin. destruct Hin as [|[|[]]]; [auto|congruence].
    - destruct HP as (He & Hle & HI & Hf & HT & done & HD & HG). subst e. rewrite app_nil_r in HD.
      destruct (rounds mdl) as [m|] eqn:Em; [|exfalso; apply (Hok mdl); [lia|exact Em]].
      assert (Gm := i_get _ _ HI mdl (Nat.le_refl _)). rewrite Em in Gm. rewrite Gm.
      destruct (rounds_accs mdl m Hle Em) as (l & El & Eu & Hu).
      assert (HPk : Permutation (map snd (pkls s (S mdl))) l).
      { destruct (i_pkl _ _ HI (S mdl)) as [P1 P2]. apply perm_Some. rewrite <- getn_values by exact P1. rewrite <- El, (map_map (chunk cut lines) (acc m)).
        assert (HKs : Permutation (map fst (pkls s (S mdl))) (seq 1 N)).
        { apply NoDup_Permutation; [exact P1|apply seq_NoDup|]. intros k. split; [intros Hk; apply in_seq; specialize (P2 k Hk); lia|].
          intros Hk. assert (Hk' := Hk). apply in_seq in Hk'. destruct (rounds_acc mdl m k Hle Em ltac:(lia)) as (a & Ea).
          apply (getn_in _ k a). rewrite (HG m eq_refl) by (eapply Permutation_in; [symmetry; exact HD|exact Hk]). exact Ea. }
        rewrite (Permutation_map _ HKs). rewrite <- seq_shift, map_map.
        erewrite map_ext_in; [apply Permutation_refl|]. intros k Hk. apply in_seq in Hk. cbn beta.
        rewrite (HG m eq_refl). { f_equal. f_equal. lia. }
        eapply Permutation_in; [symmetry; exact HD|]. apply in_seq. lia. }
      rewrite (Hupd mdl m l (ord (S mdl) (map snd (pkls s (S mdl))))); [|lia|exact Em|exact El|symmetry; etransitivity; [apply Hord|exact HPk]].
      destruct (upd m l) as [m'|] eqn:Em'; [|congruence].
      apply head_PI; [exact Ho| |left; exact Hf].
      destruct HI. constructor; cbn [set_models models final splits pkls]; auto.
      + intros i Hi. rewrite getn_putn. destruct (Nat.eqb_spec (S mdl) i) as [<-|Hne]; [exact Eu|]. apply i_get0. lia.
      + intros k Hk. apply putn_keys in Hk. destruct Hk as [->|Hk]; [lia|]. specialize (i_keys0 k Hk). lia.
    - destruct HP as (-> & HI). assert (G := i_get _ _ HI E (Nat.le_refl _)). rewrite G.
      destruct (rounds E) as [m|] eqn:Em; [|exfalso; apply (Hok E); [lia|exact Em]].
      unfold PI. cbn [fst snd]. split; [reflexivity|]. split; [|exact (eq_sym Em)].
      destruct HI. constructor; cbn; auto.
    - exact HP.
  Qed.

  Lemma steps_PI o k ps : ok_opts o -> PI ps -> PI (steps acc upd ord o lines k ps).
  Proof. intros Ho HP. unfold steps. induction k as [|k IH]; [exact HP|]. cbn [Nat.iter nat_rect]. now apply micro_PI. Qed.

  Lemma PI_Inv ps : PI ps -> exists last, Inv last (snd ps).
  Proof.
    destruct ps as [p s]. unfold PI. cbn [fst snd]. destruct p; intros H.
    - exists mdl. tauto.
    - destruct H as (_ & _ & H & _). now exists mdl.
    - destruct H as (_ & _ & H & _). now exists mdl.
    - exists E. tauto.
    - exists E. tauto.
  Qed.

  Lemma fresh_Inv : Inv 0 (fresh m0).
  Proof.
    constructor.
    - lia.
    - intros i Hi. assert (i = 0) by lia. subst i. reflexivity.
    - intros k [<-|[]]; cbn; lia.
    - intros e. split; constructor.
    - intros e. split; [constructor|intros ? []].
    - now left.
  Qed.

  Lemma runs_Inv l last s : Forall (fun ok => ok_opts (fst ok)) l -> Inv last s ->
    exists last', Inv last' (runs acc upd ord lines l s).
  Proof.
    intros HF. revert last s. induction HF as [|[o k] l Ho HF IH]; intros last s HI; [now exists last|].
    cbn [runs fold_left fst snd]. destruct (PI_Inv (steps acc upd ord o lines k (start o s, s))) as (last' & H).
    - apply steps_PI; [exact Ho|]. now apply (start_PI o last).
    - apply (IH last'). exact H.
  Qed.

  (** Termination *)
  Definition measure (p : pc) : nat :=
    match p with
    | PSplit _ e => 4 + N + (E - e) * (N + 3)
    | PJobs _ e rest => 3 + length rest + (E - e) * (N + 3)
    | PUpdate _ e => 2 + (E - e) * (N + 3)
    | PCopy _ => 1
    | PDone _ => 0
    end.

  Lemma micro_measure o ps : ok_opts o -> PI ps -> fst ps = PDone true \/
    measure (fst (micro acc upd ord o lines ps)) < measure (fst ps).
  Proof.
    intros Ho HP. assert (Ho' := Ho). destruct Ho' as (O1 & O2 & O3 & O4). destruct ps as [p s]. unfold PI in HP. cbn [fst snd] in HP.
    destruct p as [mdl e|mdl e rest|mdl e|mdl|b]; cbn [micro fst].
    - right. destruct HP as (_ & _ & HI & _). cbn [measure]. rewrite (Permutation_length (O4 _ _)). unfold tasks. rewrite seq_length, O1, O2.
      destruct (i_split _ _ HI e) as [D1 D2]. destruct (C193_again cut N lines (splits s e) D1 D2) as (_ & _ & G3).
      unfold submit in G3. cbn [fst] in G3. rewrite G3. lia.
    - right. destruct rest as [|id rest]; cbn [measure fst length]; lia.
    - right. destruct HP as (_ & Hle & _). unfold head. rewrite O3.
      destruct (Nat.leb_spec (S e) E); cbn [measure]; [|lia].
      replace (E - e) with (S (E - S e)) by lia. cbn [Nat.mul]. lia.
    - right. destruct (getn (models s) mdl); cbn [measure fst]; lia.
    - left. destruct HP as (-> & _). reflexivity.
  Qed.

  Lemma steps_S o k ps : steps acc upd ord o lines (S k) ps = steps acc upd ord o lines k (micro acc upd ord o lines ps).
  Proof.
    unfold steps. induction k as [|k IH]; [reflexivity|]. cbn [Nat.iter nat_rect] in *. now rewrite IH.
  Qed.

  Lemma steps_done o k s : steps acc upd ord o lines k (PDone true, s) = (PDone true, s).
  Proof. induction k as [|k IH]; [reflexivity|]. now rewrite steps_S. Qed.

  Lemma steps_end o n : ok_opts o -> forall ps, PI ps -> measure (fst ps) <= n ->
    exists s', forall k, n <= k -> steps acc upd ord o lines k ps = (PDone true, s').
  Proof.
    intros Ho. induction n as [|n IH]; intros ps HP Hm.
    - destruct (micro_measure o ps Ho HP) as [H|H]; [|lia]. destruct ps as [p s]. cbn in H. subst p. exists s. intros k _. apply steps_done.
    - destruct (micro_measure o ps Ho HP) as [H|H].
      + destruct ps as [p s]. cbn in H. subst p. exists s. intros k _. apply steps_done.
      + destruct (IH (micro acc upd ord o lines ps)) as (s' & Hs); [now apply micro_PI|lia|]. exists s'.
        intros k Hk. destruct k as [|k]; [lia|]. rewrite steps_S. apply Hs. lia.
  Qed.
End Loop.
