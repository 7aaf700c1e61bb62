(** C74: the counts of compare-alignments.py.
    C130: the mutual information of mutual-information.py. *)
From Coq Require Import List Arith Bool Lia Reals Lra Permutation.
From Verif Require Import Prelude Gibbs Edit_Model Edit_Proofs Dec_Model Dec_Proofs Map_Model Map_Spec
  Map_Proofs Info_Proofs Al_Model Al_Spec.
Import ListNotations.
Local Open Scope R_scope.

Ltac inv H := inversion H; subst; clear H.

(** ** tables of counts *)
Definition tal (eps : R) (d : table) (ks : list nat) : Prop :=
  NoDup (map fst d) /\
  forall k, dget Nat.eq_dec d k =
    if in_dec Nat.eq_dec k ks then Some (eps + INR (count_occ Nat.eq_dec ks k)) else None.

Lemma tal_tallies eps d ks : tal eps d ks -> tallies eps d ks.
Proof.
  intros [Hn H]. split; [exact Hn|]. intros k v. split.
  - intros Hi. apply nodup_dget in Hi; [|exact Hn]. rewrite H in Hi.
    destruct (in_dec Nat.eq_dec k ks); [|discriminate]. inv Hi. auto.
  - intros [Hi ->]. apply dget_in with (keq := Nat.eq_dec). rewrite H.
    destruct (in_dec Nat.eq_dec k ks); [reflexivity|contradiction].
Qed.

Lemma tal_nil eps : tal eps [] [].
Proof. split; [constructor|]. intros k. reflexivity. Qed.

Lemma tal_snoc eps d ks x : tal eps d ks -> tal eps (dadd eps d x 1) (ks ++ [x]).
Proof.
  intros [Hn H]. split; [now apply dset_nodup|]. intros k. unfold dadd.
  rewrite dget_dset. rewrite count_occ_app. cbn [count_occ].
  destruct (Nat.eq_dec k x) as [->|Hk].
  - destruct (in_dec Nat.eq_dec x (ks ++ [x])) as [_|Hi].
    2:{ exfalso. apply Hi. apply in_or_app. right. now left. }
    unfold dget0. rewrite H. destruct (Nat.eq_dec x x); [|congruence]. rewrite plus_INR. cbn [INR].
    destruct (in_dec Nat.eq_dec x ks) as [Hi|Hi]; f_equal; [lra|].
    apply (count_occ_not_In Nat.eq_dec) in Hi. rewrite Hi. cbn. lra.
  - rewrite H. destruct (Nat.eq_dec x k); [congruence|].
    destruct (in_dec Nat.eq_dec k ks) as [Hi|Hi], (in_dec Nat.eq_dec k (ks ++ [x])) as [Hj|Hj].
    + now rewrite Nat.add_0_r.
    + exfalso. apply Hj. apply in_or_app. now left.
    + apply in_app_or in Hj as [Hj|[Hj|[]]]; [contradiction|congruence].
    + reflexivity.
Qed.

Definition counted (eps : R) (c : counts) (fr : list (nat * nat)) : Prop :=
  let '(j, rc, hc) := c in
  tal eps rc (map fst fr) /\ tal eps hc (map snd fr) /\ NoDup (map fst j) /\
  (forall r, In r (map fst j) <-> In r (map fst fr)) /\
  forall r, tal eps (dget0 [] j r) (against fr r).

Lemma against_app fr fr' r : against (fr ++ fr') r = against fr r ++ against fr' r.
Proof. unfold against. now rewrite filter_app, map_app. Qed.

Lemma dget0_in (j : joint) r (row : table) : NoDup (map fst j) -> In (r, row) j -> dget0 [] j r = row.
Proof. intros Hn Hi. apply (nodup_dget (V := table)) in Hi; [|exact Hn]. unfold dget0, table in *. now rewrite Hi. Qed.

Lemma dset_keys {V} (d : list (nat * V)) k v x : In x (map fst (dset d k v)) <-> x = k \/ In x (map fst d).
Proof.
  rewrite !dget_some_in. setoid_rewrite dget_dset. destruct (Nat.eq_dec x k) as [->|Hx].
  - split; [auto|]. intros _. eauto.
  - split; [auto|]. intros [?|?]; [contradiction|auto].
Qed.

Lemma count_frame_ok eps rm hm c fr s t r h :
  counted eps c fr -> dget Nat.eq_dec rm s = Some r -> dget Nat.eq_dec hm t = Some h ->
  exists c', count_frame eps rm hm c (s, t) = Ok c' /\ counted eps c' (fr ++ [(r, h)]).
Proof.
  intros H Hr Hh. destruct c as [[j rc] hc]. destruct H as (H1 & H2 & H3 & H4 & H5).
  unfold count_frame, dlook. cbn [fst snd]. rewrite Hr. cbn [bindr]. rewrite Hh. cbn [bindr].
  eexists. split; [reflexivity|]. unfold counted. rewrite !map_app. cbn [map fst snd].
  split; [now apply tal_snoc|]. split; [now apply tal_snoc|].
  split; [now apply dset_nodup|]. split.
  - intros x. unfold jadd. rewrite dset_keys, in_app_iff, H4. cbn. intuition.
  - intros x. rewrite against_app. unfold jadd. rewrite dget0_dset. unfold against at 2. cbn [filter fst map].
    destruct (Nat.eq_dec x r) as [->|Hx].
    + rewrite Nat.eqb_refl. cbn [map snd]. now apply tal_snoc.
    + destruct (Nat.eqb_spec r x); [congruence|]. cbn [map]. rewrite app_nil_r. apply H5.
Qed.

Lemma count_frames_ok eps rm hm rs hs a : forall b c fr,
  counted eps c fr ->
  (forall s, In s a -> dget Nat.eq_dec rm s = Some (rs s)) ->
  (forall s, In s b -> dget Nat.eq_dec hm s = Some (hs s)) ->
  exists c', foldM (count_frame eps rm hm) (combine a b) c = Ok c' /\ counted eps c' (fr ++ paired rs hs a b).
Proof.
  induction a as [|x a IH]; intros b c fr Hc Ha Hb; [exists c; cbn; rewrite app_nil_r; auto|].
  destruct b as [|y b]; [exists c; cbn; rewrite app_nil_r; auto|].
  destruct (count_frame_ok eps rm hm c fr x y (rs x) (hs y) Hc) as (c1 & E1 & Hc1);
    [apply Ha; now left|apply Hb; now left|].
  destruct (IH b c1 (fr ++ [(rs x, hs y)]) Hc1) as (c2 & E2 & Hc2);
    [intros; apply Ha; now right|intros; apply Hb; now right|].
  exists c2. split.
  - cbn [combine foldM]. rewrite E1. exact E2.
  - cbn [paired]. rewrite <- app_assoc in Hc2. exact Hc2.
Qed.

(** the frames of all the files *)
Definition all_frames (rs hs : nat -> nat) (hyp : nat -> list nat) (ref_alis : list (nat * list nat)) :=
  flat_map (fun fa => paired rs hs (snd fa) (hyp (fst fa))) ref_alis.

Lemma count_files_ok eps rm hm rs hs hyp hyp_alis ref_alis : forall o c fr,
  counted eps c fr ->
  (forall f a, In (f, a) ref_alis -> dget Nat.eq_dec hyp_alis f = Some (hyp f) /\
     (forall s, In s a -> dget Nat.eq_dec rm s = Some (rs s)) /\
     (forall s, In s (hyp f) -> dget Nat.eq_dec hm s = Some (hs s))) ->
  exists o' c', foldM (count_file eps rm hm hyp_alis) ref_alis (o, c) = Ok (o', c') /\
    counted eps c' (fr ++ all_frames rs hs hyp ref_alis).
Proof.
  induction ref_alis as [|[f a] l IH]; intros o c fr Hc H.
  - exists o, c. cbn. rewrite app_nil_r. auto.
  - destruct (H f a ltac:(now left)) as (Hf & Ha & Hb).
    destruct (count_frames_ok eps rm hm rs hs a (hyp f) c fr Hc Ha Hb) as (c1 & E1 & Hc1).
    destruct (IH (Some (hyp f)) c1 _ Hc1) as (o' & c' & E & Hc'); [intros; apply H; now right|].
    exists o', c'. split.
    + cbn [foldM]. unfold count_file at 1. cbn [fst snd]. rewrite Hf, E1. cbn [bindr]. exact E.
    + cbn [all_frames flat_map fst snd]. rewrite <- app_assoc in Hc'. exact Hc'.
Qed.

Theorem C74_counts_partial eps rm hm rs hs hyp ref_alis hyp_alis :
  (forall f a, In (f, a) ref_alis -> dget Nat.eq_dec hyp_alis f = Some (hyp f) /\
     (forall s, In s a -> dget Nat.eq_dec rm s = Some (rs s)) /\
     (forall s, In s (hyp f) -> dget Nat.eq_dec hm s = Some (hs s))) ->
  let fr := flat_map (fun fa => paired rs hs (snd fa) (hyp (fst fa))) ref_alis in
  exists j rc hc, count_alis eps rm hm ref_alis hyp_alis = Ok (j, rc, hc) /\
    tallies eps rc (map fst fr) /\ tallies eps hc (map snd fr) /\
    NoDup (map fst j) /\ (forall r, In r (map fst j) <-> In r (map fst fr)) /\
    forall r row, In (r, row) j -> tallies eps row (against fr r).
Proof.
  intros H fr.
  destruct (count_files_ok eps rm hm rs hs hyp hyp_alis ref_alis None no_counts []) as (o & c & E & Hc).
  - repeat split; try constructor; intros; cbn in *; try tauto; try reflexivity.
  - exact H.
  - destruct c as [[j rc] hc]. destruct Hc as (H1 & H2 & H3 & H4 & H5).
    exists j, rc, hc. unfold count_alis. rewrite E. split; [reflexivity|].
    repeat (split; [now try apply tal_tallies|]).
    intros r row Hi. specialize (H5 r). apply tal_tallies in H5.
    rewrite <- (dget0_in j r row H3 Hi). exact H5.
Qed.

(** a reference file without hypothesis is compared with the alignment of the
    file before it, instead of being skipped *)
Theorem C74_missing_hypothesis_refuted eps rm hm f g a b h : f <> g ->
  count_alis eps rm hm [(f, a); (g, b)] [(f, h)] = count_alis eps rm hm [(f, a); (g, b)] [(f, h); (g, h)].
Proof.
  intros Hfg. unfold count_alis. cbn [foldM]. unfold count_file. cbn [fst snd dget].
  destruct (Nat.eq_dec f f); [|congruence]. destruct (Nat.eq_dec g f); [congruence|].
  destruct (Nat.eq_dec g g); [|congruence].
  destruct (foldM (count_frame eps rm hm) (combine a h) no_counts); reflexivity.
Qed.

Theorem C74_first_missing_refuted eps rm hm f a l hyp_alis :
  dget Nat.eq_dec hyp_alis f = None ->
  count_alis eps rm hm ((f, a) :: l) hyp_alis = Err NameError.
Proof.
  intros H. unfold count_alis. cbn [foldM]. unfold count_file at 1. cbn [fst snd]. now rewrite H.
Qed.

(** ** margins *)
Lemma sumf_perm {A} (f : A -> R) l l' : Permutation l l' -> sumf f l = sumf f l'.
Proof.
  induction 1; rewrite ?sumf_cons; try lra; auto. 
Qed.

(** a sum over a sublist with zero terms elsewhere *)
Lemma sumf_incl (f : nat -> R) : forall l l', NoDup l -> NoDup l' -> incl l l' ->
  (forall x, In x l' -> ~ In x l -> f x = 0) -> sumf f l = sumf f l'.
Proof.
  intros l l' Hn Hn' Hi Hz.
  assert (P : Permutation l' (filter (fun x => if in_dec Nat.eq_dec x l then true else false) l' ++
                              filter (fun x => if in_dec Nat.eq_dec x l then false else true) l')).
  { clear Hn' Hi Hz. induction l' as [|x l' IH]; [constructor|]. cbn.
    destruct (in_dec Nat.eq_dec x l); cbn.
    - now constructor.
    - apply Permutation_cons_app. exact IH. }
  rewrite (sumf_perm f _ _ P), sumf_app.
  assert (Z : sumf f (filter (fun x => if in_dec Nat.eq_dec x l then false else true) l') = 0).
  { apply sumf_zero. intros x Hx. apply filter_In in Hx as [Hx Hb].
    destruct (in_dec Nat.eq_dec x l); [discriminate|auto]. }
  rewrite Z, Rplus_0_r. apply sumf_perm. apply NoDup_Permutation; auto.
  - now apply NoDup_filter.
  - intros x. rewrite filter_In. specialize (Hi x). destruct (in_dec Nat.eq_dec x l); split; [auto|tauto|contradiction|intros [_ F]; discriminate].
Qed.

Lemma sumf_count_occ (ks l : list nat) : NoDup l -> incl ks l ->
  sumf (fun k => INR (count_occ Nat.eq_dec ks k)) l = INR (length ks).
Proof.
  intros Hn. induction ks as [|x ks IH]; intros Hi.
  - cbn. apply sumf_zero. auto.
  - rewrite (sumf_ext _ (fun k => (if Nat.eq_dec x k then 1 else 0) + INR (count_occ Nat.eq_dec ks k))).
    2:{ intros k _. cbn [count_occ]. destruct (Nat.eq_dec x k); [rewrite S_INR|]; lra. }
    rewrite sumf_plus, IH by (intros y Hy; apply Hi; now right). cbn [length]. rewrite S_INR.
    assert (E : sumf (fun k => if Nat.eq_dec x k then 1 else 0) l = 1); [|lra].
    rewrite <- (sumf_incl (fun k => if Nat.eq_dec x k then 1 else 0) [x] l); auto.
    + cbn. destruct (Nat.eq_dec x x); [lra|congruence].
    + repeat constructor. auto.
    + intros y [<-|[]]. apply Hi. now left.
    + intros y _ Hy. destruct (Nat.eq_dec x y); auto. exfalso. apply Hy. now left.
Qed.

Lemma tal_keys eps d ks : tal eps d ks -> forall k, In k (map fst d) <-> In k ks.
Proof.
  intros [_ H] k. rewrite dget_some_in. rewrite H. destruct (in_dec Nat.eq_dec k ks); split; intros; eauto.
  - destruct H0; discriminate.
  - contradiction.
Qed.

Lemma tal_sum eps d ks (g : R -> R) : tal eps d ks ->
  sumf (fun kv => g (snd kv)) d = sumf (fun k => g (eps + INR (count_occ Nat.eq_dec ks k))) (map fst d).
Proof.
  intros T. assert (T' := tal_tallies _ _ _ T). destruct T' as [Hn H].
  rewrite sumf_map. apply sumf_ext. intros [k v] Hi. cbn. apply H in Hi as [_ ->]. reflexivity.
Qed.

Lemma tal_total eps d ks : tal eps d ks -> total d = INR (length ks) + INR (length d) * eps.
Proof.
  intros T. unfold total. transitivity (sumf (fun k => eps + INR (count_occ Nat.eq_dec ks k)) (map fst d)); [exact (tal_sum eps d ks (fun v => v) T)|]. rewrite sumf_plus.
  rewrite sumf_count_occ.
  - rewrite sumf_const, map_length. lra.
  - apply T.
  - intros k Hk. now apply (tal_keys _ _ _ T).
Qed.

Lemma against_length fr r : length (against fr r) = count_occ Nat.eq_dec (map fst fr) r.
Proof.
  unfold against. rewrite map_length. induction fr as [|[x y] fr IH]; [reflexivity|]. cbn [filter map fst count_occ].
  destruct (Nat.eqb_spec x r), (Nat.eq_dec x r); cbn [map length]; try congruence; f_equal; exact IH.
Qed.

(** the row of the joint counts does not sum to the count of its symbol: one
    epsilon per distinct hypothesis symbol instead of one *)
Theorem C74_margins eps rm hm rs hs hyp ref_alis hyp_alis j rc hc r row v :
  (forall f a, In (f, a) ref_alis -> dget Nat.eq_dec hyp_alis f = Some (hyp f) /\
     (forall s, In s a -> dget Nat.eq_dec rm s = Some (rs s)) /\
     (forall s, In s (hyp f) -> dget Nat.eq_dec hm s = Some (hs s))) ->
  count_alis eps rm hm ref_alis hyp_alis = Ok (j, rc, hc) ->
  In (r, row) j -> In (r, v) rc ->
  sumf snd row = v + (INR (length row) - 1) * eps.
Proof.
  intros H E Hj Hr.
  destruct (count_files_ok eps rm hm rs hs hyp hyp_alis ref_alis None no_counts []) as (o & c & E' & Hc); auto.
  { repeat split; try constructor; intros; cbn in *; try tauto; try reflexivity. }
  unfold count_alis in E. rewrite E' in E. cbn in E. inv E.
  destruct Hc as (H1 & H2 & H3 & H4 & H5).
  specialize (H5 r). rewrite (dget0_in j r row H3 Hj) in H5.
  change (sumf snd row) with (total row). rewrite (tal_total _ _ _ H5), against_length.
  apply tal_tallies in H1. destruct H1 as [_ H1]. apply H1 in Hr as [_ ->]. lra.
Qed.

(** ** grouping *)
Lemma dadd_fold_get eps (l : table) : forall d k, NoDup (map fst l) ->
  dget Nat.eq_dec (fold_left (fun d (hv : nat * R) => dadd eps d (fst hv) (snd hv)) l d) k =
  match dget Nat.eq_dec l k with
  | Some v => Some (dget0 eps d k + v)
  | None => dget Nat.eq_dec d k
  end.
Proof.
  induction l as [|[a v] l IH]; intros d k Hn; [reflexivity|]. inv Hn. cbn [fold_left fst snd].
  rewrite IH by auto. cbn [dget]. destruct (Nat.eq_dec k a) as [->|Hk].
  - destruct (dget Nat.eq_dec l a) eqn:E.
    + exfalso. apply H1. apply dget_some_in. eauto.
    + unfold dadd. rewrite dget_dset. destruct (Nat.eq_dec a a); congruence.
  - unfold dadd. rewrite dget_dset, dget0_dset. destruct (Nat.eq_dec k a); [contradiction|reflexivity].
Qed.

Lemma jadd_fold eps name (l : table) : forall (j : joint) r,
  dget0 ([] : table) (fold_left (fun mj (hv : nat * R) => jadd eps mj name (fst hv) (snd hv)) l j) r =
  if Nat.eq_dec r name
  then fold_left (fun d (hv : nat * R) => dadd eps d (fst hv) (snd hv)) l (dget0 [] j name)
  else dget0 [] j r.
Proof.
  induction l as [|[h v] l IH]; intros j r.
  - cbn. destruct (Nat.eq_dec r name) as [->|]; reflexivity.
  - cbn [fold_left fst snd]. rewrite IH. unfold jadd.
    assert (G : forall x, dget0 ([] : table) (dset j name (dadd eps (dget0 [] j name) h v)) x =
      if Nat.eq_dec x name then dadd eps (dget0 [] j name) h v else dget0 [] j x)
      by (intros; apply dget0_dset).
    rewrite !G. destruct (Nat.eq_dec name name); [|congruence].
    destruct (Nat.eq_dec r name); reflexivity.
Qed.

(** entries of the joint table *)
Definition jget (j : joint) (r h : nat) : option R := dget Nat.eq_dec (dget0 [] j r) h.
Definition val (o : option R) : R := match o with Some v => v | None => 0 end.
Definition has (o : option R) : bool := match o with Some _ => true | None => false end.

Lemma group_sym_joint eps j rc name m sym r h :
  (forall s, NoDup (map fst (dget0 ([] : table) j s))) ->
  jget (fst (group_sym eps j rc name m sym)) r h =
  if Nat.eq_dec r name
  then match jget j sym h with
       | Some v => Some (match jget (fst m) name h with Some w => w | None => eps end + v)
       | None => jget (fst m) name h
       end
  else jget (fst m) r h.
Proof.
  intros Hn. unfold jget, group_sym. cbn [fst]. rewrite jadd_fold. destruct (Nat.eq_dec r name); [|reflexivity].
  rewrite dadd_fold_get by apply Hn. reflexivity.
Qed.

Lemma group_syms eps j rc name syms : (forall s, NoDup (map fst (dget0 ([] : table) j s))) -> forall m r h,
  let m' := fold_left (group_sym eps j rc name) syms m in
  (r <> name -> jget (fst m') r h = jget (fst m) r h /\ dget Nat.eq_dec (snd m') r = dget Nat.eq_dec (snd m) r) /\
  jget (fst m') name h =
    (if existsb (fun s => has (jget j s h)) syms
     then Some (match jget (fst m) name h with Some w => w | None => eps end +
                sumf (fun s => val (jget j s h)) syms)
     else jget (fst m) name h) /\
  dget Nat.eq_dec (snd m') name =
    match syms with
    | [] => dget Nat.eq_dec (snd m) name
    | _ => Some (dget0 eps (snd m) name + sumf (fun s => dget0 eps rc s) syms)
    end.
Proof.
  intros Hn. induction syms as [|s syms IH]; intros m r h m'.
  - cbn. auto.
  - unfold m'. cbn [fold_left]. destruct (IH (group_sym eps j rc name m s) r h) as (I1 & I2 & I3). clear IH.
    split; [|split].
    + intros Hr. destruct (I1 Hr) as [-> ->]. rewrite group_sym_joint by auto.
      destruct (Nat.eq_dec r name); [contradiction|]. split; [reflexivity|].
      unfold group_sym, dadd. cbn [snd]. rewrite dget_dset. destruct (Nat.eq_dec r name); [contradiction|reflexivity].
    + rewrite I2, group_sym_joint by auto. destruct (Nat.eq_dec name name); [|congruence].
      cbn [existsb]. rewrite sumf_cons. destruct (jget j s h) as [v|] eqn:E; cbn [has orb val].
      * destruct (existsb _ syms) eqn:Ex; f_equal; [lra|].
        rewrite (sumf_zero _ syms).
        { lra. }
        intros x Hx. destruct (jget j x h) eqn:Ex'; [|reflexivity]. exfalso.
        assert (true = false); [|discriminate]. rewrite <- Ex. symmetry. apply existsb_exists.
        exists x. rewrite Ex'. auto.
      * destruct (existsb _ syms); f_equal. lra.
    + rewrite I3. rewrite sumf_cons. unfold group_sym, dadd. cbn [snd].
      rewrite dget_dset, dget0_dset. destruct (Nat.eq_dec name name); [|congruence].
      destruct syms; f_equal. { cbn. lra. } lra.
Qed.

(** each group starts from epsilon and adds up counts that contain one epsilon
    each, or epsilon for a symbol without frame; the symbols in no group are
    dropped, the hypothesis counts are unchanged *)
Theorem C74_groups eps groups (c : counts) j' rc' hc' :
  let '(j, rc, hc) := c in
  (forall s, NoDup (map fst (dget0 ([] : table) j s))) -> NoDup (map fst groups) ->
  group_counts eps groups c = (j', rc', hc') ->
  hc' = hc /\
  (forall name, ~ In name (map fst groups) -> dget Nat.eq_dec rc' name = None /\ forall h, jget j' name h = None) /\
  (forall name syms, In (name, syms) groups -> syms <> [] ->
     dget Nat.eq_dec rc' name = Some (eps + sumf (fun s => dget0 eps rc s) syms) /\
     forall h, jget j' name h =
       if existsb (fun s => has (jget j s h)) syms
       then Some (eps + sumf (fun s => val (jget j s h)) syms) else None).
Proof.
  destruct c as [[j rc] hc]. intros Hj Hn E. unfold group_counts in E. inv E.
  assert (G : forall groups m, NoDup (map fst groups) ->
    let m' := fold_left (fun m g => fold_left (group_sym eps j rc (fst g)) (snd g) m) groups m in
    (forall name, ~ In name (map fst groups) ->
       dget Nat.eq_dec (snd m') name = dget Nat.eq_dec (snd m) name /\
     forall h, jget (fst m') name h = jget (fst m) name h) /\
     (forall name syms, In (name, syms) groups -> syms <> [] ->
       dget Nat.eq_dec (snd m') name = Some (dget0 eps (snd m) name + sumf (fun s => dget0 eps rc s) syms) /\
     forall h, jget (fst m') name h =
         if existsb (fun s => has (jget j s h)) syms
         then Some (match jget (fst m) name h with Some w => w | None => eps end +
                    sumf (fun s => val (jget j s h)) syms) else jget (fst m) name h)).
  { clear Hn groups. induction groups as [|[g gs] groups IH]; intros m Hn m'.
    - split; [intros; split; reflexivity|]. intros ? ? [].
    - cbn [map fst] in Hn. inv Hn. unfold m'. cbn [fold_left fst snd].
      destruct (IH (fold_left (group_sym eps j rc g) gs m) H2) as [I1 I2]. clear IH.
      assert (GS := group_syms eps j rc g gs Hj m). split.
      + intros name Hname. cbn in Hname. destruct (I1 name ltac:(tauto)) as [-> I1h].
        assert (Hg : name <> g) by (intros ->; tauto).
        split; [apply (GS name 0%nat); exact Hg|]. intros h. rewrite I1h. apply (GS name h). exact Hg.
      + intros name syms [Ei|Hi] Hs.
        * inv Ei. destruct (I1 name H1) as [-> I1h]. split.
          { destruct (GS name 0%nat) as (_ & _ & ->). destruct syms; [congruence|reflexivity]. }
          intros h. rewrite I1h. destruct (GS name h) as (_ & -> & _). reflexivity.
        * assert (Hg : name <> g) by (intros ->; apply H1; apply in_map_iff; now exists (g, syms)).
          destruct (I2 name syms Hi Hs) as [-> I2h]. split.
          { unfold dget0 at 1 3. destruct (GS name 0%nat) as (G1 & _). destruct (G1 Hg) as [_ ->]. reflexivity. }
          intros h. rewrite I2h. destruct (GS name h) as (G1 & _). destruct (G1 Hg) as [-> _]. reflexivity. }
  split; [reflexivity|]. destruct (G groups ([], []) Hn) as [G1 G2]. split.
  - intros name Hi. apply (G1 name Hi).
  - intros name syms Hi Hs. apply (G2 name syms Hi Hs).
Qed.

(** a compared frame whose state is in neither mapping stops the program *)
Theorem C74_unmapped eps rm hm f a b s t : In (s, t) (combine a b) ->
  dget Nat.eq_dec rm s = None \/ dget Nat.eq_dec hm t = None ->
  count_alis eps rm hm [(f, a)] [(f, b)] = Err KeyError.
Proof.
  intros Hi H. unfold count_alis. cbn [foldM]. unfold count_file. cbn [fst snd dget].
  destruct (Nat.eq_dec f f); [|congruence].
  assert (G : forall l c, In (s, t) l -> foldM (count_frame eps rm hm) l c = Err KeyError).
  { induction l as [|[x y] l IH]; intros c Hl; [destruct Hl|]. cbn [foldM].
    assert (C : count_frame eps rm hm c (x, y) = Err KeyError \/ exists c', count_frame eps rm hm c (x, y) = Ok c').
    { unfold count_frame, dlook. cbn [fst snd]. destruct (dget Nat.eq_dec rm x); [|now left].
      destruct (dget Nat.eq_dec hm y); [|now left]. right. destruct c as [[j rc] hc]. cbn. eauto. }
    destruct Hl as [Ex|Hl].
    - inv Ex. unfold count_frame, dlook. cbn [fst snd]. destruct H as [->| ->]; [reflexivity|].
      destruct (dget Nat.eq_dec rm s); reflexivity.
    - destruct C as [->|[c' ->]]; [reflexivity|]. cbn [bindr]. now apply IH. }
  now rewrite (G _ _ Hi).
Qed.

Definition one1 : R := 0 + 1.
Definition one2 : R := 0 + 1 + 1.
Definition one3 : R := 0 + 1 + 1 + 1.

(** two files, the second one longer than its hypothesis; groups {0, 1} and {2} *)
Example C74_example :
  count_alis 0 [(0, 0); (1, 1); (2, 2)]%nat [(0, 5); (1, 6)]%nat
    [(10, [0; 0; 1]); (11, [2; 2; 0])]%nat [(11, [1; 1]); (10, [0; 1; 0])]%nat =
  Ok ([(0, [(5, one1); (6, one1)]); (1, [(5, one1)]); (2, [(6, one2)])],
      [(0, one2); (1, one1); (2, one2)], [(5, one2); (6, one3)])%nat /\
  exists j' rc' hc',
    group_counts (1 / 10) [(100, [0; 1]); (101, [2])]%nat
      ([(0, [(5, one1); (6, one1)]); (1, [(5, one1)]); (2, [(6, one2)])], [(0, one2); (1, one1); (2, one2)],
       [(5, one2); (6, one3)])%nat
      = (j', rc', hc') /\
    dget Nat.eq_dec rc' 100%nat = Some (3 + 1 / 10) /\ jget j' 100%nat 5%nat = Some (2 + 1 / 10) /\
    jget j' 101%nat 5%nat = None.
Proof.
  split; [reflexivity|]. do 3 eexists. split; [reflexivity|].
  unfold one1, one2, one3.
  split; [cbn; f_equal; lra|]. split; [cbn; f_equal; lra|reflexivity].
Qed.

Print Assumptions C74_counts_partial.
Print Assumptions C74_missing_hypothesis_refuted.
Print Assumptions C74_first_missing_refuted.
Print Assumptions C74_margins.
Print Assumptions C74_groups.
Print Assumptions C74_unmapped.
