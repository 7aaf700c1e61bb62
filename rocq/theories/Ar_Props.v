(** C133: archive of the features files; C134: list of the phones. *)
From Coq Require Import String List Arith Bool Ascii Lia Permutation Sorted.
From Verif Require Import Prelude Nn_Model Fe_Model Ar_Model.
Import ListNotations.
Local Open Scope nat_scope.

(** ** Strings *)
Lemma starts_with_spec p s : starts_with p s = true <-> exists t, s = p ++ t.
Proof.
  revert s. induction p as [|a p IH]; intros s; cbn.
  - split; [exists s; reflexivity|reflexivity].
  - destruct s as [|b s]; [split; [discriminate|intros (t & H); discriminate]|].
    rewrite andb_true_iff, IH, Ascii.eqb_eq. split.
    + intros (-> & t & ->). now exists t.
    + intros (t & H). injection H as -> ->. split; [reflexivity|now exists t].
Qed.

Lemma ends_with_spec e s : ends_with e s = true <-> exists t, s = t ++ e.
Proof.
  unfold ends_with. rewrite starts_with_spec. split; intros (t & H).
  - exists (rev t). rewrite <- (rev_involutive s), H, rev_app_distr, rev_involutive. reflexivity.
  - exists (rev t). now rewrite H, rev_app_distr.
Qed.

Lemma str_eqb_eq a b : str_eqb a b = true <-> a = b.
Proof.
  revert b. induction a as [|x a IH]; destruct b as [|y b]; cbn; try (split; congruence).
  rewrite andb_true_iff, IH, Ascii.eqb_eq. split; [now intros (-> & ->)|intros H; now injection H].
Qed.

(** Specification: an id which does not contain the extension. *)
Definition occurs (p s : str) : Prop := exists a b, s = a ++ p ++ b.
Definition good_id (ext id : str) : Prop :=
  id <> [] /\ hd_error id <> Some "."%char /\ ~ occurs ("."%char :: ext) id.

Lemma app_eq_cases {A} (a b c d : list A) : a ++ b = c ++ d ->
  (exists e, c = a ++ e /\ b = e ++ d) \/ (exists e, e <> [] /\ a = c ++ e /\ d = e ++ b).
Proof.
  revert c. induction a as [|x a IH]; intros c H; cbn in H.
  - left. now exists c.
  - destruct c as [|y c]; cbn in H.
    + right. exists (x :: a). split; [discriminate|]. split; [reflexivity|exact (eq_sym H)].
    + injection H as -> H. destruct (IH c H) as [(e & -> & ->)|(e & He & -> & ->)].
      * left. now exists e.
      * right. now exists e.
Qed.

Lemma remove_all_id ext id fuel : ~ In "."%char ext -> ~ occurs ("."%char :: ext) id ->
  length id < fuel -> remove_all fuel ("."%char :: ext) (id ++ "."%char :: ext) = id.
Proof.
  intros Hd. revert fuel. induction id as [|c id IH]; intros fuel Ho Hf; (destruct fuel as [|fuel]; [cbn in Hf; lia|]).
  - cbn [app remove_all].
    assert (S : starts_with ("."%char :: ext) ("."%char :: ext) = true) by (apply starts_with_spec; exists []; now rewrite app_nil_r).
    rewrite S. rewrite skipn_all. destruct fuel; reflexivity.
  - cbn [app remove_all].
    destruct (starts_with ("."%char :: ext) (c :: id ++ "."%char :: ext)) eqn:S.
    + exfalso. apply starts_with_spec in S. destruct S as (t & E).
      change (c :: id ++ "."%char :: ext) with ((c :: id) ++ "."%char :: ext) in E.
      destruct (app_eq_cases _ _ _ _ E) as [(e & E1 & E2)|(e & He & E1 & E2)].
      * (* the pattern would contain a second dot *)
        destruct e as [|x e].
        -- rewrite app_nil_r in E1. apply Ho. exists [], []. rewrite app_nil_r. exact (eq_sym E1).
        -- injection E1 as _ E1. injection E2 as <- E2. apply Hd. rewrite E1. apply in_or_app. right. now left.
      * apply Ho. exists [], e. cbn [app]. exact E1.
    + f_equal. apply IH; [|cbn in Hf; lia]. intros (a & b & ->). apply Ho. now exists (c :: a), b.
Qed.

Lemma arcname_id ext id : ~ In "."%char ext -> ~ occurs ("."%char :: ext) id ->
  arcname ext (id ++ "."%char :: ext) = id.
Proof.
  intros Hd Ho. unfold arcname. apply remove_all_id; auto. rewrite app_length. cbn. lia.
Qed.

Lemma zip_read_spec {A} (z : list (str * A)) k : NoDup (map fst z) -> forall a, In (k, a) z -> zip_read z k = Some a.
Proof.
  unfold zip_read. generalize (@None A) as r. induction z as [|[k' b] z IH]; intros r Hn a Hin; [destruct Hin|].
  cbn [map fst] in Hn. inversion_clear Hn. cbn [fold_left fst snd]. destruct Hin as [E|Hin].
  - injection E as -> ->. rewrite (proj2 (str_eqb_eq k k) eq_refl).
    assert (Z : forall (z : list (str * A)) (r : option A), ~ In k (map fst z) -> fold_left (fun r e => if str_eqb k (fst e) then Some (snd e) else r) z r = r).
    { clear. intros l. induction l as [|[k1 b1] l IHl]; intros r0 H; [reflexivity|]. cbn [map fst In] in H. cbn [fold_left fst snd].
      destruct (str_eqb k k1) eqn:E; [apply str_eqb_eq in E; subst; tauto|]. apply IHl. tauto. }
    now apply Z.
  - apply IH; auto.
Qed.

Lemma globbed_good ext id : good_id ext id -> globbed ext (id ++ "."%char :: ext) = true.
Proof.
  intros (H1 & H2 & _). destruct id as [|c id]; [congruence|]. cbn [app globbed].
  apply andb_true_iff. split.
  - apply negb_true_iff. apply Ascii.eqb_neq. intros ->. now apply H2.
  - apply ends_with_spec. exists (c :: id ++ ["."%char]). cbn. now rewrite <- app_assoc.
Qed.

(** Reading an entry of the archive: under its key, else under the key with the
    suffix; other keys are refused. *)
Lemma zip_read_none {A} (z : list (str * A)) k : ~ In k (map fst z) -> zip_read z k = None.
Proof.
  unfold zip_read. generalize (@None A). induction z as [|[k' b] z IH]; intros r H; [reflexivity|].
  cbn [map fst In] in H. cbn [fold_left fst snd].
  destruct (str_eqb k k') eqn:E; [apply str_eqb_eq in E; subst; tauto|]. apply IH. tauto.
Qed.

Theorem C133_lookup : forall A (z : list (str * A)) key, NoDup (map fst z) ->
  (forall a, In (key, a) z -> npz_get z key = Ok a) /\
  (forall a, ~ In key (map fst z) -> In (key ++ npy, a) z -> npz_get z key = Ok a) /\
  (~ In key (npz_keys z) -> ~ In key (map fst z) -> npz_get z key = Err KeyError).
Proof.
  intros A z key Hn. unfold npz_get. split; [|split].
  - intros a Ha. now rewrite (zip_read_spec z key Hn a Ha).
  - intros a Hk Ha. rewrite zip_read_none by exact Hk. now rewrite (zip_read_spec z _ Hn a Ha).
  - intros Hk Hf. rewrite zip_read_none by exact Hf. rewrite zip_read_none; [reflexivity|].
    intros Hin. apply Hk. apply in_map_iff in Hin. destruct Hin as ([k a] & E & Hin). cbn [fst] in E. subst k.
    unfold npz_keys. apply in_map_iff. exists (key ++ npy, a). split; [|exact Hin]. cbn [fst]. unfold npz_key.
    assert (Ee : ends_with npy (key ++ npy) = true) by (apply ends_with_spec; now exists key).
    rewrite Ee, app_length. change (length npy) with 4%nat. replace (length key + 4 - 4)%nat with (length key) by lia.
    rewrite firstn_app, Nat.sub_diag, firstn_O, app_nil_r. apply firstn_all.
Qed.

(** ** C133 *)

(** If the ids do not contain the extension, the archive has exactly the files
    of the extension, each under its id, and reading an id gives its file. *)
Theorem C133_archive_partial : forall A ext (dir : list (str * A)),
  ~ In "."%char ext -> NoDup (map fst dir) ->
  (forall name a, In (name, a) dir -> globbed ext name = true ->
     exists id, name = id ++ "."%char :: ext /\ good_id ext id /\ ends_with npy id = false) ->
  let z := archive ext dir in
  NoDup (npz_keys z) /\
  (forall id, In id (npz_keys z) <-> good_id ext id /\ ends_with npy id = false /\ In (id ++ "."%char :: ext) (map fst dir)) /\
  (forall id a, In (id ++ "."%char :: ext, a) dir -> good_id ext id -> npz_get z id = Ok a).
Proof.
  intros A ext dir Hd Hn Hg z.
  set (sel := filter (fun f : str * A => globbed ext (fst f)) dir).
  assert (Hsel : forall f, In f sel -> exists id, fst f = id ++ "."%char :: ext /\ good_id ext id /\ ends_with npy id = false /\
            arcname ext (fst f) = id).
  { intros [name a] Hf. apply filter_In in Hf. cbn [fst] in *. destruct Hf as [Hf Hb].
    destruct (Hg _ _ Hf Hb) as (id & E & G & K). exists id. rewrite E. repeat (split; auto).
    apply arcname_id; auto. apply G. }
  assert (Hkeys : npz_keys z = map (fun f => arcname ext (fst f)) sel).
  { unfold npz_keys, z, archive. rewrite map_map. apply map_ext_in. intros f Hf. cbn [fst].
    destruct (Hsel f Hf) as (id & E & G & K & R). rewrite R. unfold npz_key. now rewrite K. }
  assert (Hns : NoDup (map fst sel)).
  { unfold sel. clear - Hn. induction dir as [|f dir IH]; [constructor|]. cbn [map] in Hn. inversion_clear Hn.
    cbn [filter]. destruct (globbed ext (fst f)); auto. cbn [map]. constructor; auto.
    intros Hin. apply H. apply in_map_iff in Hin. destruct Hin as (g & E & Hg). apply filter_In in Hg.
    rewrite <- E. apply in_map, Hg. }
  assert (Hnk : NoDup (map (fun f => arcname ext (fst f)) sel)).
  { assert (M : forall l : list (str * A), (forall f, In f l -> In f sel) -> NoDup (map fst l) -> NoDup (map (fun f => arcname ext (fst f)) l)).
    { induction l as [|f l IH]; intros Hl Hnl; [constructor|]. cbn [map] in *. inversion_clear Hnl. constructor.
      - intros Hin. apply H. apply in_map_iff in Hin. destruct Hin as (g & E & Hgl).
        destruct (Hsel f (Hl f (or_introl eq_refl))) as (i1 & F1 & _ & _ & R1).
        destruct (Hsel g (Hl g (or_intror Hgl))) as (i2 & F2 & _ & _ & R2).
        rewrite F1. rewrite R1, R2 in E. rewrite <- E, <- F2. now apply in_map.
      - apply IH; auto. intros g Hg2. apply Hl. now right. }
    now apply M. }
  split; [now rewrite Hkeys|]. split.
  - intros id. rewrite Hkeys, in_map_iff. split.
    + intros (f & R & Hf). destruct (Hsel f Hf) as (id' & E & G & K & R'). rewrite R' in R. subst id'.
      split; [auto|]. split; [auto|]. rewrite <- E. apply in_map. unfold sel in Hf. apply filter_In in Hf. apply Hf.
    + intros (G & K & Hin). apply in_map_iff in Hin. destruct Hin as (f & E & Hf). exists f. rewrite E. split.
      * apply arcname_id; auto. apply G.
      * apply filter_In. split; auto. rewrite E. now apply globbed_good.
  - intros id a Hin G. unfold npz_get. rewrite (zip_read_spec z id) with (a := a); [reflexivity| |].
    + unfold z, archive. rewrite map_map. cbn [fst]. exact Hnk.
    + unfold z, archive. apply in_map_iff. exists (id ++ "."%char :: ext, a). cbn [fst snd]. split.
      * f_equal. apply arcname_id; auto. apply G.
      * apply filter_In. split; auto. cbn [fst]. now apply globbed_good.
Qed.

Definition st (s : string) : str := list_ascii_of_string s.

(** A name containing the extension twice loses both: two files under one id,
    the first one is lost and the second is read twice. *)
Theorem C133_collision_refuted :
  let dir := [(st "a.npy", 1); (st "a.npy.npy", 2)] in
  npz_keys (archive (st "npy") dir) = [st "a"; st "a"] /\ npz_get (archive (st "npy") dir) (st "a") = Ok 2.
Proof. split; reflexivity. Qed.

(** The pattern has no dot: any name ending with the letters of the extension
    is archived, under its full name. *)
Theorem C133_no_dot_refuted :
  npz_keys (archive (st "npy") [(st "notes_npy", 1); (st "a.npy", 2)]) = [st "notes_npy"; st "a"].
Proof. reflexivity. Qed.

(** An id containing the extension in its middle is changed. *)
Theorem C133_inner_refuted : arcname (st "npy") (st "a.npy.b.npy") = st "a.b".
Proof. reflexivity. Qed.

Example C133_example :
  let dir := [(st "utt1.npy", 1); (st "readme.txt", 2); (st ".hidden.npy", 3); (st "u.2.npy", 4)] in
  npz_keys (archive (st "npy") dir) = [st "utt1"; st "u.2"] /\ npz_get (archive (st "npy") dir) (st "u.2") = Ok 4.
Proof. split; reflexivity. Qed.

(** ** C134 *)
Section Sort.
  Variable key : str -> list tok.

  Lemma insert_by_perm x l : Permutation (x :: l) (insert_by key x l).
  Proof.
    induction l as [|y l IH]; cbn; [auto|]. destruct (key_leb (key x) (key y)); [auto|].
    eapply perm_trans; [apply perm_swap|]. now constructor.
  Qed.

  Lemma sort_by_perm l : Permutation l (sort_by key l).
  Proof. induction l as [|x l IH]; cbn; [auto|]. eapply perm_trans; [|apply insert_by_perm]. now constructor. Qed.
End Sort.

Lemma str_cmp_refl a : str_cmp a a = Eq.
Proof. induction a; cbn; auto. now rewrite Nat.compare_refl. Qed.

Lemma nat_of_ascii_inj x y : nat_of_ascii x = nat_of_ascii y -> x = y.
Proof. intros H. rewrite <- (ascii_nat_embedding x), <- (ascii_nat_embedding y). now rewrite H. Qed.

Lemma str_cmp_eq a b : str_cmp a b = Eq -> a = b.
Proof.
  revert b. induction a as [|x a IH]; destruct b as [|y b]; cbn; try congruence.
  destruct (Nat.compare_spec (nat_of_ascii x) (nat_of_ascii y)); try congruence. intros Hc.
  apply nat_of_ascii_inj in H. subst. now rewrite (IH b Hc).
Qed.

Lemma str_cmp_antisym a b : str_cmp b a = CompOpp (str_cmp a b).
Proof.
  revert b. induction a as [|x a IH]; destruct b as [|y b]; cbn; auto.
  rewrite Nat.compare_antisym. destruct (Nat.compare_spec (nat_of_ascii x) (nat_of_ascii y)); cbn; auto.
Qed.

Lemma str_cmp_trans a b c : str_cmp a b = Lt -> str_cmp b c = Lt -> str_cmp a c = Lt.
Proof.
  revert b c. induction a as [|x a IH]; destruct b as [|y b], c as [|z c]; cbn; try congruence.
  destruct (Nat.compare_spec (nat_of_ascii x) (nat_of_ascii y)); try congruence;
  destruct (Nat.compare_spec (nat_of_ascii y) (nat_of_ascii z)); try congruence; intros Ha Hb;
  destruct (Nat.compare_spec (nat_of_ascii x) (nat_of_ascii z)); try lia; auto. eapply IH; eauto.
Qed.

Lemma tok_cmp_refl a : tok_cmp a a = Eq.
Proof. destruct a; cbn; [apply str_cmp_refl|apply Nat.compare_refl]. Qed.
Lemma tok_cmp_eq a b : tok_cmp a b = Eq -> a = b.
Proof. destruct a, b; cbn; try congruence; intros H; [now rewrite (str_cmp_eq _ _ H)|now apply Nat.compare_eq in H; subst]. Qed.
Lemma tok_cmp_antisym a b : tok_cmp b a = CompOpp (tok_cmp a b).
Proof. destruct a, b; cbn; auto; [apply str_cmp_antisym|apply Nat.compare_antisym]. Qed.
Lemma tok_cmp_trans a b c : tok_cmp a b = Lt -> tok_cmp b c = Lt -> tok_cmp a c = Lt.
Proof.
  destruct a, b, c; cbn; try congruence; [apply str_cmp_trans|].
  intros H1 H2. apply Nat.compare_lt_iff in H1, H2. apply Nat.compare_lt_iff. lia.
Qed.

Lemma key_cmp_refl a : key_cmp a a = Eq.
Proof. induction a; cbn; auto. now rewrite tok_cmp_refl. Qed.
Lemma key_cmp_eq a b : key_cmp a b = Eq -> a = b.
Proof.
  revert b. induction a as [|x a IH]; destruct b as [|y b]; cbn; try congruence.
  destruct (tok_cmp x y) eqn:E; try congruence. apply tok_cmp_eq in E. intros H. subst. now rewrite (IH _ H).
Qed.
Lemma key_cmp_antisym a b : key_cmp b a = CompOpp (key_cmp a b).
Proof.
  revert b. induction a as [|x a IH]; destruct b as [|y b]; cbn; auto.
  rewrite tok_cmp_antisym. destruct (tok_cmp x y); cbn; auto.
Qed.
Lemma key_cmp_trans a b c : key_cmp a b = Lt -> key_cmp b c = Lt -> key_cmp a c = Lt.
Proof.
  revert b c. induction a as [|x a IH]; destruct b as [|y b], c as [|z c]; cbn; try congruence.
  destruct (tok_cmp x y) eqn:E1; try congruence; destruct (tok_cmp y z) eqn:E2; try congruence; intros H1 H2.
  - apply tok_cmp_eq in E1, E2. subst. rewrite tok_cmp_refl. eauto.
  - apply tok_cmp_eq in E1. subst. now rewrite E2.
  - apply tok_cmp_eq in E2. subst. now rewrite E1.
  - now rewrite (tok_cmp_trans _ _ _ E1 E2).
Qed.

Lemma key_leb_refl a : key_leb a a = true. Proof. unfold key_leb. now rewrite key_cmp_refl. Qed.
Lemma key_leb_total a b : key_leb a b = false -> key_leb b a = true.
Proof. unfold key_leb. rewrite (key_cmp_antisym a b). destruct (key_cmp a b); cbn; congruence. Qed.
Lemma key_leb_antisym a b : key_leb a b = true -> key_leb b a = true -> a = b.
Proof.
  unfold key_leb. rewrite (key_cmp_antisym a b). destruct (key_cmp a b) eqn:E; cbn; try congruence.
  intros _ _. now apply key_cmp_eq.
Qed.
Lemma key_leb_trans a b c : key_leb a b = true -> key_leb b c = true -> key_leb a c = true.
Proof.
  unfold key_leb. destruct (key_cmp a b) eqn:E1; try congruence; destruct (key_cmp b c) eqn:E2; try congruence; intros _ _.
  - apply key_cmp_eq in E1. subst. now rewrite E2.
  - apply key_cmp_eq in E1. subst. now rewrite E2.
  - apply key_cmp_eq in E2. subst. now rewrite E1.
  - now rewrite (key_cmp_trans _ _ _ E1 E2).
Qed.

Definition natkey (s : str) : list tok := nat_key (lower s).

Lemma insert_by_sorted x l : StronglySorted (fun a b => key_leb (natkey a) (natkey b) = true) l ->
  StronglySorted (fun a b => key_leb (natkey a) (natkey b) = true) (insert_by natkey x l).
Proof.
  induction l as [|y l IH]; intros H; cbn; [repeat constructor|].
  inversion H as [|? ? Hs Hf]; subst. destruct (key_leb (natkey x) (natkey y)) eqn:E.
  - constructor; auto. constructor; auto. eapply Forall_impl; [|exact Hf]. intros z Hz. eapply key_leb_trans; eauto.
  - constructor; auto. apply (Permutation_Forall (insert_by_perm natkey x l)). constructor; auto.
    now apply key_leb_total.
Qed.

(** Stability: the names with a given key keep their order. *)
Lemma insert_by_filter x l k : StronglySorted (fun a b => key_leb (natkey a) (natkey b) = true) l ->
  filter (fun s => match key_cmp (natkey s) k with Eq => true | _ => false end) (insert_by natkey x l) =
  filter (fun s => match key_cmp (natkey s) k with Eq => true | _ => false end) (x :: l).
Proof.
  induction l as [|y l IH]; intros Hs; [reflexivity|]. cbn [insert_by].
  destruct (key_leb (natkey x) (natkey y)) eqn:E; [reflexivity|].
  inversion Hs as [|? ? Hs' _]; subst. cbn [filter] in *. rewrite (IH Hs').
  destruct (key_cmp (natkey x) k) eqn:E1; destruct (key_cmp (natkey y) k) eqn:E2; auto.
  apply key_cmp_eq in E1, E2. rewrite E1, E2, key_leb_refl in E. discriminate.
Qed.

(** Every phone once, in the order of the keys; names with the same key (upper
    and lower case) in the order of the dictionary. *)
Theorem C134_order : forall units,
  Permutation units (phonelist units) /\
  StronglySorted (fun a b => key_cmp (nat_key (lower a)) (nat_key (lower b)) <> Gt) (phonelist units) /\
  (forall k, filter (fun s => match key_cmp (nat_key (lower s)) k with Eq => true | _ => false end) (phonelist units) =
             filter (fun s => match key_cmp (nat_key (lower s)) k with Eq => true | _ => false end) units).
Proof.
  intros units. unfold phonelist. change (fun s => nat_key (lower s)) with natkey.
  assert (S : forall l, StronglySorted (fun a b => key_leb (natkey a) (natkey b) = true) (sort_by natkey l)).
  { induction l as [|x l IH]; cbn; [constructor|]. now apply insert_by_sorted. }
  split; [apply sort_by_perm|]. split.
  - specialize (S units). induction S as [|a l Hs IH Hf]; constructor; auto. eapply Forall_impl; [|exact Hf].
    intros b Hb. unfold natkey, key_leb in Hb. destruct (key_cmp _ _); congruence.
  - intros k. change (fun s => match key_cmp (nat_key (lower s)) k with Eq => true | _ => false end)
      with (fun s => match key_cmp (natkey s) k with Eq => true | _ => false end).
    induction units as [|x l IH]; [reflexivity|]. cbn [sort_by fold_right]. fold (sort_by natkey l).
    rewrite insert_by_filter by apply S. cbn [filter]. now rewrite IH.
Qed.

(** *** Numbered phones *)
Lemma digit_ascii d : d < 10 -> is_digit (ascii_of_nat (48 + d)) = true /\ nat_of_ascii (ascii_of_nat (48 + d)) = 48 + d.
Proof.
  intros H. assert (E : nat_of_ascii (ascii_of_nat (48 + d)) = 48 + d) by (apply nat_ascii_embedding; lia).
  split; [|exact E]. unfold is_digit. rewrite E. apply andb_true_iff. split; apply Nat.leb_le; lia.
Qed.

Lemma dec_digits_ok fuel n acc : n < fuel -> Forall (fun c => is_digit c = true) acc ->
  Forall (fun c => is_digit c = true) (dec_digits fuel n acc) /\ dec_digits fuel n acc <> [] /\
  forall v, fold_left (fun v c => 10 * v + (nat_of_ascii c - 48)) (dec_digits fuel n acc) v =
            fold_left (fun v c => 10 * v + (nat_of_ascii c - 48)) acc (fold_left (fun v c => 10 * v + (nat_of_ascii c - 48)) (dec_digits fuel n []) v).
Proof.
  revert n acc. induction fuel as [|f IH]; intros n acc Hf Ha; [lia|]. cbn [dec_digits].
  assert (M : n mod 10 < 10) by (apply Nat.mod_upper_bound; lia).
  destruct (digit_ascii _ M) as (D1 & D2).
  assert (Ha' : Forall (fun c => is_digit c = true) (ascii_of_nat (48 + n mod 10) :: acc)) by (constructor; auto).
  destruct (n / 10 =? 0) eqn:E.
  - split; [exact Ha'|]. split; [discriminate|]. intros v. reflexivity.
  - apply Nat.eqb_neq in E. assert (n / 10 < f).
    { assert (n <> 0) by (intros ->; now cbn in E). assert (n / 10 < n) by (apply Nat.div_lt; lia). lia. }
    destruct (IH (n / 10) _ H Ha') as (A & B & C). split; [exact A|]. split; [exact B|].
    intros v. rewrite C. cbn [fold_left].
    destruct (IH (n / 10) [ascii_of_nat (48 + n mod 10)] H ltac:(repeat constructor; auto)) as (_ & _ & C').
    rewrite C'. reflexivity.
Qed.

Lemma dec_value_dec_aux fuel n : n < fuel -> dec_value (dec_digits fuel n []) = n.
Proof.
  revert n. induction fuel as [|f IH]; intros n Hf; [lia|]. unfold dec_value. cbn [dec_digits].
  assert (M : n mod 10 < 10) by (apply Nat.mod_upper_bound; lia).
  destruct (digit_ascii _ M) as (D1 & D2).
  assert (DM := Nat.div_mod n 10 ltac:(lia)).
  destruct (n / 10 =? 0) eqn:E.
  - apply Nat.eqb_eq in E. cbn [fold_left]. rewrite D2. lia.
  - apply Nat.eqb_neq in E. assert (n / 10 < f).
    { assert (n <> 0) by (intros ->; now cbn in E). assert (n / 10 < n) by (apply Nat.div_lt; lia). lia. }
    destruct (dec_digits_ok f (n / 10) [ascii_of_nat (48 + n mod 10)] H ltac:(repeat constructor; auto)) as (_ & _ & C).
    rewrite C. cbn [fold_left]. fold (dec_value (dec_digits f (n / 10) [])). rewrite IH by auto. rewrite D2. lia.
Qed.

Lemma dec_value_dec n : dec_value (dec n) = n.
Proof. apply dec_value_dec_aux. lia. Qed.

Lemma runs_digits s : s <> [] -> Forall (fun c => is_digit c = true) s -> runs s = [(true, s)].
Proof.
  induction s as [|c s IH]; [congruence|]. intros _ H. inversion_clear H. cbn [runs].
  destruct s as [|d s]; [now rewrite H0|]. rewrite IH by (auto; discriminate). now rewrite H0.
Qed.

Lemma runs_prefix p s : p <> [] -> Forall (fun c => is_digit c = false) p -> s <> [] -> Forall (fun c => is_digit c = true) s ->
  runs (p ++ s) = [(false, p); (true, s)].
Proof.
  intros Hp H Hs Hd. induction p as [|c p IH]; [congruence|]. inversion_clear H. cbn [app runs].
  destruct p as [|d p].
  - cbn [app]. rewrite (runs_digits s Hs Hd). now rewrite H0.
  - rewrite IH by (auto; discriminate). now rewrite H0.
Qed.

Lemma lower_digit c : is_digit c = true -> lower_char c = c.
Proof.
  unfold is_digit, lower_char. rewrite andb_true_iff, !Nat.leb_le. intros H.
  destruct (65 <=? nat_of_ascii c) eqn:E; [apply Nat.leb_le in E; lia|reflexivity].
Qed.
Lemma lower_not_digit c : is_digit c = false -> is_digit (lower_char c) = false.
Proof.
  intros H. unfold lower_char. destruct ((65 <=? nat_of_ascii c) && (nat_of_ascii c <=? 90)) eqn:E; [|exact H].
  apply andb_true_iff in E. rewrite !Nat.leb_le in E. unfold is_digit. rewrite nat_ascii_embedding by lia.
  apply andb_false_iff. right. apply Nat.leb_gt. lia.
Qed.

Lemma natkey_numbered p n : Forall (fun c => is_digit c = false) p -> natkey (p ++ dec n) = [T (lower p); N n].
Proof.
  intros Hp. destruct (dec_digits_ok (S n) n [] ltac:(lia) (Forall_nil _)) as (D1 & D2 & _). fold (dec n) in D1, D2.
  assert (Ld : lower (dec n) = dec n).
  { unfold lower. rewrite <- (map_id (dec n)) at 2. apply map_ext_in. intros c Hc. rewrite Forall_forall in D1.
    apply lower_digit. auto. }
  unfold natkey, nat_key. unfold lower. rewrite map_app. fold (lower p). fold (lower (dec n)). rewrite Ld.
  destruct p as [|c p].
  - cbn [lower map app]. rewrite runs_digits by auto. cbn [map fst snd]. now rewrite dec_value_dec.
  - rewrite runs_prefix; auto.
    + cbn [map fst snd]. now rewrite dec_value_dec.
    + discriminate.
    + unfold lower. apply Forall_forall. intros d Hd. apply in_map_iff in Hd. destruct Hd as (e & <- & He).
      apply lower_not_digit. rewrite Forall_forall in Hp. auto.
Qed.

Lemma key_leb_numbered p i j : Forall (fun c => is_digit c = false) p ->
  key_leb (natkey (p ++ dec i)) (natkey (p ++ dec j)) = (i <=? j).
Proof.
  intros Hp. rewrite !natkey_numbered by auto. unfold key_leb. cbn [key_cmp tok_cmp]. rewrite str_cmp_refl.
  destruct (Nat.compare_spec i j); symmetry; [apply Nat.leb_le|apply Nat.leb_le|apply Nat.leb_gt]; lia.
Qed.

(** The phones of a group, numbered, are listed by increasing numbers. *)
Theorem C134_numbered : forall p numbers, Forall (fun c => is_digit c = false) p ->
  exists sorted, Permutation numbers sorted /\ StronglySorted le sorted /\
    phonelist (map (fun i => p ++ dec i) numbers) = map (fun i => p ++ dec i) sorted.
Proof.
  intros p numbers Hp. unfold phonelist. change (fun s => nat_key (lower s)) with natkey.
  induction numbers as [|n numbers IH]; [exists []; repeat split; constructor|].
  destruct IH as (l & P & S & E). cbn [map sort_by fold_right]. fold (sort_by natkey (map (fun i => p ++ dec i) numbers)).
  rewrite E. clear E.
  assert (G : forall l, StronglySorted le l -> exists l', Permutation (n :: l) l' /\ StronglySorted le l' /\
            insert_by natkey (p ++ dec n) (map (fun i => p ++ dec i) l) = map (fun i => p ++ dec i) l').
  { clear - Hp. induction l as [|m l IH]; intros S.
    - exists [n]. split; [auto|]. split; [repeat constructor|reflexivity].
    - inversion S as [|? ? S' F]; subst. cbn [map insert_by]. rewrite key_leb_numbered by auto.
      destruct (Nat.leb_spec n m).
      + exists (n :: m :: l). split; [auto|]. split; [|reflexivity]. constructor; auto. constructor; auto.
        eapply Forall_impl; [|exact F]. intros; cbn in *; lia.
      + destruct (IH S') as (l' & P & S2 & E). exists (m :: l'). split; [|split].
        * eapply perm_trans; [apply perm_swap|]. now constructor.
        * constructor; auto. apply (Permutation_Forall P). constructor; auto. lia.
        * cbn [map]. now rewrite E. }
  destruct (G l S) as (l' & P' & S' & E'). exists l'. split; [|split; auto].
  eapply perm_trans; [|exact P']. now constructor.
Qed.

(** Capitals and small letters, in the same places *)
Definition capitals : str := st "ABCDEFGHIJKLMNOPQRSTUVWXYZ".
Definition smalls : str := st "abcdefghijklmnopqrstuvwxyz".
Definition same_letter (c c' : ascii) : Prop :=
  c = c' \/ exists i, i < 26 /\ ((c = nth i capitals c /\ c' = nth i smalls c') \/ (c' = nth i capitals c' /\ c = nth i smalls c)).

Lemma lower_capital i d d' : i < 26 -> lower_char (nth i capitals d) = nth i smalls d' /\ lower_char (nth i smalls d) = nth i smalls d'.
Proof. intros Hi. do 26 (destruct i as [|i]; [split; reflexivity|]). lia. Qed.

Lemma same_letter_lower c c' : same_letter c c' -> lower_char c = lower_char c'.
Proof.
  intros [->|(i & Hi & [(-> & ->)|(-> & ->)])]; [reflexivity| |].
  - rewrite (proj1 (lower_capital i c zero Hi)). symmetry. apply (lower_capital i c' zero Hi).
  - rewrite (proj1 (lower_capital i c' zero Hi)). apply (lower_capital i c zero Hi).
Qed.

(** Names that only differ in case keep the order of the file. *)
Theorem C134_case : forall s s', Forall2 same_letter s s' -> phonelist [s; s'] = [s; s'].
Proof.
  intros s s' H. unfold phonelist, sort_by. cbn [fold_right insert_by].
  assert (E : lower s = lower s').
  { unfold lower. induction H as [|c c' s s' Hc H IH]; [reflexivity|]. cbn [map]. now rewrite IH, (same_letter_lower c c' Hc). }
  rewrite E. unfold key_leb. now rewrite key_cmp_refl.
Qed.

Lemma runs_text s : s <> [] -> Forall (fun c => is_digit c = false) s -> runs s = [(false, s)].
Proof.
  intros Hs H. induction H as [|c s Hc H IH]; [congruence|]. cbn [runs]. destruct s as [|d s]; [now rewrite Hc|].
  rewrite IH by discriminate. now rewrite Hc.
Qed.

Lemma lower_text s : Forall (fun c => is_digit c = false) s -> Forall (fun c => is_digit c = false) (lower s).
Proof. intros H. unfold lower. apply Forall_map. eapply Forall_impl; [|exact H]. intros c. apply lower_not_digit. Qed.

Lemma natkey_text s : s <> [] -> Forall (fun c => is_digit c = false) s -> natkey s = [T (lower s)].
Proof.
  intros Hs H. unfold natkey, nat_key. rewrite runs_text; [reflexivity| |now apply lower_text].
  destruct s; [congruence|discriminate].
Qed.

Lemma str_cmp_prefix a b : b <> [] -> str_cmp a (a ++ b) = Lt.
Proof.
  intros Hb. induction a as [|c a IH]; cbn [app str_cmp]; [destruct b; congruence|]. now rewrite Nat.compare_refl.
Qed.

(** A name that continues another one comes after it. *)
Theorem C134_prefix : forall s t, t <> [] -> Forall (fun c => is_digit c = false) (s ++ t) ->
  phonelist [s ++ t; s] = [s; s ++ t] /\ phonelist [s; s ++ t] = [s; s ++ t].
Proof.
  intros s t Ht H. assert (Hn : s ++ t <> []) by (destruct s; [exact Ht|discriminate]).
  assert (C : key_cmp (natkey s) (natkey (s ++ t)) = Lt).
  { rewrite (natkey_text (s ++ t)) by auto. destruct s as [|c s]; [reflexivity|].
    rewrite natkey_text; [|discriminate|now apply Forall_app in H]. cbn [key_cmp tok_cmp].
    unfold lower. rewrite map_app. rewrite str_cmp_prefix; [reflexivity|]. destruct t; [congruence|discriminate]. }
  unfold phonelist, sort_by. cbn [fold_right insert_by]. change (nat_key (lower s)) with (natkey s).
  change (nat_key (lower (s ++ t))) with (natkey (s ++ t)). unfold key_leb.
  rewrite (key_cmp_antisym (natkey s) (natkey (s ++ t))), C. split; reflexivity.
Qed.

Example C134_example : phonelist (map st ["au10"; "sil"; "au9"; "AU1"; "au1"; "b"; "2"]%string) =
  map st ["2"; "AU1"; "au1"; "au9"; "au10"; "b"; "sil"]%string.
Proof. reflexivity. Qed.

Print Assumptions C133_archive_partial.
Print Assumptions C134_order.
Print Assumptions C134_numbered.
Print Assumptions C133_lookup.
