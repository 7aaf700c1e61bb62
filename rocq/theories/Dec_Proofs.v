From Coq Require Import List Arith Bool Lia Reals Lra.
From Verif Require Import Prelude Edit_Model Edit_Proofs Dec_Model Dec_Spec.
Import ListNotations.

Lemma inb_spec x l : inb x l = true <-> In x l.
Proof.
  unfold inb. rewrite existsb_exists. split.
  - intros (y & Hy & E). apply Nat.eqb_eq in E. now subst.
  - intros H. exists x. now rewrite Nat.eqb_refl.
Qed.
Lemma inb_false x l : inb x l = false <-> ~ In x l.
Proof. rewrite <- inb_spec. destruct (inb x l); split; congruence. Qed.

Lemma dget_dset {V} (d : list (nat * V)) k v k' :
  dget Nat.eq_dec (dset d k v) k' = if Nat.eq_dec k' k then Some v else dget Nat.eq_dec d k'.
Proof.
  induction d as [|[a b] d IH]; simpl.
  - destruct (Nat.eq_dec k' k); auto.
  - destruct (Nat.eq_dec k a) as [->|Hka]; simpl.
    + destruct (Nat.eq_dec k' a); auto.
    + destruct (Nat.eq_dec k' a) as [->|]; auto.
      destruct (Nat.eq_dec a k); [congruence|auto].
Qed.

Lemma dset_in {V} (d : list (nat * V)) k v k' :
  In k' (map fst (dset d k v)) <-> k' = k \/ In k' (map fst d).
Proof.
  induction d as [|[a b] d IH]; simpl.
  - intuition.
  - destruct (Nat.eq_dec k a) as [->|Hka]; simpl.
    + intuition.
    + rewrite IH. intuition.
Qed.

(** inversion of an injective dictionary *)
Lemma invert_spec d : NoDup (map snd d) ->
  forall k v, In (k, v) d -> dget Nat.eq_dec (invert d) v = Some k.
Proof.
  unfold invert.
  assert (G : forall (d acc : list (nat * nat)), NoDup (map snd d) ->
    forall k v, (In (k, v) d \/ (~ In v (map snd d) /\ dget Nat.eq_dec acc v = Some k)) ->
    dget Nat.eq_dec (fold_left (fun acc kv => dset acc (snd kv) (fst kv)) d acc) v = Some k).
  { clear d. induction d as [|[a b] d IH]; intros acc Hn k v H; simpl in *.
    - destruct H as [[]|[_ H]]. exact H.
    - inversion_clear Hn as [|? ? Hb Hn']. apply IH; auto.
      destruct H as [[[= -> ->]|H]|[H1 H2]].
      + right. split; auto. rewrite dget_dset. destruct (Nat.eq_dec v v); congruence.
      + now left.
      + right. split; [tauto|]. rewrite dget_dset. destruct (Nat.eq_dec v b); auto.
        exfalso. apply H1. now left. }
  intros Hn k v H. apply G; auto.
Qed.

Lemma dgetE_ok d k v : dget Nat.eq_dec d k = Some v -> dgetE d k = Ok v.
Proof. unfold dgetE. now intros ->. Qed.

(** ** entry-state based conversion (decode.py, pdf2unit.py) *)
Section D.
Variables (starts : list nat) (sym : list (nat * nat)) (known : nat -> Prop)
  (entry : nat -> nat).
Hypothesis entry_start' : forall p, known p -> In (entry p) starts.
Hypothesis sym_entry : forall p, known p -> dgetE sym (entry p) = Ok p.

Definition good_visit (v : visit) : Prop :=
  known (v_phone v) /\ forall s, In s (v_rest v) -> ~ In s starts.

Lemma entry_start p : known p -> inb (entry p) starts = true.
Proof. intros H. apply inb_spec. auto. Qed.

Lemma entry_inj p q : known p -> known q -> entry p = entry q -> p = q.
Proof.
  intros Hp Hq E. apply sym_entry in Hp, Hq. rewrite E in Hp. congruence.
Qed.

(** running through the rest of a visit *)
Lemma loop_rest pf last rest : (forall s, In s rest -> ~ In s starts) ->
  forall prev path,
  s2p_loop starts sym pf prev last (rest ++ path) =
  bindr (s2p_loop starts sym pf (List.last rest prev) last path)
    (fun r => Ok ((if pf then repeat last (length rest) else []) ++ r)).
Proof.
  induction rest as [|s rest IH]; intros Hs prev path.
  - simpl. destruct (s2p_loop _ _ _ _ _ _); cbn [bindr]; auto. now destruct pf.
  - cbn [app s2p_loop].
    assert (inb s starts = false) as -> by (apply inb_false; apply Hs; now left).
    rewrite andb_false_r. rewrite IH by (intros; apply Hs; now right).
    replace (List.last (s :: rest) prev) with (List.last rest s).
    2:{ clear. revert s prev. induction rest as [|a rest IH]; intros; auto.
        simpl in *. destruct rest; auto. }
    destruct (s2p_loop _ _ _ _ _ _); cbn [bindr]; auto. now destruct pf.
Qed.

Lemma loop_repeat pf last s n : forall path,
  s2p_loop starts sym pf s last (repeat s n ++ path) =
  bindr (s2p_loop starts sym pf s last path)
    (fun r => Ok ((if pf then repeat last n else []) ++ r)).
Proof.
  induction n as [|n IH]; intros path.
  - simpl. destruct (s2p_loop _ _ _ _ _ _); cbn [bindr]; auto. now destruct pf.
  - cbn [repeat app s2p_loop]. rewrite Nat.eqb_refl. cbn [negb andb]. rewrite IH.
    destruct (s2p_loop _ _ _ _ _ _); cbn [bindr]; auto. now destruct pf.
Qed.

Definition out (pf : bool) (vs : list visit) : list nat :=
  if pf then frame_phones vs else map v_phone vs.

Lemma last_in {B} (l : list B) d : l <> [] -> In (List.last l d) l.
Proof.
  induction l as [|x l IH]; [congruence|]. intros _. destruct l as [|y l]; [now left|].
  right. apply IH. discriminate.
Qed.

Lemma loop_visits pf : forall vs v,
  good_visit v -> (forall w, In w vs -> good_visit w) -> separated (v :: vs) ->
  s2p_loop starts sym pf (entry (v_phone v)) (v_phone v)
    (repeat (entry (v_phone v)) (v_more v) ++ v_rest v ++ unroll entry vs)
  = Ok ((if pf then repeat (v_phone v) (v_more v + length (v_rest v)) else []) ++ out pf vs).
Proof.
  induction vs as [|w vs IH]; intros v [Hv Hr] Hvs Hsep.
  - rewrite loop_repeat, loop_rest by auto. cbn [unroll flat_map s2p_loop bindr].
    f_equal. unfold out. destruct pf; cbn [frame_phones flat_map map]; auto.
    rewrite repeat_app, !app_assoc. reflexivity.
  - rewrite loop_repeat, loop_rest by auto.
    unfold unroll. cbn [flat_map]. fold (unroll entry vs). unfold frames at 1.
    cbn [app s2p_loop].
    assert (Hw : good_visit w) by (apply Hvs; now left).
    assert (Hne : (entry (v_phone w) =? List.last (v_rest v) (entry (v_phone v))) = false).
    { apply Nat.eqb_neq. intros E. destruct Hsep as [[Hs|Hs] _].
      - apply (Hr (List.last (v_rest v) (entry (v_phone v)))); [now apply last_in|].
        rewrite <- E. apply inb_spec. apply entry_start. apply Hw.
      - destruct (v_rest v) as [|a l] eqn:El.
        + simpl in E. apply entry_inj in E; [congruence|apply Hw|exact Hv].
        + apply (Hr (List.last (a :: l) (entry (v_phone v)))); [apply last_in; discriminate|].
          rewrite <- E. apply inb_spec. apply entry_start. apply Hw. }
    rewrite Hne. rewrite entry_start by apply Hw. cbn [negb andb].
    rewrite sym_entry by apply Hw. cbn [bindr].
    rewrite <- app_assoc. rewrite IH; auto.
    + cbn [bindr]. f_equal. unfold out. destruct pf.
      * change (frame_phones (w :: vs)) with
          ((v_phone w :: repeat (v_phone w) (v_more w + length (v_rest w))) ++ frame_phones vs).
        rewrite !repeat_app. cbn [app]. rewrite <- !app_assoc. reflexivity.
      * reflexivity.
    + intros; apply Hvs; now right.
    + destruct Hsep as [_ Hsep]. exact Hsep.
Qed.

Lemma s2p_visits pf v vs :
  (forall w, In w (v :: vs) -> good_visit w) -> separated (v :: vs) ->
  exists t, unroll entry (v :: vs) = entry (v_phone v) :: t /\
  bindr (s2p_loop starts sym pf (entry (v_phone v)) (v_phone v) t)
    (fun r => Ok (v_phone v :: r)) = Ok (out pf (v :: vs)).
Proof.
  intros Hg Hsep. unfold unroll. cbn [flat_map]. fold (unroll entry vs).
  unfold frames at 1. cbn [app]. eexists. split; [reflexivity|].
  rewrite <- app_assoc. rewrite loop_visits; auto.
  - cbn [bindr]. f_equal. unfold out. destruct pf; reflexivity.
  - apply Hg; now left.
  - intros; apply Hg; now right.
Qed.
End D.

Lemma state2phone_visits start_pdf (entry : nat -> nat) pf v vs :
  NoDup (map snd start_pdf) ->
  (forall p, In p (map fst start_pdf) -> In (p, entry p) start_pdf) ->
  (forall w, In w (v :: vs) -> In (v_phone w) (map fst start_pdf) /\
     forall s, In s (v_rest w) -> ~ In s (map snd start_pdf)) ->
  separated (v :: vs) ->
  state2phone (unroll entry (v :: vs)) start_pdf pf = Ok (out pf (v :: vs)).
Proof.
  intros Hinj Hentry Hg Hsep.
  assert (Hsym : forall p, In p (map fst start_pdf) ->
     dgetE (invert start_pdf) (entry p) = Ok p).
  { intros. apply dgetE_ok. apply invert_spec; auto. }
  destruct (s2p_visits (map snd start_pdf) (invert start_pdf)
    (fun p => In p (map fst start_pdf)) entry) with (pf := pf) (v := v) (vs := vs)
    as (t & E & H); auto.
  { intros p Hp. apply Hentry in Hp. now apply (in_map snd) in Hp. }
  rewrite E. unfold state2phone. rewrite Hsym by (apply Hg; now left). exact H.
Qed.

(** pdf2unit is the same loop *)
Lemma p2u_s2p starts mapping : forall path prev last,
  p2u_loop starts mapping prev path = s2p_loop starts mapping false prev last path.
Proof.
  induction path as [|s t IH]; intros prev last; [reflexivity|]. cbn [p2u_loop s2p_loop].
  destruct (negb (s =? prev) && inb s starts).
  - destruct (dgetE mapping s) as [u|]; cbn [bindr]; auto. now rewrite (IH s u).
  - rewrite (IH s last). destruct (s2p_loop _ _ _ _ _ _); reflexivity.
Qed.

(** tables read from a file listing the pdfs unit by unit *)
Definition unit_lines (us : list (nat * (nat * list nat))) : list (nat * nat) :=
  flat_map (fun u => map (fun p => (p, fst u)) (fst (snd u) :: snd (snd u))) us.

Lemma rm_loop_block unit : forall rest mapping starts tail,
  read_mapping_loop (map (fun p => (p, unit)) rest ++ tail) mapping starts (Some unit) =
  read_mapping_loop tail (fold_left (fun m p => dset m p unit) rest mapping) starts (Some unit).
Proof.
  induction rest as [|p rest IH]; intros mapping starts tail; [reflexivity|].
  cbn [map app read_mapping_loop fold_left]. rewrite Nat.eqb_refl. apply IH.
Qed.

Fixpoint adj_diff (prev : option nat) (us : list (nat * (nat * list nat))) : Prop :=
  match us with
  | [] => True
  | u :: t => match prev with Some p => p <> fst u | None => True end /\ adj_diff (Some (fst u)) t
  end.

Lemma rm_loop_units : forall us mapping starts prev, adj_diff prev us ->
  read_mapping_loop (unit_lines us) mapping starts prev =
  (fold_left (fun m l => dset m (fst l) (snd l)) (unit_lines us) mapping,
   starts ++ map (fun u => fst (snd u)) us).
Proof.
  induction us as [|[u [p rest]] us IH]; intros mapping starts prev Hadj.
  - cbn. now rewrite app_nil_r.
  - destruct Hadj as [Hp Hadj]. unfold unit_lines. cbn [flat_map map fst snd app].
    fold (unit_lines us). cbn [read_mapping_loop].
    assert ((match prev with Some v => v =? u | None => false end) = false) as ->.
    { destruct prev; auto. now apply Nat.eqb_neq. }
    rewrite rm_loop_block, IH by exact Hadj. f_equal.
    + cbn [fold_left fst snd]. rewrite fold_left_app. f_equal.
      rewrite <- (map_id rest) at 1. generalize (dset mapping p u). clear.
      induction rest; intros; cbn; auto.
    + rewrite <- app_assoc. reflexivity.
Qed.

Lemma fold_dset_get : forall lines m p u, NoDup (map fst lines) ->
  (In (p, u) lines \/ (~ In p (map fst lines) /\ dget Nat.eq_dec m p = Some u)) ->
  dget Nat.eq_dec (fold_left (fun m (l : nat * nat) => dset m (fst l) (snd l)) lines m) p = Some u.
Proof.
  induction lines as [|[a b] lines IH]; intros m p u Hn H; simpl in *.
  - destruct H as [[]|[_ H]]; auto.
  - inversion_clear Hn as [|? ? Ha Hn']. apply IH; auto.
    destruct H as [[[= -> ->]|H]|[H1 H2]].
    + right. split; auto. rewrite dget_dset. destruct (Nat.eq_dec p p); congruence.
    + now left.
    + right. split; [tauto|]. rewrite dget_dset. destruct (Nat.eq_dec p a); auto.
      exfalso. apply H1. now left.
Qed.

Lemma pdf2unit_visits us (entry : nat -> nat) v vs :
  adj_diff None us -> NoDup (map fst (unit_lines us)) ->
  (forall u, In u us -> entry (fst u) = fst (snd u)) ->
  (forall w, In w (v :: vs) -> In (v_phone w) (map fst us) /\
     forall s, In s (v_rest w) -> ~ In s (map (fun u => fst (snd u)) us)) ->
  separated (v :: vs) ->
  let (mapping, starts) := read_mapping (unit_lines us) in
  pdf2unit (unroll entry (v :: vs)) starts mapping = Ok (map v_phone (v :: vs)).
Proof.
  intros Hadj Hn Hentry Hg Hsep. unfold read_mapping. rewrite rm_loop_units by auto.
  set (mapping := fold_left _ _ _). cbn [app].
  set (starts := map (fun u => fst (snd u)) us).
  assert (Hsym : forall p, In p (map fst us) -> dgetE mapping (entry p) = Ok p).
  { intros p Hp. apply dgetE_ok. unfold mapping. apply fold_dset_get; auto. left.
    apply in_map_iff in Hp as ([u [q rest]] & <- & Hu). rewrite (Hentry _ Hu).
    unfold unit_lines. apply in_flat_map. exists (u, (q, rest)). split; auto. now left. }
  destruct (s2p_visits starts mapping (fun p => In p (map fst us)) entry)
    with (pf := false) (v := v) (vs := vs) as (t & E & H); auto.
  { intros p Hp. apply in_map_iff in Hp as (u & <- & Hu). rewrite (Hentry _ Hu).
    unfold starts. now apply (in_map (fun u => fst (snd u))) in Hu. }
  rewrite E. unfold pdf2unit. rewrite Hsym by (apply Hg; now left). cbn [bindr].
  rewrite (p2u_s2p starts mapping t _ (v_phone v)). exact H.
Qed.

(** a path that does not begin in an entry state is refused *)
Lemma invert_none d v : ~ In v (map snd d) -> dget Nat.eq_dec (invert d) v = None.
Proof.
  unfold invert.
  assert (G : forall (d acc : list (nat * nat)), ~ In v (map snd d) -> dget Nat.eq_dec acc v = None ->
    dget Nat.eq_dec (fold_left (fun acc kv => dset acc (snd kv) (fst kv)) d acc) v = None).
  { clear d. induction d as [|[a b] d IH]; intros acc Hn Ha; simpl in *; auto.
    apply IH; [tauto|]. rewrite dget_dset. destruct (Nat.eq_dec v b); auto.
    exfalso. apply Hn. now left. }
  intros. apply G; auto.
Qed.

Lemma state2phone_bad_start s t start_pdf pf : ~ In s (map snd start_pdf) ->
  state2phone (s :: t) start_pdf pf = Err KeyError.
Proof.
  intros H. unfold state2phone, dgetE. now rewrite invert_none.
Qed.

(** ** convert_states_to_phone.py *)
Section C.
Variables (ends : list nat) (phone : list (nat * nat)) (exit : nat -> nat).

Definition good_exit_visit (v : visit) : Prop :=
  In (exit (v_phone v)) ends /\ dget Nat.eq_dec phone (exit (v_phone v)) = Some (v_phone v) /\
  forall s, In s (v_rest v) -> ~ In s ends.

(** c2p over non-end states followed by something *)
Lemma c2p_rest rest : (forall s, In s rest -> ~ In s ends) -> forall s0 path,
  ~ In s0 ends ->
  forall x, c2p_loop ends phone s0 (rest ++ x :: path) = c2p_loop ends phone x path.
Proof.
  induction rest as [|s rest IH]; intros Hs s0 path H0 x.
  - cbn [app c2p_loop]. assert (inb s0 ends = false) as -> by (now apply inb_false).
    now rewrite andb_false_r.
  - cbn [app c2p_loop]. assert (inb s0 ends = false) as -> by (now apply inb_false).
    rewrite andb_false_r. apply IH; [intros; apply Hs; now right|apply Hs; now left].
Qed.

Lemma c2p_repeat s n : forall path, c2p_loop ends phone s (repeat s n ++ path) =
  c2p_loop ends phone s path.
Proof.
  induction n as [|n IH]; intros path; auto.
  cbn [repeat app c2p_loop]. rewrite Nat.eqb_refl. cbn [negb andb]. apply IH.
Qed.

Lemma c2p_visits : forall vs v,
  good_exit_visit v -> (forall w, In w vs -> good_exit_visit w) -> exit_separated (v :: vs) ->
  c2p_loop ends phone (exit (v_phone v))
    (repeat (exit (v_phone v)) (v_more v) ++ exit_unroll exit vs)
  = Ok (map v_phone (v :: vs)).
Proof.
  induction vs as [|w vs IH]; intros v (Hv1 & Hv2 & Hv3) Hvs Hsep.
  - rewrite c2p_repeat. cbn [exit_unroll flat_map c2p_loop map]. now rewrite (dgetE_ok _ _ _ Hv2).
  - rewrite c2p_repeat. unfold exit_unroll. cbn [flat_map]. fold (exit_unroll exit vs).
    unfold exit_frames. rewrite <- app_assoc. cbn [app].
    assert (Hw : good_exit_visit w) by (apply Hvs; now left).
    assert (IHw := IH w Hw (fun x H => Hvs x (or_intror H)) (proj2 Hsep)).
    destruct (v_rest w) as [|a l] eqn:El.
    + cbn [app c2p_loop].
      assert (Hne : (exit (v_phone v) =? exit (v_phone w)) = false).
      { apply Nat.eqb_neq. intros E. destruct Hsep as [[Hs|Hs] _].
        - rewrite El in Hs. congruence.
        - destruct Hw as (_ & Hw2 & _). rewrite <- E in Hw2. congruence. }
      rewrite Hne. rewrite (proj2 (inb_spec _ _) Hv1). cbn [negb andb].
      rewrite (dgetE_ok _ _ _ Hv2). cbn [bindr]. rewrite IHw. reflexivity.
    + destruct Hw as (Hw1 & Hw2 & Hw3). rewrite El in Hw3.
      cbn [app c2p_loop].
      assert (Hne : (exit (v_phone v) =? a) = false).
      { apply Nat.eqb_neq. intros E. apply (Hw3 a); [now left|]. now rewrite <- E. }
      rewrite Hne. rewrite (proj2 (inb_spec _ _) Hv1). cbn [negb andb].
      rewrite (dgetE_ok _ _ _ Hv2). cbn [bindr].
      rewrite c2p_rest; [|intros; apply Hw3; now right|apply Hw3; now left].
      rewrite IHw. reflexivity.
Qed.

Lemma convert_states_visits v vs :
  (forall w, In w (v :: vs) -> good_exit_visit w) -> exit_separated (v :: vs) ->
  convert_states (exit_unroll exit (v :: vs)) ends phone = Ok (map v_phone (v :: vs)).
Proof.
  intros Hg Hsep. unfold exit_unroll. cbn [flat_map]. fold (exit_unroll exit vs).
  unfold exit_frames. rewrite <- app_assoc. cbn [app].
  assert (Hv : good_exit_visit v) by (apply Hg; now left).
  assert (H := c2p_visits vs v Hv (fun x H => Hg x (or_intror H)) Hsep).
  destruct (v_rest v) as [|a l] eqn:El.
  - exact H.
  - cbn [app convert_states]. destruct Hv as (_ & _ & Hv3). rewrite El in Hv3.
    rewrite c2p_rest; [exact H|intros; apply Hv3; now right|apply Hv3; now left].
Qed.
End C.

(** the tables built by main *)
Lemma table_spec ids n s p :
  dget Nat.eq_dec (c2p_phone_table ids n) s = Some p <->
  In p ids /\ exists j, j < n /\ s = p * n + j.
Proof.
  unfold c2p_phone_table.
  assert (Gin : forall i n0 a acc s p, a + n0 <= n ->
    dget Nat.eq_dec (fold_left (fun acc j => dset acc (i * n + j) i) (seq a n0) acc) s = Some p <->
    (p = i /\ exists j, a <= j < a + n0 /\ s = i * n + j) \/
    ((forall j, a <= j < a + n0 -> s <> i * n + j) /\ dget Nat.eq_dec acc s = Some p)).
  { clear. intros i. induction n0 as [|n0 IH]; intros a acc s p Ha; simpl.
    - split; [intros H; right; split; auto; intros; lia|].
      intros [(_ & j & Hj & _)|[_ H]]; [lia|auto].
    - rewrite IH by lia. rewrite dget_dset. split.
      + intros [(-> & j & Hj & ->)|[Hn H]].
        * left. split; auto. exists j. split; [lia|auto].
        * destruct (Nat.eq_dec s (i * n + a)) as [->|Hs].
          -- left. injection H as <-. split; auto. exists a. split; [lia|auto].
          -- right. split; auto. intros j Hj.
             destruct (Nat.eq_dec j a) as [->|]; auto. apply Hn. lia.
      + intros [(-> & j & Hj & ->)|[Hn H]].
        * destruct (Nat.eq_dec j a) as [->|Hja].
          -- right. split; [intros; lia|]. destruct (Nat.eq_dec _ _); congruence.
          -- left. split; auto. exists j. split; [lia|auto].
        * right. split; [intros; apply Hn; lia|].
          destruct (Nat.eq_dec s (i * n + a)) as [->|]; auto. exfalso. apply (Hn a); lia. }
  assert (G : forall ids acc, 
    dget Nat.eq_dec (fold_left (fun acc i => fold_left (fun acc j => dset acc (i * n + j) i)
        (seq 0 n) acc) ids acc) s = Some p <->
    (In p ids /\ exists j, j < n /\ s = p * n + j) \/
    ((forall i j, In i ids -> j < n -> s <> i * n + j) /\ dget Nat.eq_dec acc s = Some p)).
  { clear ids. induction ids as [|i ids IH]; intros acc; simpl.
    - split; [intros H; right; split; auto; contradiction|].
      intros [[[] _]|[_ H]]; auto.
    - rewrite IH. rewrite (Gin i n 0 acc s p) by lia. split.
      + intros [(Hp & j & Hj & ->)|[Hn [(-> & j & Hj & ->)|[Hn2 H]]]].
        * left. split; auto. exists j; auto.
        * left. split; auto. exists j. split; [lia|auto].
        * right. split; auto. intros i' j [<-|Hi] Hj; [apply Hn2; lia|auto].
      + intros [([<-|Hp] & j & Hj & ->)|[Hn H]].
        * destruct (in_dec Nat.eq_dec i ids) as [Hi|Hi].
          -- left. split; auto. exists j; auto.
          -- right. split.
             ++ intros i' j' Hi' Hj' E. assert (i = i'); [|congruence].
                assert (Hd := f_equal (fun x => x / n) E). cbn beta in Hd.
                rewrite !Nat.div_add_l, !Nat.div_small in Hd by lia. lia.
             ++ left. split; auto. exists j. split; [lia|auto].
        * left. split; auto. exists j; auto.
        * right. split; [intros; apply Hn; auto|]. right. split; auto.
          intros j Hj. apply Hn; auto. lia. }
  rewrite G. split.
  - intros [H|[_ H]]; [auto|discriminate].
  - intros H. now left.
Qed.

Lemma dget_some_in {V} (d : list (nat * V)) k : In k (map fst d) <-> exists v, dget Nat.eq_dec d k = Some v.
Proof.
  induction d as [|[a b] d IH]; simpl; [split; [contradiction|intros [? [=]]]|].
  destruct (Nat.eq_dec k a) as [->|Hk].
  - split; [eauto|now left].
  - rewrite <- IH. split; [intros [<-|H]; congruence || auto|auto].
Qed.

Lemma ends_spec ids n s : 0 < n -> In s (c2p_ends ids n) <-> exists p, In p ids /\ s = p * n + (n - 1).
Proof.
  intros Hn. unfold c2p_ends. rewrite in_map_iff. split.
  - intros (i & <- & Hi). apply filter_In in Hi as [Hi Hm]. apply Nat.eqb_eq in Hm.
    apply dget_some_in in Hi as (p & Hp). apply table_spec in Hp as (Hp & j & Hj & ->).
    exists p. split; auto. rewrite Nat.add_comm, Nat.mod_add, Nat.mod_small in Hm by lia. lia.
  - intros (p & Hp & ->). exists (p * n). split; [lia|]. apply filter_In. split.
    + apply dget_some_in. exists p. apply table_spec. split; auto. exists 0. split; lia.
    + apply Nat.eqb_eq. apply Nat.mod_mul. lia.
Qed.

(** ** posteriors *)
Local Open Scope R_scope.
Lemma slice_sum (l : list R) a b : (b <= length l)%nat ->
  rsum (slice l a b) = sumf (fun s => nth s l 0) (seq a (b - a)).
Proof.
  intros H. unfold slice, sumf. f_equal.
  destruct (le_lt_dec a b) as [Hab|Hab].
  2:{ replace (b - a)%nat with 0%nat by lia. reflexivity. }
  apply nth_ext with 0 0.
  - rewrite map_length, seq_length, firstn_length, skipn_length. lia.
  - intros n Hn. rewrite firstn_length, skipn_length in Hn.
    rewrite (map_nth_lt (fun s => nth s l 0) (seq a (b - a)) n 0%nat 0) by (rewrite seq_length; lia).
    rewrite seq_nth by lia.
    rewrite <- (firstn_skipn (b - a) (skipn a l)) at 1.
    assert (E : nth n (skipn a l) 0 = nth (a + n) l 0).
    { clear. revert n. revert l. induction a as [|a IH]; intros l n; [reflexivity|].
      destruct l as [|x l]; simpl; [now destruct n|apply IH]. }
    rewrite <- E. clear E. rewrite firstn_skipn.
    rewrite <- (firstn_skipn (b - a) (skipn a l)) at 2.
    rewrite app_nth1; auto. rewrite firstn_length, skipn_length. lia.
Qed.

Lemma post2phone_ok post (start_pdf : list (nat * nat)) end_pdf (en : nat -> nat) :
  (forall us, In us start_pdf -> dget Nat.eq_dec end_pdf (fst us) = Some (en (fst us))) ->
  (forall us, In us start_pdf -> (en (fst us) <= length post)%nat) ->
  post2phone post start_pdf end_pdf =
  Ok (map (fun us => sumf (fun s => nth s post 0)
       (seq (snd us) (en (fst us) - snd us))) start_pdf).
Proof.
  unfold post2phone. induction start_pdf as [|us l IH]; intros H1 H2; [reflexivity|].
  cbn [mapM map]. rewrite (dgetE_ok _ _ _ (H1 us (or_introl eq_refl))). cbn [bindr].
  rewrite IH; [|intros; apply H1; now right|intros; apply H2; now right]. cbn [bindr].
  rewrite slice_sum by (apply H2; now left). reflexivity.
Qed.

(** ** utterance loops *)
Lemma posteriors_loop_ok have utts :
  posteriors_loop have utts = Ok (filter (fun u => inb u have) utts).
Proof.
  induction utts as [|u t IH]; simpl; auto. destruct (inb u have); rewrite IH; reflexivity.
Qed.
Lemma decode_loop_ok have utts :
  decode_loop have true utts = Ok (filter (fun u => inb u have) utts).
Proof.
  induction utts as [|u t IH]; simpl; auto. destruct (inb u have); rewrite IH; reflexivity.
Qed.
