From Coq Require Import List Arith ZArith Bool Lia Reals Lra Sorted.
From Verif Require Import Prelude Edit_Model Edit_Proofs Bnd_Model Bnd_Spec.
Import ListNotations.
Local Open Scope Z_scope.

(** ** boundaries *)
Section B.
Context {A : Type} (eq_dec : forall x y : A, {x = y} + {x <> y}).

Lemma bnd_loop_lower cur fr l : forall f, In f (bnd_loop eq_dec cur fr l) -> fr <= f.
Proof.
  revert cur fr. induction l as [|u t IH]; intros cur fr f; simpl; [contradiction|].
  destruct (eq_dec u cur).
  - intros H. apply IH in H. lia.
  - intros [<-|H]; [lia|]. apply IH in H. lia.
Qed.

Lemma bnd_loop_sorted cur fr l : StronglySorted Z.lt (bnd_loop eq_dec cur fr l).
Proof.
  revert cur fr. induction l as [|u t IH]; intros cur fr; simpl; [constructor|].
  destruct (eq_dec u cur); auto. constructor; auto.
  apply Forall_forall. intros f Hf. apply bnd_loop_lower in Hf. lia.
Qed.

Lemma bnd_loop_spec cur fr l f :
  In f (bnd_loop eq_dec cur fr l) <->
  exists a b x y, cur :: l = a ++ x :: y :: b /\ x <> y /\ f = Z.of_nat (length a) + fr.
Proof.
  revert cur fr f. induction l as [|u t IH]; intros cur fr f; simpl.
  - split; [contradiction|]. intros (a & b & x & y & E & _).
    destruct a as [|? [|? a]]; discriminate.
  - destruct (eq_dec u cur) as [->|Hu].
    + rewrite IH. split; intros (a & b & x & y & E & Hxy & Hf).
      * exists (cur :: a), b, x, y. cbn [app length]. rewrite E. repeat split; auto. lia.
      * destruct a as [|c a]; simpl in E.
        -- injection E as <- <- _. contradiction.
        -- injection E as <- E. exists a, b, x, y. repeat split; auto. cbn [length] in Hf. lia.
    + simpl. rewrite IH. split.
      * intros [<-|(a & b & x & y & E & Hxy & Hf)].
        -- exists [], t, cur, u. repeat split; auto.
        -- exists (cur :: a), b, x, y. cbn [app length]. rewrite E. repeat split; auto. lia.
      * intros (a & b & x & y & E & Hxy & Hf). destruct a as [|c a]; simpl in E.
        -- left. cbn [length] in Hf. lia.
        -- right. injection E as <- E. exists a, b, x, y. repeat split; auto. cbn [length] in Hf. lia.
Qed.

Lemma boundaries_spec l bs : boundaries eq_dec l = Ok bs ->
  StronglySorted Z.lt bs /\ forall f, In f bs <-> change_at l f.
Proof.
  destruct l as [|u t]; [discriminate|]. simpl. intros [= <-].
  split; [apply bnd_loop_sorted|]. intros f. apply bnd_loop_spec.
Qed.

Lemma bnd_loop_upper cur fr l f :
  In f (bnd_loop eq_dec cur fr l) -> f < fr + Z.of_nat (length l).
Proof.
  intros H. apply bnd_loop_spec in H as (a & b & x & y & E & _ & ->).
  apply (f_equal (@length A)) in E. rewrite app_length in E. simpl in E. lia.
Qed.
End B.

(** ** argmin *)
Lemma argmin_from_spec l : forall i best bi m k,
  argmin_from i best bi l = (m, k) ->
  m <= best /\ (forall x, In x l -> m <= x) /\
  ((m = best /\ k = bi) \/
   exists j, k = (i + j)%nat /\ nth_error l j = Some m).
Proof.
  induction l as [|x l IH]; intros i best bi m k H; simpl in H.
  - injection H as <- <-. split; [lia|]. split; [contradiction|now left].
  - destruct (x <? best) eqn:E.
    + apply IH in H as (H1 & H2 & H3). apply Z.ltb_lt in E. split; [lia|]. split.
      * intros y [<-|Hy]; auto.
      * right. destruct H3 as [[-> ->]|(j & -> & Hj)].
        -- exists 0%nat. split; [lia|reflexivity].
        -- exists (S j). split; [lia|exact Hj].
    + apply IH in H as (H1 & H2 & H3). apply Z.ltb_ge in E. split; [lia|]. split.
      * intros y [<-|Hy]; auto. lia.
      * destruct H3 as [H3|(j & -> & Hj)]; [now left|].
        right. exists (S j). split; [lia|exact Hj].
Qed.

Lemma argmin_spec l m k : argmin l = Ok (m, k) ->
  nth_error l k = Some m /\ forall x, In x l -> m <= x.
Proof.
  destruct l as [|x l]; [discriminate|]. simpl. intros [= H].
  apply argmin_from_spec in H as (H1 & H2 & H3). split.
  - destruct H3 as [[-> ->]|(j & -> & Hj)]; [reflexivity|exact Hj].
  - intros y [<-|Hy]; auto.
Qed.

Lemma argmin_total x l : exists m k, argmin (x :: l) = Ok (m, k).
Proof. simpl. destruct (argmin_from 1 x 0 l) as [m k]. eauto. Qed.

Lemma lset_length {B} (l : list B) i v : length (lset l i v) = length l.
Proof. revert i. induction l; intros [|i]; simpl; auto. Qed.

Lemma lset_nth {B} (l : list B) i v j :
  nth_error (lset l i v) j =
  if Nat.eq_dec j i then (match nth_error l i with Some _ => Some v | None => None end)
  else nth_error l j.
Proof.
  revert i j. induction l as [|x l IH]; intros [|i] [|j]; simpl; auto;
    try (destruct (Nat.eq_dec _ _); auto; fail).
  rewrite IH. destruct (Nat.eq_dec j i), (Nat.eq_dec (S j) (S i)); auto; lia.
Qed.

(** ** get_hits *)
Section H.
Variables (ref : list Z) (delta : Z).

(** loop invariant after the hypothesis prefix [done] *)
Record hinv (done : list Z) (hits : nat) (ref' : list Z) (M : list (nat * nat)) : Prop := {
  i_len : length ref' = length ref;
  i_hits : length M = hits;
  i_match : matching ref done delta M;
  i_max : maximal ref done delta M;
  i_ref : forall i, nth_error ref' i =
            match nth_error ref i with
            | Some r => Some (if in_dec Nat.eq_dec i (map fst M) then sentinel else r)
            | None => None
            end }.

Lemma hinv_nil : hinv [] 0 ref [].
Proof.
  split; auto.
  - split; simpl; try constructor. contradiction.
  - intros i j r h _ H. destruct j; discriminate.
  - intros i. destruct (nth_error ref i); auto.
Qed.

Lemma nth_error_snoc {B} (l : list B) x j y :
  nth_error (l ++ [x]) j = Some y ->
  nth_error l j = Some y \/ (j = length l /\ y = x).
Proof.
  intros H. destruct (lt_dec j (length l)).
  - rewrite nth_error_app1 in H by auto. now left.
  - rewrite nth_error_app2 in H by lia. right.
    destruct (j - length l)%nat as [|k] eqn:E.
    + simpl in H. injection H as ->. split; auto. lia.
    + simpl in H. destruct k; discriminate.
Qed.

Lemma hinv_step done hits ref' M b :
  hinv done hits ref' M -> ref <> [] -> delta < Z.abs (b - sentinel) ->
  exists hits' ref'' M', hit_step delta (hits, ref') b = Ok (hits', ref'') /\
    hinv (done ++ [b]) hits' ref'' M'.
Proof.
  intros [Hlen Hh Hm Hx Hr] Hne Hb. unfold hit_step.
  assert (Hne' : map (fun r => Z.abs (b - r)) ref' <> []).
  { destruct ref'; [destruct ref; [congruence|discriminate]|discriminate]. }
  destruct (argmin (map (fun r => Z.abs (b - r)) ref')) as [[m k]|e] eqn:E.
  2:{ destruct (map (fun r => Z.abs (b - r)) ref') as [|z zs]; [congruence|].
      destruct (argmin_total z zs) as (? & ? & E'). congruence. }
  apply argmin_spec in E as [Ek Emin]. cbn [bindr fst snd].
  rewrite nth_error_map in Ek. destruct (nth_error ref' k) as [rk|] eqn:Erk; [|discriminate].
  simpl in Ek. injection Ek as Em. rewrite Hr in Erk.
  destruct (nth_error ref k) as [r|] eqn:Er; [|discriminate]. injection Erk as Erk.
  assert (Hd : forall i r, nth_error ref i = Some r -> ~ In i (map fst M) -> m <= Z.abs (b - r)).
  { intros i r' Hi Hn. apply Emin. apply in_map_iff. exists r'. split; auto.
    apply (nth_error_In ref' i). rewrite Hr, Hi. destruct (in_dec Nat.eq_dec i (map fst M)); [contradiction|auto]. }
  destruct (m <=? delta) eqn:Ed.
  - apply Z.leb_le in Ed.
    assert (Hk : ~ In k (map fst M)).
    { intros Hin. destruct (in_dec Nat.eq_dec k (map fst M)); [|contradiction].
      subst rk. lia. }
    destruct (in_dec Nat.eq_dec k (map fst M)); [contradiction|]. subst rk.
    exists (S hits), (lset ref' k sentinel), ((k, length done) :: M).
    split; [reflexivity|]. split.
    + rewrite lset_length; auto.
    + simpl; lia.
    + destruct Hm as [H1 H2 H3]. split; simpl.
      * constructor; auto.
      * constructor; auto. intros Hin. apply in_map_iff in Hin as ([i j] & Ej & Hin).
        simpl in Ej. subst j. apply H3 in Hin as (? & ? & _ & Hn & _).
        assert (length done < length done)%nat; [|lia].
        apply nth_error_Some. congruence.
      * intros i j [[= <- <-]|Hin].
        -- exists r, b. repeat split; auto; [|lia].
           rewrite nth_error_app2, Nat.sub_diag by lia. reflexivity.
        -- apply H3 in Hin as (r0 & h0 & E1 & E2 & E3). exists r0, h0. repeat split; auto.
           rewrite nth_error_app1; auto. apply nth_error_Some. congruence.
    + intros i j r0 h0 E1 E2 E3. simpl. apply nth_error_snoc in E2 as [E2|[-> ->]].
      * destruct (Hx i j r0 h0 E1 E2 E3); auto.
      * right. now left.
    + intros i. rewrite lset_nth, (Hr i), (Hr k), Er. simpl map.
      destruct (Nat.eq_dec i k) as [->|Hik].
      * rewrite Er. destruct (in_dec Nat.eq_dec k (k :: map fst M)); auto. exfalso; apply n0; now left.
      * destruct (nth_error ref i); auto. f_equal.
        destruct (in_dec Nat.eq_dec i (map fst M)), (in_dec Nat.eq_dec i (k :: map fst M)); auto.
        -- exfalso. apply n0. now right.
        -- exfalso. destruct i0; [congruence|contradiction].
  - apply Z.leb_gt in Ed.
    exists hits, ref', M. split; [reflexivity|]. split; auto.
    + destruct Hm as [H1 H2 H3]. split; auto.
      intros i j Hin. apply H3 in Hin as (r0 & h0 & E1 & E2 & E3). exists r0, h0. repeat split; auto.
      rewrite nth_error_app1; auto. apply nth_error_Some. congruence.
    + intros i j r0 h0 E1 E2 E3. apply nth_error_snoc in E2 as [E2|[-> ->]].
      * eapply Hx; eauto.
      * left. destruct (in_dec Nat.eq_dec i (map fst M)); auto.
        specialize (Hd i r0 E1 n). lia.
Qed.

Lemma foldM_hits hyp : ref <> [] ->
  (forall b, In b hyp -> delta < Z.abs (b - sentinel)) ->
  forall done hits ref' M, hinv done hits ref' M ->
  exists hits' ref'' M', foldM (hit_step delta) hyp (hits, ref') = Ok (hits', ref'') /\
    hinv (done ++ hyp) hits' ref'' M'.
Proof.
  intros Hne. induction hyp as [|b hyp IH]; intros Hb done hits ref' M Hi; cbn [foldM].
  - exists hits, ref', M. rewrite app_nil_r. auto.
  - destruct (hinv_step _ _ _ _ b Hi Hne) as (h1 & r1 & M1 & E1 & Hi1).
    { apply Hb; now left. }
    rewrite E1. cbn [bindr]. destruct (IH (fun b H => Hb b (or_intror H)) _ _ _ _ Hi1)
      as (h2 & r2 & M2 & E2 & Hi2).
    exists h2, r2, M2. rewrite <- app_assoc in Hi2. auto.
Qed.
End H.

Lemma get_hits_matching ref hyp delta : ref <> [] \/ hyp = [] ->
  (forall b, In b hyp -> delta < Z.abs (b - sentinel)) ->
  exists M, get_hits ref hyp delta = Ok (length M) /\
    matching ref hyp delta M /\ maximal ref hyp delta M.
Proof.
  intros Hne Hb. unfold get_hits.
  assert (ref <> [] \/ (ref = [] /\ hyp = [])) as [Hn|[-> ->]].
  { destruct ref; [right|left; discriminate]. destruct Hne; [congruence|auto]. }
  - destruct (foldM_hits ref delta hyp Hn Hb [] 0 ref [] (hinv_nil ref delta))
      as (h & r & M & -> & Hi). destruct Hi. exists M. simpl. rewrite i_hits0. auto.
  - exists []. split; [reflexivity|]. split.
    + split; simpl; try constructor. contradiction.
    + intros i j r h H. destruct i; discriminate.
Qed.

Lemma get_hits_empty_ref b hyp delta : get_hits [] (b :: hyp) delta = Err ValueError.
Proof. reflexivity. Qed.

Lemma matching_bounds ref hyp delta M : matching ref hyp delta M ->
  (length M <= length ref /\ length M <= length hyp)%nat.
Proof.
  intros [H1 H2 H3]. split.
  - rewrite <- (map_length fst M), <- (seq_length (length ref) 0).
    apply NoDup_incl_length; auto. intros i Hi. apply in_map_iff in Hi as ([i' j] & <- & Hin).
    apply H3 in Hin as (r & h & E & _). apply in_seq. simpl.
    assert (i' < length ref)%nat; [|lia]. apply nth_error_Some. congruence.
  - rewrite <- (map_length snd M), <- (seq_length (length hyp) 0).
    apply NoDup_incl_length; auto. intros j Hi. apply in_map_iff in Hi as ([i' j'] & <- & Hin).
    apply H3 in Hin as (r & h & _ & E & _). apply in_seq. simpl.
    assert (j' < length hyp)%nat; [|lia]. apply nth_error_Some. congruence.
Qed.

(** ** whole program *)
Section Main.
Context {A : Type} (eq_dec : forall x y : A, {x = y} + {x <> y}).

Lemma score_utt_bounds delta hyp acc u h n r :
  (forall k t, In (k, t) hyp -> Z.of_nat (length t) + Z.abs delta < sentinel) ->
  score_utt eq_dec get_hits delta hyp acc u = Ok (h, n, r) ->
  let '(h0, n0, r0) := acc in
  (h0 <= n0 -> h <= n)%nat /\ (h0 <= r0 -> h <= r)%nat.
Proof.
  intros Hlen. unfold score_utt. destruct acc as [[h0 n0] r0].
  destruct (boundaries eq_dec (snd u)) as [rb|] eqn:Eb; [|discriminate]. cbn [bindr].
  destruct (dget Nat.eq_dec hyp (fst u)) as [t|] eqn:Ed; [|discriminate].
  destruct (boundaries eq_dec t) as [hb|] eqn:Eh; [|discriminate]. cbn [bindr].
  assert (Hh : forall b, In b hb -> delta < Z.abs (b - sentinel)).
  { intros b Hb. apply dget_in in Ed. apply Hlen in Ed.
    destruct t as [|x t]; [discriminate|]. simpl in Eh. injection Eh as <-.
    pose proof (bnd_loop_lower _ _ _ _ _ Hb). apply bnd_loop_upper in Hb.
    simpl length in Ed. lia. }
  destruct (list_eq_dec Z.eq_dec rb []) as [->|Hne];
    [destruct hb as [|b hb]|].
  - intros [= <- <- <-]. split; lia.
  - rewrite get_hits_empty_ref. discriminate.
  - destruct (get_hits_matching rb hb delta) as (M & -> & Hm & _); auto.
    apply matching_bounds in Hm. cbn [bindr]. intros [= <- <- <-]. split; lia.
Qed.

Lemma counts_bounds delta ref hyp h n r :
  (forall k t, In (k, t) hyp -> Z.of_nat (length t) + Z.abs delta < sentinel) ->
  counts eq_dec get_hits delta ref hyp = Ok (h, n, r) -> (h <= n /\ h <= r)%nat.
Proof.
  intros Hlen. unfold counts.
  assert (G : forall ref acc h n r,
    foldM (score_utt eq_dec get_hits delta hyp) ref acc = Ok (h, n, r) ->
    let '(h0, n0, r0) := acc in
    (h0 <= n0 -> h <= n)%nat /\ (h0 <= r0 -> h <= r)%nat).
  { clear ref h n r. induction ref as [|u ref IH]; intros [[h0 n0] r0] h n r; cbn [foldM].
    - intros [= <- <- <-]. auto.
    - destruct (score_utt eq_dec get_hits delta hyp (h0, n0, r0) u) as [[[h1 n1] r1]|] eqn:E;
        [|discriminate]. simpl. intros H. apply IH in H.
      apply (score_utt_bounds _ _ _ _ _ _ _ Hlen) in E. cbn iota beta in E, H.
      destruct E, H. split; intros; auto. }
  intros H. apply G in H. cbn iota beta in H. destruct H. split; auto.
Qed.
End Main.

Local Open Scope R_scope.
Lemma ratio_unit h n : (h <= n)%nat -> (0 < n)%nat -> 0 <= INR h / INR n <= 1.
Proof.
  intros H1 H2. apply le_INR in H1. apply lt_0_INR in H2. pose proof (pos_INR h). split.
  - apply Rmult_le_pos; auto. left. now apply Rinv_0_lt_compat.
  - apply Rmult_le_reg_r with (INR n); auto. unfold Rdiv. rewrite Rmult_assoc, Rinv_l by lra. lra.
Qed.

Lemma fscore_unit p r : 0 <= p <= 1 -> 0 <= r <= 1 -> 0 < r + p ->
  0 <= 2 * (p * r) / (p + r) <= 1.
Proof.
  intros Hp Hr Hs. split.
  - apply Rmult_le_pos; [|left; apply Rinv_0_lt_compat; lra].
    assert (0 <= p * r) by (apply Rmult_le_pos; lra). lra.
  - apply Rmult_le_reg_r with (p + r); [lra|]. unfold Rdiv.
    rewrite Rmult_assoc, Rinv_l by lra. nra.
Qed.

Lemma rates_unit h n r : (h <= n)%nat -> (h <= r)%nat ->
  let '(rec, prec, f) := rates (h, n, r) in
  0 <= rec <= 1 /\ 0 <= prec <= 1 /\ 0 <= f <= 1.
Proof.
  intros H1 H2. unfold rates.
  assert (Hrec : 0 <= (if (0 <? n)%nat then INR h / INR n else 0) <= 1).
  { destruct (0 <? n)%nat eqn:E; [|lra]. apply Nat.ltb_lt in E. now apply ratio_unit. }
  assert (Hpr : 0 <= (if (0 <? r)%nat then INR h / INR r else 0) <= 1).
  { destruct (0 <? r)%nat eqn:E; [|lra]. apply Nat.ltb_lt in E. now apply ratio_unit. }
  repeat split; try apply Hrec; try apply Hpr;
  destruct (Rlt_dec 0 _) as [Hs|Hs]; try lra; now apply fscore_unit.
Qed.

Local Open Scope Z_scope.
(** ** score_boundaries2 *)
Lemma hit_step2_bound hyp delta : forall ks st h r,
  foldM (hit_step2 hyp delta) ks st = Ok (h, r) -> (h <= fst st + length ks)%nat.
Proof.
  induction ks as [|k ks IH]; intros [h0 r0] h r; simpl.
  - intros [= <- <-]. simpl. lia.
  - destruct (lget r0 k) as [b|]; [|discriminate]. cbn [bindr].
    destruct (argmin _) as [mi|]; [|discriminate]. cbn [bindr].
    destruct (fst mi <=? delta).
    + destruct (snd mi <? length r0)%nat; [|discriminate]. cbn [bindr].
      intros H. apply IH in H. simpl in *. lia.
    + cbn [bindr]. intros H. apply IH in H. simpl in *. lia.
Qed.

Lemma get_hits2_recall ref hyp delta n : get_hits2 ref hyp delta = Ok n ->
  (n <= length ref)%nat.
Proof.
  unfold get_hits2. destruct (foldM _ _ _) as [[h r]|] eqn:E; [|discriminate].
  simpl. intros [= <-]. apply hit_step2_bound in E. rewrite seq_length in E. exact E.
Qed.

(** ** out-of-vocabulary symbols *)
(** invariant of one call of map_trans: counter above every Oov used, lookups injective
    on unmapped tokens *)
Definition oov_ok (m0 m : list (nat * sym)) (i : nat) : Prop :=
  (forall t, dget Nat.eq_dec m0 t <> None -> dget Nat.eq_dec m t = dget Nat.eq_dec m0 t) /\
  (forall t s, dget Nat.eq_dec m0 t = None -> dget Nat.eq_dec m t = Some s ->
     exists j, s = Oov j /\ (j < i)%nat) /\
  (forall t t', dget Nat.eq_dec m0 t = None -> dget Nat.eq_dec m0 t' = None ->
     dget Nat.eq_dec m t <> None -> dget Nat.eq_dec m t = dget Nat.eq_dec m t' -> t = t').

Lemma oov_ok_init m0 : oov_ok m0 m0 1.
Proof. split; [|split]; auto; intros; congruence. Qed.

Lemma map_token_ok m0 m i t m' i' s :
  oov_ok m0 m i -> map_token (m, i) t = ((m', i'), s) ->
  oov_ok m0 m' i' /\ dget Nat.eq_dec m' t = Some s /\
  (forall t' s', dget Nat.eq_dec m t' = Some s' -> dget Nat.eq_dec m' t' = Some s').
Proof.
  intros (H1 & H2 & H3) E. unfold map_token in E.
  destruct (dget Nat.eq_dec m t) as [s0|] eqn:Et.
  - injection E as <- <- <-. repeat split; auto.
  - injection E as <- <- <-. simpl. repeat split.
    + intros t' Ht'. simpl. destruct (Nat.eq_dec t' t) as [->|]; auto.
      exfalso. specialize (H1 _ Ht'). congruence.
    + intros t' s' Ht' Hs'. simpl in Hs'. destruct (Nat.eq_dec t' t) as [->|].
      * injection Hs' as <-. exists i. split; auto.
      * destruct (H2 _ _ Ht' Hs') as (j & -> & Hj). exists j. split; auto.
    + intros t1 t2 Hn1 Hn2 Hs He. simpl in *.
      destruct (Nat.eq_dec t1 t) as [->|Ht1], (Nat.eq_dec t2 t) as [->|Ht2]; auto.
      * symmetry in He. destruct (H2 _ _ Hn2 He) as (j & Ej & Hj). injection Ej as ->. lia.
      * destruct (H2 _ _ Hn1 He) as (j & Ej & Hj). injection Ej as ->. lia.
    + now destruct (Nat.eq_dec t t).
    + intros t' s' Ht'. simpl. destruct (Nat.eq_dec t' t) as [->|]; auto. congruence.
Qed.

Lemma map_utt_ok m0 : forall l m i m' i' ys,
  oov_ok m0 m i -> map_utt (m, i) l = ((m', i'), ys) ->
  oov_ok m0 m' i' /\ Forall2 (fun t s => dget Nat.eq_dec m' t = Some s) l ys /\
  (forall t' s', dget Nat.eq_dec m t' = Some s' -> dget Nat.eq_dec m' t' = Some s').
Proof.
  induction l as [|t l IH]; intros m i m' i' ys Hok E; cbn [map_utt] in E.
  - injection E as <- <- <-. repeat split; try apply Hok; auto.
  - destruct (map_token (m, i) t) as [[m1 i1] s] eqn:E1.
    destruct (map_utt (m1, i1) l) as [[m2 i2] ys2] eqn:E2. injection E as <- <- <-.
    destruct (map_token_ok _ _ _ _ _ _ _ Hok E1) as (Hok1 & Hs & Hp1).
    destruct (IH _ _ _ _ _ Hok1 E2) as (Hok2 & Hf & Hp2).
    split; [exact Hok2|]. split; [constructor; auto|]. auto.
Qed.

Lemma map_utts_ok m0 : forall l m i m' i' out,
  oov_ok m0 m i -> map_utts (m, i) l = ((m', i'), out) ->
  oov_ok m0 m' i' /\
  Forall2 (fun a b => fst a = fst b /\
     Forall2 (fun t s => dget Nat.eq_dec m' t = Some s) (snd a) (snd b)) l out /\
  (forall t' s', dget Nat.eq_dec m t' = Some s' -> dget Nat.eq_dec m' t' = Some s').
Proof.
  induction l as [|[u x] l IH]; intros m i m' i' out Hok E; cbn [map_utts] in E.
  - injection E as <- <- <-. repeat split; try apply Hok; auto.
  - destruct (map_utt (m, i) x) as [[m1 i1] y] eqn:E1.
    destruct (map_utts (m1, i1) l) as [[m2 i2] ys2] eqn:E2. injection E as <- <- <-.
    destruct (map_utt_ok _ _ _ _ _ _ _ Hok E1) as (Hok1 & Hs & Hp1).
    destruct (IH _ _ _ _ _ Hok1 E2) as (Hok2 & Hf & Hp2).
    split; [exact Hok2|]. split; [|auto]. constructor; auto. simpl. split; auto.
    clear -Hs Hp2. induction Hs; constructor; auto.
Qed.

(** a maximal matching has at least half the size of any matching *)
Lemma filter_split {B} (p : B -> bool) l :
  length l = (length (filter p l) + length (filter (fun x => negb (p x)) l))%nat.
Proof. induction l as [|x l IH]; simpl; auto. destruct (p x); simpl; lia. Qed.

Lemma NoDup_map_filter' {B C} (f : B -> C) p l : NoDup (map f l) -> NoDup (map f (filter p l)).
Proof.
  induction l as [|x l IH]; simpl; auto. intros H. inversion_clear H as [|? ? Hn H'].
  destruct (p x); simpl; auto. constructor; auto. intros Hin. apply Hn.
  apply in_map_iff in Hin as (y & <- & Hy). apply filter_In in Hy as [Hy _]. now apply in_map.
Qed.

Lemma maximal_half ref hyp delta M M' :
  maximal ref hyp delta M -> matching ref hyp delta M' ->
  (length M' <= 2 * length M)%nat.
Proof.
  intros Hx [H1 H2 H3].
  set (p := fun x : nat * nat => if in_dec Nat.eq_dec (fst x) (map fst M) then true else false).
  rewrite (filter_split p M').
  assert (length (filter p M') <= length M)%nat.
  { rewrite <- (map_length fst (filter p M')), <- (map_length fst M).
    apply NoDup_incl_length; [now apply NoDup_map_filter'|].
    intros i Hi. apply in_map_iff in Hi as (x & <- & Hx'). apply filter_In in Hx' as [_ Hp].
    unfold p in Hp. destruct (in_dec _ _ _); [auto|discriminate]. }
  assert (length (filter (fun x => negb (p x)) M') <= length M)%nat.
  { rewrite <- (map_length snd (filter _ M')), <- (map_length snd M).
    apply NoDup_incl_length; [now apply NoDup_map_filter'|].
    intros j Hj. apply in_map_iff in Hj as ([i j'] & <- & Hx'). apply filter_In in Hx' as [Hin Hp].
    apply H3 in Hin as (r & h & E1 & E2 & E3). simpl.
    destruct (Hx _ _ _ _ E1 E2 E3) as [Hi|Hj]; auto.
    unfold p in Hp. simpl in Hp. destruct (in_dec _ _ _); [discriminate|contradiction]. }
  lia.
Qed.
