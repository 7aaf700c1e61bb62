(** Invariant of the subspace recipe. *)
From Coq Require Import List Arith Lia.
From Verif Require Import Ep_Model Ep_Proofs Ss_Model Ss_Spec.
Import ListNotations.
Local Open Scope nat_scope.

Section Inv.
  Context {M G P A T V : Type}.
  Variable acc : M -> A.
  Variable upd : option T -> M -> A -> option (M * T).
  Variable upd' : M -> A -> option M.
  Variable train : nat -> nat -> option V -> G -> P -> M -> option (G * P * M * V).
  Variables (n ge sm : nat).
  Variables (m0 : M) (g0 : G) (q0 : P).
  Hypothesis Hupd : forall t m a, option_map fst (upd t m a) = upd' m a.

  Notation budget := (fun e => if e =? n then sm else ge).
  Notation idl := (ideal acc upd' train budget m0 g0 q0).
  Notation stp := (micro acc upd train n ge sm).
  Notation dir := (sdir M G P A T V).
  Variable xn : epoch M G P V.
  Hypothesis Hn : idl n = Some xn.

  Lemma ideal_le i : i <= n -> exists x, idl i = Some x.
  Proof.
    intros H. assert (K : forall d j, idl (d + j) <> None -> idl j <> None).
    { induction d as [|d IH]; intros j; [auto|]. change (S d + j) with (S (d + j)). cbn [ideal].
      destruct (idl (d + j)) as [x|] eqn:E; [|congruence]. intros _. apply IH. congruence. }
    specialize (K (n - i) i). replace (n - i + i) with n in K by lia. rewrite Hn in K.
    destruct (idl i) as [x|]; [now exists x|]. exfalso. apply K; congruence.
  Qed.

  Definition stored (s : dir) (i : nat) (x : epoch M G P V) : Prop :=
    getn (mdls s) i = Some (ep_m x) /\ getn (gsms s) i = Some (ep_g x) /\ getn (posts s) i = Some (ep_q x).

  Record base (last : nat) (s : dir) : Prop := {
    b_le : last <= n;
    b_get : exists x, idl last = Some x /\ stored s last x /\ (last < n -> gost s = ep_v x);
    b_in : In last (map fst (mdls s));
    b_keys : forall k, In k (map fst (mdls s)) -> k <= last;
    b_final : final s = None
  }.

  Definition finished (s : dir) : Prop :=
    final s = Some (ep_m xn) /\ gfinal s = Some (ep_g xn) /\ pfinal s = Some (ep_q xn).

  Definition inv (ps : pc M P T V * dir) : Prop :=
    let s := snd ps in
    match fst ps with
    | PAcc l e => e = S l /\ e <= n /\ base l s
    | PUpd l e => e = S l /\ e <= n /\ base l s /\ exists x, idl l = Some x /\ getn (stats s) e = Some (acc (ep_m x))
    | PSaveO l e _ | PGsm l e => e = S l /\ e <= n /\ base l s /\ exists x, idl l = Some x /\ tmp s = upd' (ep_m x) (acc (ep_m x))
    | PPosts e q m t => exists l, e = S l /\ e <= n /\ base l s /\ exists g, idl e = Some (Epoch m g q (Some t)) /\ getn (gsms s) e = Some g
    | PMdl e m t => exists l, e = S l /\ e <= n /\ base l s /\ exists g q, idl e = Some (Epoch m g q (Some t)) /\ getn (gsms s) e = Some g /\ getn (posts s) e = Some q
    | PGSave e t => e <= n /\ (exists m g q, idl e = Some (Epoch m g q (Some t)) /\ stored s e (Epoch m g q (Some t))) /\
                    In e (map fst (mdls s)) /\ (forall k, In k (map fst (mdls s)) -> k <= e) /\ final s = None
    | PFin1 l => l = n /\ base n s
    | PFin2 l => l = n /\ stored s n xn /\ final s = Some (ep_m xn)
    | PFin3 l => l = n /\ stored s n xn /\ final s = Some (ep_m xn) /\ gfinal s = Some (ep_g xn)
    | PDone b => b = true /\ finished s
    end.

  Lemma inv_head l s : base l s -> inv (head n l, s).
  Proof.
    intros H. unfold head. destruct (Nat.leb_spec (S l) n); cbn [inv fst snd]; [auto|].
    assert (l = n) as -> by (destruct H; lia). auto.
  Qed.

  Lemma stored_base s : base n s -> stored s n xn.
  Proof. intros [_ [x [E [H _]]] _ _ _]. congruence. Qed.

  Lemma inv_micro ps : inv ps -> inv (stp ps).
  Proof.
    destruct ps as [p s]. destruct p as [l e|l e|l e t|l e|e q m t|e m t|e t|l|l|l|b]; cbn [inv fst snd micro].
    - intros (-> & Hl & HB). split; [reflexivity|]. split; [exact Hl|].
      destruct HB as [B1 [x [E [[S1 [S2 S3]] B2]]] B3 B4 B5]. rewrite S1. split.
      + constructor; cbn [set_stats mdls final]; auto. exists x. split; [exact E|]. split; [repeat split; assumption|exact B2].
      + exists x. split; [exact E|]. cbn [set_stats stats]. rewrite getn_putn, Nat.eqb_refl. reflexivity.
    - intros (-> & Hl & HB & x & E & Hs).
      assert (HB' := HB). destruct HB' as [B1 [x' [E' [[S1 [S2 S3]] B2]]] B3 B4 B5].
      assert (x' = x) by congruence. subst x'. rewrite S1, Hs.
      destruct (ideal_le (S l) Hl) as [y Ey]. cbn [ideal] in Ey. rewrite E in Ey.
      assert (U := Hupd (ost s) (ep_m x) (acc (ep_m x))).
      destruct (upd (ost s) (ep_m x) (acc (ep_m x))) as [[m' t]|]; cbn [option_map fst] in U;
        rewrite <- U in Ey; [|congruence].
      cbn [inv fst snd]. split; [reflexivity|]. split; [exact Hl|]. split.
      + constructor; cbn [set_tmp mdls final]; auto. exists x. split; [exact E|]. split; [repeat split; assumption|exact B2].
      + exists x. split; [exact E|]. cbn [set_tmp tmp]. now rewrite <- U.
    - intros (-> & Hl & HB & x & E & Hs). split; [reflexivity|]. split; [exact Hl|]. split.
      + destruct HB as [B1 [x' [E' [[S1 [S2 S3]] B2]]] B3 B4 B5].
        constructor; cbn [set_ost mdls final]; auto. exists x'. split; [exact E'|]. split; [repeat split; assumption|exact B2].
      + exists x. auto.
    - intros (-> & Hl & HB & x & E & Hs).
      assert (HB' := HB). destruct HB' as [B1 [x' [E' [[S1 [S2 S3]] B2]]] B3 B4 B5].
      assert (x' = x) by congruence. subst x'. rewrite S2, S3, Hs.
      destruct (ideal_le (S l) Hl) as [y Ey]. assert (Ey' := Ey). cbn [ideal] in Ey. rewrite E in Ey.
      destruct (upd' (ep_m x) (acc (ep_m x))) as [m1|]; [|congruence].
      rewrite B2 by lia. change (train_epochs n ge sm (S l)) with (if S l =? n then sm else ge).
      destruct (train (S l) (if S l =? n then sm else ge) (ep_v x) (ep_g x) (ep_q x) m1) as [[[[g' q'] m'] t]|]; [|congruence].
      cbn [inv fst snd]. exists l. split; [reflexivity|]. split; [exact Hl|]. split.
      + constructor; cbn [set_gsms mdls final]; auto. exists x. split; [exact E|]. split; [|exact B2].
        split; [exact S1|]. split; [|exact S3]. cbn [set_gsms gsms]. rewrite getn_putn.
        destruct (Nat.eqb_spec (S l) l); [lia|exact S2].
      + exists g'. split; [congruence|]. cbn [set_gsms gsms]. now rewrite getn_putn, Nat.eqb_refl.
    - intros (l & -> & Hl & HB & g & E & Hg). exists l. split; [reflexivity|]. split; [exact Hl|]. split.
      + destruct HB as [B1 [x' [E' [[S1 [S2 S3]] B2]]] B3 B4 B5].
        constructor; cbn [set_posts mdls final]; auto. exists x'. split; [exact E'|]. split; [|exact B2].
        split; [exact S1|]. split; [exact S2|]. cbn [set_posts posts]. rewrite getn_putn.
        destruct (Nat.eqb_spec (S l) l); [lia|exact S3].
      + exists g, q. split; [exact E|]. split; [exact Hg|]. cbn [set_posts posts]. now rewrite getn_putn, Nat.eqb_refl.
    - intros (l & -> & Hl & HB & g & q & E & Hg & Hq). destruct HB as [B1 _ B3 B4 B5].
      split; [exact Hl|]. split; [|split; [|split]].
      + exists m, g, q. split; [exact E|]. split; [|split; assumption]. cbn [set_mdls mdls]. now rewrite getn_putn, Nat.eqb_refl.
      + cbn [set_mdls mdls]. apply putn_keys. auto.
      + cbn [set_mdls mdls]. intros k Hk. apply putn_keys in Hk. destruct Hk as [->|Hk]; [lia|]. specialize (B4 k Hk). lia.
      + exact B5.
    - intros (Hl & (m & g & q & E & HS) & H1 & H2 & H3). apply inv_head. constructor; cbn [set_gost mdls final]; auto.
      exists (Epoch m g q (Some t)). split; [exact E|]. split; [exact HS|]. reflexivity.
    - intros (-> & HB). assert (HS := stored_base s HB). assert (HS' := HS). destruct HS as [S1 _]. rewrite S1.
      split; [reflexivity|]. split; [exact HS'|reflexivity].
    - intros (-> & HS & HF). assert (HS' := HS). destruct HS as [_ [S2 _]]. rewrite S2.
      split; [reflexivity|]. split; [exact HS'|]. split; [exact HF|reflexivity].
    - intros (-> & HS & HF & HG). destruct HS as [_ [_ S3]]. rewrite S3.
      split; [reflexivity|]. split; [exact HF|]. split; [exact HG|reflexivity].
    - auto.
  Qed.

  Lemma inv_steps k ps : inv ps -> inv (steps acc upd train n ge sm k ps).
  Proof. intros H. induction k as [|k IH]; [exact H|]. cbn [steps Nat.iter]. apply inv_micro, IH. Qed.

  (** A directory between two runs *)
  Definition between (s : dir) : Prop := (exists l, base l s) \/ finished s.

  Lemma fold_max l k j : In j (k :: l) -> (forall i, In i (k :: l) -> i <= j) -> fold_left Nat.max l k = j.
  Proof.
    revert k. induction l as [|a l IH]; intros k Hj Hm; cbn [fold_left].
    - destruct Hj as [<-|[]]. reflexivity.
    - apply IH.
      + destruct Hj as [<-|[<-|Hj]]; [left|left|now right].
        * specialize (Hm a (or_intror (or_introl eq_refl))). lia.
        * specialize (Hm k (or_introl eq_refl)). lia.
      + intros i [<-|Hi]; [|apply Hm; cbn; auto].
        assert (k <= j) by (apply Hm; cbn; auto). assert (a <= j) by (apply Hm; cbn; auto). lia.
  Qed.

  Lemma inv_start s : between s -> inv (start n s, s).
  Proof.
    intros [[l HB]|HF].
    - unfold start. rewrite (b_final _ _ HB). assert (B3 := b_in _ _ HB). assert (B4 := b_keys _ _ HB).
      destruct (map fst (mdls s)) as [|k ks]; [destruct B3|]. rewrite (fold_max ks k l B3 B4). now apply inv_head.
    - unfold start. destruct HF as (F1 & F2 & F3). rewrite F1. cbn. unfold finished. auto.
  Qed.

  Lemma between_inv ps : inv ps -> harmless n (fst ps) -> between (snd ps).
  Proof.
    destruct ps as [p s]. destruct p as [l e|l e|l e t|l e|e q m t|e m t|e t|l|l|l|b]; cbn [inv fst snd harmless];
      intros H K; try contradiction.
    - destruct H as (_ & _ & H). left. eauto.
    - destruct H as (_ & _ & H & _). left. eauto.
    - destruct H as (_ & _ & H & _). left. eauto.
    - destruct H as (_ & _ & H & _). left. eauto.
    - destruct H as (l & _ & _ & H & _). left. eauto.
    - destruct H as (l & _ & _ & H & _). left. eauto.
    - subst e. destruct H as (Hl & (m & g & q & E & HS) & H1 & H2 & H3). left. exists n. constructor; auto.
      exists (Epoch m g q (Some t)). split; [exact E|]. split; [exact HS|]. lia.
    - destruct H as [-> H]. left. eauto.
    - destruct H as [_ H]. now right.
  Qed.

  Lemma between_runs l s : between s -> harmless_kills acc upd train n ge sm l s -> between (runs acc upd train n ge sm l s).
  Proof.
    revert s. induction l as [|k l IH]; intros s HB; [auto|]. cbn [harmless_kills runs fold_left]. intros [H1 H2].
    apply IH; [|exact H2]. apply (between_inv (steps acc upd train n ge sm k (start n s, s))); [|exact H1].
    apply inv_steps, inv_start, HB.
  Qed.

  Lemma between_fresh : between (fresh m0 g0 q0).
  Proof.
    left. exists 0. constructor; cbn [fresh mdls final map fst]; auto.
    - lia.
    - exists (Epoch m0 g0 q0 None). repeat split.
    - cbn; auto.
    - intros k [<-|[]]. lia.
  Qed.

  (** The operations that remain *)
  Definition measure (p : pc M P T V) : nat :=
    match p with
    | PAcc l _ => 7 * (n - l) + 3
    | PUpd l _ => 7 * (n - l) + 2
    | PSaveO l _ _ => 7 * (n - l) + 1
    | PGsm l _ => 7 * (n - l)
    | PPosts e _ _ _ => 7 * (n - e) + 6
    | PMdl e _ _ => 7 * (n - e) + 5
    | PGSave e _ => 7 * (n - e) + 4
    | PFin1 _ => 3 | PFin2 _ => 2 | PFin3 _ => 1 | PDone _ => 0
    end.

  Lemma measure_head l : measure (head n l) <= 7 * (n - l) + 3.
  Proof. unfold head. destruct (Nat.leb_spec (S l) n); cbn [measure]; lia. Qed.

  Lemma measure_micro ps : inv ps -> measure (fst (stp ps)) <= measure (fst ps) - 1.
  Proof.
    destruct ps as [p s]. destruct p as [l e|l e|l e t|l e|e q m t|e m t|e t|l|l|l|b]; cbn [inv fst snd micro measure]; try lia.
    - intros _. destruct (getn (mdls s) l), (getn (stats s) e); cbn [fst measure]; try lia.
      destruct (upd _ _ _) as [[? ?]|]; cbn [fst measure]; lia.
    - intros (-> & Hl & _). destruct (getn (gsms s) l), (getn (posts s) l), (tmp s); cbn [fst measure]; try lia.
      destruct (train _ _ _ _ _ _) as [[[[? ?] ?] ?]|]; cbn [fst measure]; lia.
    - intros _. pose proof (measure_head e). lia.
  Qed.

  Lemma measure_steps k ps : inv ps -> measure (fst (steps acc upd train n ge sm k ps)) <= measure (fst ps) - k.
  Proof.
    intros H. induction k as [|k IH]; [cbn; lia|]. cbn [steps Nat.iter].
    pose proof (measure_micro _ (inv_steps k _ H)) as K. unfold steps in *. eapply Nat.le_trans; [exact K|].
    clear K. lia.
  Qed.

  Lemma ends s k : between s -> 7 * n + 3 <= k ->
    fst (steps acc upd train n ge sm k (start n s, s)) = PDone true /\ finished (run acc upd train n ge sm k s).
  Proof.
    intros HB Hk. assert (I0 := inv_start s HB). assert (K := measure_steps k _ I0). assert (I1 := inv_steps k _ I0).
    assert (H0 : measure (fst (start n s, s)) <= 7 * n + 3).
    { cbn [fst]. unfold start. destruct (final s); [cbn; lia|]. destruct (map fst (mdls s)) as [|a l]; [cbn; lia|].
      pose proof (measure_head (fold_left Nat.max l a)). lia. }
    assert (K0 : measure (fst (steps acc upd train n ge sm k (start n s, s))) = 0) by lia. clear K H0.
    unfold run. destruct (steps acc upd train n ge sm k (start n s, s)) as [p s'].
    cbn [fst snd] in *. destruct p; cbn [measure inv fst snd] in *; try lia.
    destruct I1 as [-> I1]. auto.
  Qed.
End Inv.
