(** Invariant of the hierarchical subspace recipe. *)
From Coq Require Import List Arith Lia Bool.
From Verif Require Import Ep_Model Ep_Proofs Ss_Spec Ss_Proofs Hs_Model.
Import ListNotations.
Local Open Scope nat_scope.

Section Inv.
  Context {M G P A T V : Type}.
  Variable acc : M -> option A.
  Variable acc' : M -> A.
  Variable upd : option T -> M -> A -> option (M * T).
  Variable upd' : M -> A -> option M.
  Variable train : nat -> nat -> option V -> G -> P -> M -> option (G * P * M * V).
  Variables (n ini ge sm : nat) (cleanup : bool).
  Variables (m0 : M) (g0 : G) (q0 : P).
  Hypothesis Hacc : forall m, acc m = Some (acc' m).
  Hypothesis Hupd : forall t m a, option_map fst (upd t m a) = upd' m a.

  Notation budget := (fun e => if e =? n then sm else if e =? 1 then ini else ge).
  Notation idl := (ideal acc' upd' train budget m0 g0 q0).
  Notation stp := (micro upd train n ini ge sm cleanup acc).
  Notation dir := (hdir M G P A T V).
  Variable xn : epoch M G P V.
  Hypothesis Hn : idl n = Some xn.

  Lemma h_ideal_le i : i <= n -> exists x, idl i = Some x.
  Proof.
    intros H. assert (K : forall d j, idl (d + j) <> None -> idl j <> None).
    { induction d as [|d IH]; intros j; [auto|]. change (S d + j) with (S (d + j)). cbn [ideal].
      destruct (idl (d + j)) as [x|] eqn:E; [|congruence]. intros _. apply IH. congruence. }
    specialize (K (n - i) i). replace (n - i + i) with n in K by lia. rewrite Hn in K.
    destruct (idl i) as [x|]; [now exists x|]. exfalso. apply K; congruence.
  Qed.

  Definition stored (s : dir) (i : nat) (x : epoch M G P V) : Prop :=
    getn (mdls s) i = Some (ep_m x) /\ getn (lmdls s) i = Some (ep_m x) /\
    getn (gsms s) i = Some (ep_g x) /\ getn (posts s) i = Some (ep_q x).

  Record base (last : nat) (s : dir) : Prop := {
    b_le : last <= n;
    b_get : exists x, idl last = Some x /\ stored s last x /\ (last < n -> gost s = ep_v x) /\
                      (forall e, last < e -> acced s e = true -> e = S last /\ stats s e = Some (acc' (ep_m x)));
    b_in : In last (map fst (mdls s));
    b_keys : forall k, In k (map fst (mdls s)) -> k <= last;
    b_final : final s = None
  }.

  Definition finished (s : dir) : Prop :=
    final s = Some (ep_m xn) /\ gfinal s = Some (ep_g xn) /\ pfinal s = Some (ep_q xn) /\ lfinal s = Some (ep_m xn).

  (** What the end of "hshmm train" leaves, E.mdl_LANG apart *)
  Definition saved (s : dir) (e : nat) (m : M) (t : V) : Prop :=
    e <= n /\ (exists g q, idl e = Some (Epoch m g q (Some t)) /\ getn (mdls s) e = Some m /\
                           getn (gsms s) e = Some g /\ getn (posts s) e = Some q) /\
    In e (map fst (mdls s)) /\ (forall k, In k (map fst (mdls s)) -> k <= e) /\ final s = None /\
    (forall i, e < i -> acced s i = false).

  Definition inv (ps : pc M P T V * dir) : Prop :=
    let s := snd ps in
    match fst ps with
    | PAcc l e => e = S l /\ e <= n /\ base l s
    | PTouch l e | PUpd l e => e = S l /\ e <= n /\ base l s /\ exists x, idl l = Some x /\ stats s e = Some (acc' (ep_m x))
    | PSaveO l e _ | PGsm l e => e = S l /\ e <= n /\ base l s /\ exists x, idl l = Some x /\ tmp s = upd' (ep_m x) (acc' (ep_m x))
    | PPosts e q m t => exists l, e = S l /\ e <= n /\ base l s /\ exists g, idl e = Some (Epoch m g q (Some t)) /\ getn (gsms s) e = Some g
    | PMdl e m t => exists l, e = S l /\ e <= n /\ base l s /\ exists g q, idl e = Some (Epoch m g q (Some t)) /\ getn (gsms s) e = Some g /\ getn (posts s) e = Some q
    | PLang e m t => saved s e m t
    | PGSave e t => exists m, saved s e m t /\ getn (lmdls s) e = Some m
    | PClean e => base e s
    | PFin1 l => l = n /\ base n s
    | PFin2 l => l = n /\ stored s n xn /\ final s = Some (ep_m xn)
    | PFin3 l => l = n /\ stored s n xn /\ final s = Some (ep_m xn) /\ gfinal s = Some (ep_g xn)
    | PFin4 l => l = n /\ stored s n xn /\ final s = Some (ep_m xn) /\ gfinal s = Some (ep_g xn) /\ pfinal s = Some (ep_q xn)
    | PDone b => b = true /\ finished s
    end.

  Lemma inv_head l s : base l s -> inv (head n l, s).
  Proof.
    intros H. unfold head. destruct (Nat.leb_spec (S l) n); cbn [inv fst snd]; [auto|].
    assert (l = n) as -> by (destruct H; lia). auto.
  Qed.

  Lemma stored_base s : base n s -> stored s n xn.
  Proof. intros [_ [x [E [H _]]] _ _ _]. congruence. Qed.

  Lemma putf_eq {B} (f : nat -> B) e v : putf f e v e = v.
  Proof. unfold putf. now rewrite Nat.eqb_refl. Qed.
  Lemma putf_ne {B} (f : nat -> B) e v i : i <> e -> putf f e v i = f i.
  Proof. intros H. unfold putf. now destruct (Nat.eqb_spec i e). Qed.

  (** The directory seen by [base] *)
  Lemma base_ext l (s s' : dir) : base l s ->
    mdls s' = mdls s -> lmdls s' = lmdls s -> final s' = final s -> gost s' = gost s ->
    getn (gsms s') l = getn (gsms s) l -> getn (posts s') l = getn (posts s) l ->
    (forall x, idl l = Some x -> forall e, l < e -> acced s' e = true -> e = S l /\ stats s' e = Some (acc' (ep_m x))) ->
    base l s'.
  Proof.
    intros [B1 [x [E [[S1 [S2 [S3 S4]]] [B2 B2']]]] B3 B4 B5] E1 E2 E3 E4 E5 E6 K.
    constructor; rewrite ?E1, ?E3; auto. exists x. split; [exact E|]. split; [|split].
    - unfold stored. rewrite E1, E2, E5, E6. auto.
    - now rewrite E4.
    - now apply K.
  Qed.

  Lemma base_acc l s x e : base l s -> idl l = Some x -> l < e -> acced s e = true -> e = S l /\ stats s e = Some (acc' (ep_m x)).
  Proof. intros [_ [y [E [_ [_ K]]]] _ _ _] Ex H Ha. assert (y = x) by congruence. subst y. now apply K. Qed.

  Lemma base_mdl l s x : base l s -> idl l = Some x -> stored s l x.
  Proof. intros [_ [y [E [H _]]] _ _ _] Ex. congruence. Qed.

  Lemma inv_micro ps : inv ps -> inv (stp ps).
  Proof.
    destruct ps as [p s].
    destruct p as [l e|l e|l e|l e t|l e|e q m t|e m t|e m t|e t|e|l|l|l|l|b]; cbn [inv fst snd micro].
    - (* PAcc *) intros (-> & Hl & HB). assert (Hx := b_get _ _ HB). destruct Hx as [x [E [[_ [S2 _]] [_ K]]]].
      destruct (acced s (S l)) eqn:Ea.
      + cbn [inv fst snd]. split; [reflexivity|]. split; [exact Hl|]. split; [exact HB|]. exists x. split; [exact E|]. apply K; [lia|exact Ea].
      + cbn [inv fst snd]. rewrite S2, Hacc. split; [reflexivity|]. split; [exact Hl|]. split.
        * apply (base_ext l s); auto. intros y Ey i Hi Hai. cbn [set_stats acced stats] in *.
          assert (i <> S l) by congruence. rewrite putf_ne by assumption. now apply (base_acc l s).
        * exists x. split; [exact E|]. cbn [set_stats stats]. apply putf_eq.
    - (* PTouch *) intros (-> & Hl & HB & x & E & Hs). split; [reflexivity|]. split; [exact Hl|]. split; [|exists x; auto].
      apply (base_ext l s); auto. intros y Ey i Hi Hai. cbn [set_acced acced stats] in *.
      destruct (Nat.eq_dec i (S l)) as [->|Hne]; [split; [reflexivity|congruence]|].
      rewrite putf_ne in Hai by exact Hne. now apply (base_acc l s).
    - (* PUpd *) intros (-> & Hl & HB & x & E & Hs). destruct (base_mdl _ _ _ HB E) as (S1 & S2 & S3 & S4).
      rewrite S2, Hs. destruct (h_ideal_le (S l) Hl) as [y Ey]. cbn [ideal] in Ey. rewrite E in Ey.
      assert (U := Hupd (ost s) (ep_m x) (acc' (ep_m x))).
      destruct (upd (ost s) (ep_m x) (acc' (ep_m x))) as [[m' t]|]; cbn [option_map fst] in U;
        rewrite <- U in Ey; [|congruence].
      cbn [inv fst snd]. split; [reflexivity|]. split; [exact Hl|]. split.
      + apply (base_ext l s); auto. intros z Ez i Hi Hai. now apply (base_acc l s).
      + exists x. split; [exact E|]. cbn [set_tmp tmp]. now rewrite <- U.
    - (* PSaveO *) intros (-> & Hl & HB & x & E & Hs). split; [reflexivity|]. split; [exact Hl|]. split; [|exists x; auto].
      apply (base_ext l s); auto. intros z Ez i Hi Hai. now apply (base_acc l s).
    - (* PGsm *) intros (-> & Hl & HB & x & E & Hs). destruct (base_mdl _ _ _ HB E) as (S1 & S2 & S3 & S4).
      rewrite S3, S4, Hs. assert (Hv : gost s = ep_v x).
      { destruct HB as [_ [y [Ey [_ [B2 _]]]] _ _ _]. assert (y = x) by congruence. subst y. apply B2. lia. }
      destruct (h_ideal_le (S l) Hl) as [y Ey]. assert (Ey' := Ey). cbn [ideal] in Ey. rewrite E in Ey.
      destruct (upd' (ep_m x) (acc' (ep_m x))) as [m1|]; [|congruence].
      rewrite Hv. change (train_epochs n ini ge sm (S l)) with (if S l =? n then sm else if S l =? 1 then ini else ge).
      destruct (train (S l) (if S l =? n then sm else if S l =? 1 then ini else ge) (ep_v x) (ep_g x) (ep_q x) m1) as [[[[g' q'] m'] t]|]; [|congruence].
      cbn [inv fst snd]. exists l. split; [reflexivity|]. split; [exact Hl|]. split.
      + apply (base_ext l s); auto.
        * cbn [set_gsms gsms]. rewrite getn_putn. destruct (Nat.eqb_spec (S l) l); [lia|reflexivity].
        * intros z Ez i Hi Hai. now apply (base_acc l s).
      + exists g'. split; [congruence|]. cbn [set_gsms gsms]. now rewrite getn_putn, Nat.eqb_refl.
    - (* PPosts *) intros (l & -> & Hl & HB & g & E & Hg). exists l. split; [reflexivity|]. split; [exact Hl|]. split.
      + apply (base_ext l s); auto.
        * cbn [set_posts posts]. rewrite getn_putn. destruct (Nat.eqb_spec (S l) l); [lia|reflexivity].
        * intros z Ez i Hi Hai. now apply (base_acc l s).
      + exists g, q. split; [exact E|]. split; [exact Hg|]. cbn [set_posts posts]. now rewrite getn_putn, Nat.eqb_refl.
    - (* PMdl *) intros (l & -> & Hl & HB & g & q & E & Hg & Hq). destruct HB as [B1 [x [Ex [_ [_ K]]]] B3 B4 B5].
      split; [exact Hl|]. split; [|split; [|split; [|split]]].
      + exists g, q. split; [exact E|]. split; [|split; assumption]. cbn [set_mdls mdls]. now rewrite getn_putn, Nat.eqb_refl.
      + cbn [set_mdls mdls]. apply putn_keys. auto.
      + cbn [set_mdls mdls]. intros k Hk. apply putn_keys in Hk. destruct Hk as [->|Hk]; [lia|]. specialize (B4 k Hk). lia.
      + exact B5.
      + intros i Hi. cbn [set_mdls acced]. destruct (acced s i) eqn:Ea; [|reflexivity]. destruct (K i); [lia|exact Ea|lia].
    - (* PLang *) intros H. exists m. split; [exact H|]. cbn [set_lmdls lmdls]. now rewrite getn_putn, Nat.eqb_refl.
    - (* PGSave *) intros (m & (Hl & (g & q & E & K1 & K2 & K3) & H1 & H2 & H3 & H4) & Hm).
      constructor; cbn [set_gost mdls final]; auto.
      exists (Epoch m g q (Some t)). split; [exact E|]. split; [repeat split; assumption|]. split; [reflexivity|].
      intros i Hi Hai. cbn [set_gost acced] in Hai. rewrite H4 in Hai by exact Hi. congruence.
    - (* PClean *) intros HB. apply inv_head. destruct cleanup; [|exact HB]. apply (base_ext e s); auto.
      intros y Ey i Hi Hai. cbn [set_stats acced stats] in *. rewrite putf_ne by lia. now apply (base_acc e s).
    - intros (-> & HB). assert (HS := stored_base s HB). assert (HS' := HS). destruct HS as [S1 _]. rewrite S1.
      split; [reflexivity|]. split; [exact HS'|reflexivity].
    - intros (-> & HS & HF). assert (HS' := HS). destruct HS as (_ & _ & S2 & _). rewrite S2.
      split; [reflexivity|]. split; [exact HS'|]. split; [exact HF|reflexivity].
    - intros (-> & HS & HF & HG). assert (HS' := HS). destruct HS as (_ & _ & _ & S3). rewrite S3.
      split; [reflexivity|]. split; [exact HS'|]. split; [exact HF|]. split; [exact HG|reflexivity].
    - intros (-> & HS & HF & HG & HP). destruct HS as (_ & S2 & _). rewrite S2.
      split; [reflexivity|]. split; [exact HF|]. split; [exact HG|]. split; [exact HP|reflexivity].
    - auto.
  Qed.

  Notation stps := (steps upd train n ini ge sm cleanup acc).

  Lemma inv_steps k ps : inv ps -> inv (stps k ps).
  Proof. intros H. induction k as [|k IH]; [exact H|]. change (stps (S k) ps) with (stp (stps k ps)). apply inv_micro, IH. Qed.

  Definition between (s : dir) : Prop := (exists l, base l s) \/ finished s.

  Lemma inv_start s : between s -> inv (start n s, s).
  Proof.
    intros [[l HB]|HF].
    - unfold start. rewrite (b_final _ _ HB). assert (B3 := b_in _ _ HB). assert (B4 := b_keys _ _ HB).
      destruct (map fst (mdls s)) as [|k ks]; [destruct B3|]. rewrite (fold_max ks k l B3 B4). now apply inv_head.
    - unfold start. destruct HF as (F1 & F2 & F3 & F4). rewrite F1. cbn. unfold finished. auto.
  Qed.

  Lemma between_inv ps : inv ps -> harmless n (fst ps) -> between (snd ps).
  Proof.
    destruct ps as [p s].
    destruct p as [l e|l e|l e|l e t|l e|e q m t|e m t|e m t|e t|e|l|l|l|l|b]; cbn [inv fst snd harmless];
      intros H K; try contradiction.
    - destruct H as (_ & _ & H). left. eauto.
    - destruct H as (_ & _ & H & _). left. eauto.
    - destruct H as (_ & _ & H & _). left. eauto.
    - destruct H as (_ & _ & H & _). left. eauto.
    - destruct H as (_ & _ & H & _). left. eauto.
    - destruct H as (l & _ & _ & H & _). left. eauto.
    - destruct H as (l & _ & _ & H & _). left. eauto.
    - subst e. destruct H as (m & (Hl & (g & q & E & K1 & K2 & K3) & H1 & H2 & H3 & H4) & Hm). left. exists n. constructor; auto.
      exists (Epoch m g q (Some t)). split; [exact E|]. split; [repeat split; assumption|]. split; [lia|].
      intros i Hi Hai. rewrite H4 in Hai by exact Hi. congruence.
    - left. eauto.
    - destruct H as [-> H]. left. eauto.
    - destruct H as [_ H]. now right.
  Qed.

  Lemma between_runs l s : between s -> harmless_kills upd train n ini ge sm cleanup acc l s ->
    between (runs upd train n ini ge sm cleanup acc l s).
  Proof.
    revert s. induction l as [|k l IH]; intros s HB; [auto|]. cbn [harmless_kills runs fold_left]. intros [H1 H2].
    apply IH; [|exact H2]. apply (between_inv (stps k (start n s, s))); [|exact H1].
    apply inv_steps, inv_start, HB.
  Qed.

  Lemma between_fresh : between (fresh m0 g0 q0).
  Proof.
    left. exists 0. constructor; cbn [fresh mdls final map fst].
    - lia.
    - exists (Epoch m0 g0 q0 None). split; [reflexivity|]. split; [repeat split|]. split; [reflexivity|].
      intros e _ K. cbn in K. congruence.
    - cbn; auto.
    - intros k [<-|[]]. lia.
    - reflexivity.
  Qed.

  (** The operations that remain *)
  Definition measure (p : pc M P T V) : nat :=
    match p with
    | PAcc l _ => 10 * (n - l) + 4
    | PTouch l _ => 10 * (n - l) + 3
    | PUpd l _ => 10 * (n - l) + 2
    | PSaveO l _ _ => 10 * (n - l) + 1
    | PGsm l _ => 10 * (n - l)
    | PPosts e _ _ _ => 10 * (n - e) + 9
    | PMdl e _ _ => 10 * (n - e) + 8
    | PLang e _ _ => 10 * (n - e) + 7
    | PGSave e _ => 10 * (n - e) + 6
    | PClean e => 10 * (n - e) + 5
    | PFin1 _ => 4 | PFin2 _ => 3 | PFin3 _ => 2 | PFin4 _ => 1 | PDone _ => 0
    end.

  Lemma measure_head l : measure (head n l) <= 10 * (n - l) + 4.
  Proof. unfold head. destruct (Nat.leb_spec (S l) n); cbn [measure]; lia. Qed.

  Lemma measure_micro ps : inv ps -> measure (fst (stp ps)) <= measure (fst ps) - 1.
  Proof.
    destruct ps as [p s].
    destruct p as [l e|l e|l e|l e t|l e|e q m t|e m t|e m t|e t|e|l|l|l|l|b]; cbn [inv fst snd micro measure]; try lia.
    - intros _. destruct (acced s e); cbn [fst measure]; lia.
    - intros _. destruct (getn (lmdls s) l), (stats s e); cbn [fst measure]; try lia.
      destruct (upd _ _ _) as [[? ?]|]; cbn [fst measure]; lia.
    - intros (-> & Hl & _). destruct (getn (gsms s) l), (getn (posts s) l), (tmp s); cbn [fst measure]; try lia.
      destruct (train _ _ _ _ _ _) as [[[[? ?] ?] ?]|]; cbn [fst measure]; lia.
    - intros _. pose proof (measure_head e). lia.
  Qed.

  Lemma measure_steps k ps : inv ps -> measure (fst (stps k ps)) <= measure (fst ps) - k.
  Proof.
    intros H. induction k as [|k IH]; [cbn; lia|]. change (stps (S k) ps) with (stp (stps k ps)).
    pose proof (measure_micro _ (inv_steps k _ H)) as K. eapply Nat.le_trans; [exact K|]. clear K. lia.
  Qed.

  Lemma ends s k : between s -> 10 * n + 4 <= k ->
    fst (stps k (start n s, s)) = PDone true /\ finished (run upd train n ini ge sm cleanup acc k s).
  Proof.
    intros HB Hk. assert (I0 := inv_start s HB). assert (K := measure_steps k _ I0). assert (I1 := inv_steps k _ I0).
    assert (H0 : measure (fst (start n s, s)) <= 10 * n + 4).
    { cbn [fst]. unfold start. destruct (final s); [cbn; lia|]. destruct (map fst (mdls s)) as [|a l]; [cbn; lia|].
      pose proof (measure_head (fold_left Nat.max l a)). lia. }
    assert (K0 : measure (fst (stps k (start n s, s))) = 0) by lia. clear K H0.
    unfold run. destruct (stps k (start n s, s)) as [p s'].
    cbn [fst snd] in *. destruct p; cbn [measure inv fst snd] in *; try lia.
    destruct I1 as [-> I1]. auto.
  Qed.
End Inv.
