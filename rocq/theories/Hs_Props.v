(** C203: the hierarchical subspace recipe, killed and started again. *)
From Coq Require Import List Arith Lia Bool.
From Verif Require Import Ep_Model Ss_Spec Hs_Model Hs_Proofs.
Import ListNotations.
Local Open Scope nat_scope.

Section Resume.
  Context {M G P A T V : Type}.
  Variable upd : option T -> M -> A -> option (M * T).
  Variable train : nat -> nat -> option V -> G -> P -> M -> option (G * P * M * V).
  Variables (n ini ge sm : nat) (cleanup : bool).

  (** Whatever the kills, if none falls between E.mdl and E.mdl_LANG, between
      E.mdl_LANG and the state of the optimizer (but for the last epoch) or between
      the final files, the last run ends well and the final files are those of
      the epochs done at once; also when the statistics are removed. *)
  Theorem C203_resume (acc : M -> option A) (acc' : M -> A) (upd' : M -> A -> option M)
    (m0 : M) (g0 : G) (q0 : P) (x : epoch M G P V) (l : list nat) (k : nat) :
    (forall m, acc m = Some (acc' m)) ->
    (forall t m a, option_map fst (upd t m a) = upd' m a) ->
    ideal acc' upd' train (fun e => if e =? n then sm else if e =? 1 then ini else ge) m0 g0 q0 n = Some x ->
    harmless_kills upd train n ini ge sm cleanup acc l (fresh m0 g0 q0) ->
    10 * n + 4 <= k ->
    let s := runs upd train n ini ge sm cleanup acc l (fresh m0 g0 q0) in
    fst (steps upd train n ini ge sm cleanup acc k (start n s, s)) = PDone true /\
    let s' := run upd train n ini ge sm cleanup acc k s in
    final s' = Some (ep_m x) /\ gfinal s' = Some (ep_g x) /\ pfinal s' = Some (ep_q x) /\ lfinal s' = Some (ep_m x).
  Proof.
    intros HA HU HI HK Hk. cbv zeta.
    apply (ends acc acc' upd upd' train n ini ge sm cleanup m0 g0 q0 HA HU x HI _ k); [|exact Hk].
    apply (between_runs acc acc' upd upd' train n ini ge sm cleanup m0 g0 q0 HA HU x HI); [|exact HK].
    apply between_fresh.
  Qed.

  (** A directory in which .done.acc is there without the statistics: no run,
      whatever the jobs would now give, changes it any more *)
  Theorem C203_stuck (acc : M -> option A) (s : hdir M G P A T V) (l : list nat) :
    final s = None -> map fst (mdls s) = [0] -> 1 <= n ->
    acced s 1 = true -> stats s 1 = None -> tmp s = None ->
    runs upd train n ini ge sm cleanup acc l s = s.
  Proof.
    intros H1 H2 H3 H4 H5 H6.
    assert (K : forall k, exists p, steps upd train n ini ge sm cleanup acc k (start n s, s) = (p, s) /\
                                    (p = PAcc 0 1 \/ p = PUpd 0 1 \/ p = PGsm 0 1 \/ p = PDone false)).
    { induction k as [|k [p [E Hp]]].
      - exists (start n s). split; [reflexivity|]. left. unfold start. rewrite H1, H2. cbn [fold_left]. unfold head.
        destruct (Nat.leb_spec 1 n); [reflexivity|lia].
      - change (steps upd train n ini ge sm cleanup acc (S k) (start n s, s))
          with (micro upd train n ini ge sm cleanup acc (steps upd train n ini ge sm cleanup acc k (start n s, s))).
        rewrite E. destruct Hp as [-> | [-> | [-> | -> ]]]; cbn [micro].
        + rewrite H4. exists (PUpd 0 1). auto.
        + rewrite H5. exists (PGsm 0 1). destruct (getn (lmdls s) 0); auto.
        + rewrite H6. exists (PDone false). destruct (getn (gsms s) 0), (getn (posts s) 0); auto.
        + exists (PDone false). auto. }
    induction l as [|k l IH]; [reflexivity|]. cbn [runs fold_left]. unfold run at 2.
    destruct (K k) as (p & E & _). rewrite E. exact IH.
  Qed.

  (** A directory with final.mdl is never touched again *)
  Theorem C203_skips (acc : M -> option A) (s : hdir M G P A T V) (l : list nat) :
    final s <> None -> runs upd train n ini ge sm cleanup acc l s = s.
  Proof.
    intros H. assert (K : forall k, run upd train n ini ge sm cleanup acc k s = s).
    { intros k. unfold run, start. destruct (final s) as [m|]; [|congruence].
      assert (E : steps upd train n ini ge sm cleanup acc k (PDone true, s) = (PDone true, s)).
      { induction k as [|k IH]; [reflexivity|].
        change (steps upd train n ini ge sm cleanup acc (S k) (PDone true, s))
          with (micro upd train n ini ge sm cleanup acc (steps upd train n ini ge sm cleanup acc k (PDone true, s))).
        rewrite IH. reflexivity. }
      now rewrite E. }
    induction l as [|k l IH]; [reflexivity|]. cbn [runs fold_left]. rewrite K. exact IH.
  Qed.
End Resume.

(** A recipe on numbers, as in Ss_Props.v *)
Definition num_acc (m : nat) : option nat := Some m.
Definition num_upd (_ : option nat) (m a : nat) : option (nat * nat) := Some (m + a, 0).
Definition num_train (e k : nat) (v : option nat) (g q m : nat) : option (nat * nat * nat * nat) :=
  let v0 := match v with Some x => x | None => 0 end in
  Some (g + 1, q + k * (1 + v0), m + q + k * (1 + v0), S v0).
Notation num_dir := (hdir nat nat nat nat nat nat).
Notation num_ideal := (ideal (fun m => m) (fun m a => Some (m + a)) num_train (fun e => if e =? 3 then 2 else if e =? 1 then 3 else 1) 1 0 0 3).

(** Killed after 1.mdl and before 1.mdl_LANG (7 operations): the second epoch
    finds no model to accumulate with, its update fails, "hshmm train" uses the
    tmp.mdl of the first epoch, and the recipe ends with success *)
Theorem C203_lang_refuted : exists (l : list nat) (k : nat),
  10 * 3 + 4 <= k /\
  let s0 : num_dir := runs num_upd num_train 3 3 1 2 true num_acc l (fresh 1 0 0) in
  let '(p, s) := steps num_upd num_train 3 3 1 2 true num_acc k (start 3 s0, s0) in
  exists x, num_ideal = Some x /\ p = PDone true /\ final s <> None /\ final s <> Some (ep_m x) /\ lfinal s <> Some (ep_m x).
Proof.
  exists [7], 34. split; [lia|]. cbv zeta.
  destruct (steps _ _ _ _ _ _ _ _ _ _) as [p s] eqn:E. vm_compute in E. injection E as <- <-.
  eexists. split; [reflexivity|]. vm_compute. repeat split; congruence.
Qed.

(** Killed after 1.mdl_LANG and before the state of the optimizer (8 operations) *)
Theorem C203_state_refuted : exists (l : list nat) (k : nat),
  10 * 3 + 4 <= k /\
  let s := run num_upd num_train 3 3 1 2 true num_acc k (runs num_upd num_train 3 3 1 2 true num_acc l (fresh 1 0 0)) in
  exists x, num_ideal = Some x /\ final s <> None /\ final s <> Some (ep_m x) /\ pfinal s <> Some (ep_q x).
Proof.
  exists [8], 34. split; [lia|]. cbv zeta. eexists. split; [reflexivity|]. vm_compute. repeat split; congruence.
Qed.

(** The jobs of the first epoch fail once: .done.acc is made all the same, and
    the recipe, started again any number of times with jobs that now succeed,
    never trains anything *)
Theorem C203_jobs_refuted : exists k, forall l,
  let s1 : num_dir := run num_upd num_train 3 3 1 2 true (fun _ => None) k (fresh 1 0 0) in
  let s := runs num_upd num_train 3 3 1 2 true num_acc l s1 in
  final s = None /\ getn (mdls s) 1 = None /\ acced s 1 = true /\ stats s 1 = None.
Proof.
  exists 34. intros l. cbv zeta. rewrite C203_stuck; try (vm_compute; reflexivity); [|lia].
  vm_compute. repeat split.
Qed.

(** Killed after final.mdl (31 operations): the other final files are never made *)
Theorem C203_final_refuted : exists k, forall l,
  let s1 : num_dir := run num_upd num_train 3 3 1 2 true num_acc k (fresh 1 0 0) in
  let s := runs num_upd num_train 3 3 1 2 true num_acc l s1 in
  final s <> None /\ gfinal s = None /\ pfinal s = None /\ lfinal s = None.
Proof.
  exists 31. intros l. cbv zeta. rewrite C203_skips; [|vm_compute; congruence]. vm_compute. repeat split; congruence.
Qed.

(** Killed after the accumulation, after .done.acc, after tmp.mdl, after
    units_posts_1.pkl, before the removal of the statistics *)
Example C203_ex :
  harmless_kills num_upd num_train 3 3 1 2 true num_acc [1; 2; 3; 5; 8; 14] (fresh 1 0 0 : num_dir) /\
  let s := run num_upd num_train 3 3 1 2 true num_acc 34 (runs num_upd num_train 3 3 1 2 true num_acc [1; 2; 3; 5; 8; 14] (fresh 1 0 0 : num_dir)) in
  option_map (@ep_m _ _ _ _) num_ideal = final s /\ final s = Some 41 /\ lfinal s = Some 41 /\ gfinal s = Some 3 /\ pfinal s = Some 11.
Proof. vm_compute. repeat split. Qed.

Print Assumptions C203_resume.
Print Assumptions C203_stuck.
Print Assumptions C203_skips.
Print Assumptions C203_lang_refuted.
Print Assumptions C203_state_refuted.
Print Assumptions C203_jobs_refuted.
Print Assumptions C203_final_refuted.
