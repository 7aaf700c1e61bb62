(** C201: the subspace recipes, killed and started again. *)
From Coq Require Import List Arith Lia.
From Verif Require Import Ss_Model Ss_Spec Ss_Proofs.
Import ListNotations.
Local Open Scope nat_scope.

Section Resume.
  Context {M G P A T V : Type}.
  Variable acc : M -> A.
  Variable upd : option T -> M -> A -> option (M * T).
  Variable upd' : M -> A -> option M.
  Variable train : nat -> nat -> option V -> G -> P -> M -> option (G * P * M * V).
  Variables (n ge sm : nat) (m0 : M) (g0 : G) (q0 : P).

  (** Whatever the kills, if none falls between the model of an epoch but the
      last and the state of Adam, nor between the three final files, the last
      run ends well and the final files are those of the epochs done at once.
      [upd'] is the model that "hmm update" writes: it does not depend on the
      saved state (one group of parameters, see C195). *)
  Theorem C201_resume (x : epoch M G P V) (l : list nat) (k : nat) :
    (forall t m a, option_map fst (upd t m a) = upd' m a) ->
    ideal acc upd' train (fun e => if e =? n then sm else ge) m0 g0 q0 n = Some x ->
    harmless_kills acc upd train n ge sm l (fresh m0 g0 q0) ->
    7 * n + 3 <= k ->
    let s := runs acc upd train n ge sm l (fresh m0 g0 q0) in
    fst (steps acc upd train n ge sm k (start n s, s)) = PDone true /\
    let s' := run acc upd train n ge sm k s in
    final s' = Some (ep_m x) /\ gfinal s' = Some (ep_g x) /\ pfinal s' = Some (ep_q x).
  Proof.
    intros HU HI HK Hk. cbv zeta.
    apply (ends acc upd upd' train n ge sm m0 g0 q0 HU x HI _ k); [|exact Hk].
    apply (between_runs acc upd upd' train n ge sm m0 g0 q0 HU x HI); [|exact HK].
    apply between_fresh.
  Qed.

  (** A directory with final.mdl is never touched again *)
  Theorem C201_skips (s : sdir M G P A T V) (l : list nat) :
    final s <> None -> runs acc upd train n ge sm l s = s.
  Proof.
    intros H. assert (K : forall k, run acc upd train n ge sm k s = s).
    { intros k. unfold run, start. destruct (final s) as [m|]; [|congruence].
      assert (E : steps acc upd train n ge sm k (PDone true, s) = (PDone true, s)).
      { induction k as [|k IH]; [reflexivity|]. 
        change (steps acc upd train n ge sm (S k) (PDone true, s)) with (micro acc upd train n ge sm (steps acc upd train n ge sm k (PDone true, s))).
        rewrite IH. reflexivity. }
      now rewrite E. }
    induction l as [|k l IH]; [reflexivity|]. cbn [runs fold_left]. rewrite K. exact IH.
  Qed.

  Lemma skips_after (k : nat) (l : list nat) (s : sdir M G P A T V) :
    final (run acc upd train n ge sm k s) <> None -> runs acc upd train n ge sm (k :: l) s = run acc upd train n ge sm k s.
  Proof. intros H. exact (C201_skips (run acc upd train n ge sm k s) l H). Qed.
End Resume.

(** A recipe on numbers: the step of the posteriors depends on the state of
    the optimizer, as with Adam *)
Definition toy_acc (m : nat) : nat := m.
Definition toy_upd (_ : option nat) (m a : nat) : option (nat * nat) := Some (m + a, 0).
Definition toy_train (e k : nat) (v : option nat) (g q m : nat) : option (nat * nat * nat * nat) :=
  let v0 := match v with Some x => x | None => 0 end in
  Some (g, q + k * (1 + v0), m + q + k * (1 + v0), S v0).

(** Killed after 2.mdl and before the state of Adam was saved (13 operations),
    the recipe resumes with the state of the epoch before: other models *)
Theorem C201_state_refuted : exists (l : list nat) (k : nat),
  (forall t m a, option_map fst (toy_upd t m a) = Some (m + a)) /\
  7 * 3 + 3 <= k /\
  let s := run toy_acc toy_upd toy_train 3 1 2 k (runs toy_acc toy_upd toy_train 3 1 2 l (fresh 1 0 0)) in
  exists x, ideal toy_acc (fun m a => Some (m + a)) toy_train (fun e => if e =? 3 then 2 else 1) 1 0 0 3 = Some x /\
  final s <> Some (ep_m x) /\ pfinal s <> Some (ep_q x) /\ final s <> None.
Proof.
  exists [13], 24. split; [reflexivity|]. split; [lia|]. cbv zeta. eexists. split; [reflexivity|].
  vm_compute. repeat split; congruence.
Qed.

(** Killed after final.mdl (22 operations) the recipe never makes
    gsm_final.mdl and units_posts_final.pkl: the next runs say that the model is
    already trained.  A later subspace_aud.sh reads gsm_final.mdl (lines 78 and 123). *)
Theorem C201_final_refuted : exists k, forall l,
  let s := runs toy_acc toy_upd toy_train 3 1 2 (k :: l) (fresh 1 0 0) in
  final s <> None /\ gfinal s = None /\ pfinal s = None /\ start 3 s = PDone true.
Proof.
  exists 22. intros l. cbv zeta. rewrite skips_after; [vm_compute; repeat split; congruence|].
  vm_compute. congruence.
Qed.

(** "hmm update" fails in the second epoch: the recipe goes on with the
    tmp.mdl of the first, and ends with success *)
Definition toy_fail (t : option nat) (m a : nat) : option (nat * nat) :=
  if m =? 3 then None else toy_upd t m a.
Theorem C201_failure_refuted :
  let upd' := fun m a => if m =? 3 then None else Some (m + a) in
  (forall t m a, option_map fst (toy_fail t m a) = upd' m a) /\
  ideal toy_acc upd' toy_train (fun e => if e =? 2 then 2 else 1) 1 0 0 2 = None /\
  let s0 : sdir nat nat nat nat nat nat := fresh 1 0 0 in
  let '(p, s) := steps toy_acc toy_fail toy_train 2 1 2 17 (start 2 s0, s0) in
  p = PDone true /\ final s <> None /\ tmp s = Some 2.
Proof.
  cbv zeta. split; [|split; [reflexivity|]].
  - intros t m a. unfold toy_fail, toy_upd. destruct (m =? 3); reflexivity.
  - vm_compute. repeat split; congruence.
Qed.

(** Killed at various points, the last kill between 3.mdl and the state of
    Adam: the final files are those of the three epochs *)
Example C201_ex :
  harmless_kills toy_acc toy_upd toy_train 3 1 2 [3; 5; 7; 10; 6] (fresh 1 0 0) /\
  let s := run toy_acc toy_upd toy_train 3 1 2 24 (runs toy_acc toy_upd toy_train 3 1 2 [3; 5; 7; 10; 6] (fresh 1 0 0)) in
  final s = Some 27 /\ pfinal s = Some 9 /\ gfinal s = Some 0.
Proof. vm_compute. repeat split. Qed.

Print Assumptions C201_resume.
Print Assumptions C201_skips.
Print Assumptions C201_state_refuted.
Print Assumptions C201_final_refuted.
Print Assumptions C201_failure_refuted.
