(** C202: the updates of the languages share the state of the optimizer. *)
From Coq Require Import List Arith Lia Permutation.
From Verif Require Import Rc_Model Rc_Proofs.
Import ListNotations.
Local Open Scope nat_scope.

Section Claims.
  Context {M : Type}.
  Variable upd : nat -> M -> M.

  (** With one group of parameters the models do not depend on the schedule:
      every language gets the update of its own model, whatever the others do
      and whatever the files hold before, and one line in the list. *)
  Theorem C202_one_group (mdl : nat -> M) (langs sched : list nat) (f : option nat) (t : nat -> option M) :
    NoDup langs ->
    (forall i, In i sched -> In i langs) ->
    (forall i, In i langs -> 4 <= count_occ Nat.eq_dec sched i) ->
    let s := exec 1 upd mdl sched (begin f t) in
    (forall i, In i langs -> tmps s i = Some (upd 0 (mdl i))) /\ Permutation (lines s) langs.
  Proof.
    intros HN H1 H2. cbv zeta.
    assert (I := rinv_exec 1 upd mdl (count_of f) sched [] _ (rinv_begin 1 upd mdl _ f t eq_refl)). cbn [app] in I.
    set (s := exec 1 upd mdl sched (begin f t)) in *. destruct I as [I1 I2 I3 I4 _ _]. split.
    - intros i Hi. destruct (I2 i) as (c & _ & Hc); [rewrite I1; specialize (H2 i Hi); lia|]. rewrite Hc. now rewrite Nat.mod_1_r.
    - apply NoDup_Permutation; [exact I3|exact HN|]. intros i. rewrite I4. split; intros Hi.
      + apply H1. apply (count_occ_In Nat.eq_dec). specialize (I1 i). rewrite Hi in I1. cbn [rank] in I1. lia.
      + specialize (I1 i). specialize (H2 i Hi). destruct (procs s i); cbn [rank] in I1; congruence || lia.
  Qed.

  (** With more groups, the languages in turn: as the counter goes from one
      language to the next, a language only ever updates one of its groups when
      the number of groups divides the number of languages. *)
  Theorem C202_starved (ng : nat) (after : nat -> nat -> M -> M) (L : nat) (m0 : nat -> M) (e i : nat) :
    0 < ng -> Nat.divide ng L -> i < L ->
    snd (epochs ng upd after (seq 0 L) (S e) m0) i =
    after (S e) i (upd (i mod ng) (snd (epochs ng upd after (seq 0 L) e m0) i)).
  Proof.
    intros Hg HD Hi.
    assert (K : forall e, count_of (fst (epochs ng upd after (seq 0 L) e m0)) = e * L).
    { induction e0 as [|e0 IH]; [reflexivity|]. cbn [epochs].
      destruct (epochs ng upd after (seq 0 L) e0 m0) as [f m]. cbn [fst] in *.
      destruct (turn_all ng upd m (seq 0 L) (begin f (fun _ => None)) (seq_NoDup L 0) (fun _ _ => eq_refl)) as (F1 & _ & _).
      rewrite F1. cbn [begin file]. rewrite seq_length, IH. lia. }
    specialize (K e). cbn [epochs]. destruct (epochs ng upd after (seq 0 L) e m0) as [f m]. cbn [fst snd] in *.
    destruct (turn_all ng upd m (seq 0 L) (begin f (fun _ => None)) (seq_NoDup L 0) (fun _ _ => eq_refl)) as (_ & _ & F3).
    rewrite seq_length in F3. specialize (F3 i Hi). rewrite seq_nth in F3 by exact Hi. cbn [Nat.add begin file] in F3.
    rewrite F3, K. do 2 f_equal. destruct HD as [d ->].
    rewrite Nat.add_comm, Nat.mul_assoc, Nat.mod_add by lia. reflexivity.
  Qed.
End Claims.

(** A model with two groups, each one counting its updates *)
Definition two (g : nat) (m : nat * nat) : nat * nat := match g with 0 => (S (fst m), snd m) | _ => (fst m, S (snd m)) end.

(** The second group of the first language is never trained, nor the first
    group of the second language *)
Theorem C202_groups_refuted : forall e,
  snd (epochs 2 two (fun _ _ m => m) [0; 1] e (fun _ => (0, 0))) 0 = (e, 0) /\
  snd (epochs 2 two (fun _ _ m => m) [0; 1] e (fun _ => (0, 0))) 1 = (0, e).
Proof.
  induction e as [|e [IH1 IH2]]; [split; reflexivity|].
  change [0; 1] with (seq 0 2) in *. assert (D : Nat.divide 2 2) by (exists 1; reflexivity).
  rewrite (C202_starved two 2 (fun _ _ m => m) 2 _ e 0), (C202_starved two 2 (fun _ _ m => m) 2 _ e 1) by (exact D || lia).
  rewrite IH1, IH2. split; reflexivity.
Qed.

(** The models and the order of the list depend on the schedule: two complete
    schedules of the same updates *)
Theorem C202_race_refuted : exists s1 s2 : list nat,
  Permutation s1 s2 /\ (forall i, In i [0; 1] -> count_occ Nat.eq_dec s1 i = 4) /\
  let w1 := exec 2 two (fun _ => (0, 0)) s1 (begin None (fun _ => None)) in
  let w2 := exec 2 two (fun _ => (0, 0)) s2 (begin None (fun _ => None)) in
  tmps w1 1 <> tmps w2 1 /\ lines w1 <> lines w2 /\ file w1 <> file w2.
Proof.
  exists [0; 0; 0; 0; 1; 1; 1; 1], [0; 1; 1; 0; 1; 1; 0; 0]. split; [|split].
  - apply (Permutation_count_occ Nat.eq_dec). intros x. destruct x as [|[|x]]; reflexivity.
  - intros i [<-|[<-|[]]]; reflexivity.
  - vm_compute. repeat split; congruence.
Qed.

(** Three languages, one group, the operations mixed *)
Example C202_ex :
  let s := exec 1 (fun g m => m + 10 + g) (fun i => i) [2; 0; 1; 1; 0; 2; 2; 2; 1; 0; 0; 1] (begin (Some 5) (fun _ => Some 0)) in
  tmps s 0 = Some 10 /\ tmps s 1 = Some 11 /\ tmps s 2 = Some 12 /\ lines s = [2; 0; 1].
Proof. vm_compute. repeat split. Qed.

(** Three languages and three groups: the group of a language is always the same *)
Example C202_ex_starved :
  map (snd (epochs 3 (fun g m => m ++ [g]) (fun _ _ m => m) [0; 1; 2] 3 (fun _ => []))) [0; 1; 2] =
  [[0; 0; 0]; [1; 1; 1]; [2; 2; 2]].
Proof. reflexivity. Qed.

Print Assumptions C202_one_group.
Print Assumptions C202_starved.
Print Assumptions C202_groups_refuted.
Print Assumptions C202_race_refuted.
