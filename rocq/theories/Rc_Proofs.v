(** The races of the updates of the languages. *)
From Coq Require Import List Arith Lia Permutation FunctionalExtensionality.
From Verif Require Import Rc_Model.
Import ListNotations.
Local Open Scope nat_scope.

Section Any.
  Context {M : Type}.
  Variables (ng : nat) (upd : nat -> M -> M) (mdl : nat -> M).
  Notation st := (work M).

  Definition rank (p : proc) : nat :=
    match p with Ready => 0 | Loaded _ => 1 | Written _ => 2 | Saved => 3 | Ended => 4 end.

  (** c0 is the counter at the beginning *)
  Variables (c0 : nat).
  Record rinv (done : list nat) (s : st) : Prop := {
    r_rank : forall i, rank (procs s i) = Nat.min 4 (count_occ Nat.eq_dec done i);
    r_tmp : forall i, 2 <= rank (procs s i) -> exists c, c0 <= c /\ tmps s i = Some (upd (c mod ng) (mdl i));
    r_nodup : NoDup (lines s);
    r_lines : forall i, In i (lines s) <-> procs s i = Ended;
    r_file : c0 <= count_of (file s);
    r_pc : forall i c, procs s i = Loaded c \/ procs s i = Written c -> c0 <= c
  }.

  Lemma setf_eq {B} (f : nat -> B) i v : setf f i v i = v.
  Proof. unfold setf. now rewrite Nat.eqb_refl. Qed.
  Lemma setf_ne {B} (f : nat -> B) i v j : j <> i -> setf f i v j = f j.
  Proof. intros H. unfold setf. now destruct (Nat.eqb_spec j i). Qed.

  Lemma rank_step s i j : rank (procs (op ng upd mdl s i) j) =
    if Nat.eq_dec j i then Nat.min 4 (S (rank (procs s j))) else rank (procs s j).
  Proof.
    unfold op. destruct (Nat.eq_dec j i) as [->|Hne].
    - destruct (procs s i) eqn:E; cbn [procs]; rewrite ?setf_eq, ?E; reflexivity.
    - destruct (procs s i) eqn:E; cbn [procs]; rewrite ?setf_ne by exact Hne; reflexivity.
  Qed.

  Lemma rinv_op done s i : rinv done s -> rinv (done ++ [i]) (op ng upd mdl s i).
  Proof.
    intros [H1 H2 H3 H4 H5 H6]. constructor.
    - intros j. rewrite rank_step, count_occ_app. cbn [count_occ].
      destruct (Nat.eq_dec j i) as [->|Hne].
      + destruct (Nat.eq_dec i i) as [_|]; [|congruence]. rewrite H1. lia.
      + destruct (Nat.eq_dec i j) as [->|]; [congruence|]. rewrite H1. f_equal. lia.
    - intros j. destruct (Nat.eq_dec j i) as [->|Hne].
      + unfold op. destruct (procs s i) eqn:E; cbn [procs tmps]; rewrite ?setf_eq; cbn [rank]; intros Hr; try lia.
        * exists c. split; [apply (H6 i); auto|reflexivity].
        * apply H2. rewrite E. cbn; lia.
        * apply H2. rewrite E. cbn; lia.
        * apply H2. rewrite E. cbn; lia.
      + rewrite rank_step. destruct (Nat.eq_dec j i); [congruence|]. intros Hr.
        unfold op. destruct (procs s i); cbn [tmps]; rewrite ?setf_ne by exact Hne; auto.
    - unfold op. destruct (procs s i) eqn:E; cbn [lines]; auto.
      apply (Permutation_NoDup (l := i :: lines s)); [apply Permutation_cons_append|].
      constructor; [|exact H3]. intros Hin. apply H4 in Hin. congruence.
    - intros j. unfold op. destruct (procs s i) eqn:E; cbn [lines procs]; try (now apply H4);
        destruct (Nat.eq_dec j i) as [->|Hne]; rewrite ?setf_eq, ?setf_ne by exact Hne; try (now apply H4).
      1-3: split; [intros Hin; apply H4 in Hin; congruence|congruence].
      + split; [reflexivity|]. intros _. apply in_or_app. right. now left.
      + rewrite in_app_iff, H4. cbn. split; [intros [K|[K|[]]]; congruence|auto].
    - unfold op. destruct (procs s i) eqn:E; cbn [file]; auto.
      cbn. specialize (H6 i c (or_intror E)). lia.
    - intros j c. destruct (Nat.eq_dec j i) as [->|Hne].
      + unfold op. destruct (procs s i) eqn:E; cbn [procs]; rewrite ?setf_eq, ?E; intros [K|K]; try congruence.
        injection K as <-. apply (H6 i). auto.
      + unfold op. destruct (procs s i) eqn:E; cbn [procs]; rewrite ?setf_ne by exact Hne; apply H6.
  Qed.

  Lemma rinv_exec sched done s : rinv done s -> rinv (done ++ sched) (exec ng upd mdl sched s).
  Proof.
    revert done s. induction sched as [|i l IH]; intros done s H; [now rewrite app_nil_r|].
    cbn [exec fold_left]. replace (done ++ i :: l) with ((done ++ [i]) ++ l) by now rewrite <- app_assoc.
    apply IH, rinv_op, H.
  Qed.

  Lemma rinv_begin f t : count_of f = c0 -> rinv [] (begin f t).
  Proof.
    intros Hc. constructor; cbn [begin procs tmps lines file].
    - reflexivity.
    - cbn [rank]. intros i K. lia.
    - constructor.
    - intros i. split; [intros []|congruence].
    - lia.
    - intros i c [K|K]; congruence.
  Qed.
End Any.

Section InTurn.
  Context {M : Type}.
  Variables (ng : nat) (upd : nat -> M -> M) (mdl : nat -> M).

  Lemma turn_one s i : procs s i = Ready ->
    exec ng upd mdl [i; i; i; i] s =
    mkw (Some (S (count_of (file s)))) (setf (tmps s) i (Some (upd (count_of (file s) mod ng) (mdl i))))
        (lines s ++ [i]) (setf (procs s) i Ended).
  Proof.
    intros H. cbn [exec fold_left]. unfold op at 4. rewrite H.
    unfold op at 3. cbn [procs file tmps lines]. rewrite setf_eq.
    unfold op at 2. cbn [procs file tmps lines]. rewrite setf_eq.
    unfold op at 1. cbn [procs file tmps lines]. rewrite setf_eq. f_equal.
    apply functional_extensionality. intros j. unfold setf. destruct (j =? i); reflexivity.
  Qed.

  Lemma turn_all langs s : NoDup langs -> (forall i, In i langs -> procs s i = Ready) ->
    let s' := exec ng upd mdl (in_turn langs) s in
    count_of (file s') = count_of (file s) + length langs /\
    (forall i, ~ In i langs -> tmps s' i = tmps s i) /\
    (forall k, k < length langs -> tmps s' (nth k langs 0) = Some (upd ((count_of (file s) + k) mod ng) (mdl (nth k langs 0)))).
  Proof.
    revert s. induction langs as [|i l IH]; intros s HN HR; cbv zeta.
    - cbn. split; [lia|]. split; [reflexivity|]. intros k Hk. lia.
    - inversion HN as [|? ? N1 N2]; subst.
      assert (E : exec ng upd mdl (in_turn (i :: l)) s = exec ng upd mdl (in_turn l) (exec ng upd mdl [i; i; i; i] s)) by reflexivity.
      rewrite E, turn_one by (apply HR; now left). set (s1 := mkw _ _ _ _).
      assert (HR1 : forall j, In j l -> procs s1 j = Ready).
      { intros j Hj. cbn [s1 procs]. rewrite setf_ne by congruence. apply HR. now right. }
      destruct (IH s1 N2 HR1) as (F1 & F2 & F3). split; [|split].
      + rewrite F1. cbn [s1 file count_of length]. lia.
      + intros j Hj. rewrite F2 by (intros K; apply Hj; now right). cbn [s1 tmps]. apply setf_ne. intros ->. apply Hj. now left.
      + intros [|k] Hk; cbn [nth].
        * rewrite F2 by exact N1. cbn [s1 tmps]. rewrite setf_eq. now rewrite Nat.add_0_r.
        * cbn [length] in Hk. rewrite F3 by lia. cbn [s1 file count_of]. do 2 f_equal. f_equal. lia.
  Qed.
End InTurn.
