(** C151: state posteriors with an acoustic scale of 0. *)
From Coq Require Import Reals List Lra Lia Arith Bool FunctionalExtensionality.
From Verif Require Import Prelude Vec FB_Model FB_Spec FB_Proofs FB_Props Edit_Model Dec_Model Set_Model Set_Proofs HMM_Model HMM_Proofs Po_Model.
Import ListNotations.
Local Open Scope R_scope.

(** Frames that say nothing. *)
Definition silent (T : nat) : list row := repeat (fun _ => Fin 0) T.

Lemma zero_rows (M : mat) : as_rows (map (vscale 0) M) = silent (length M).
Proof.
  induction M as [|r M IH]; [reflexivity|]. unfold silent in *. cbn [map as_rows length repeat]. unfold as_rows in IH. rewrite IH. f_equal.
  apply functional_extensionality. intros j. rewrite vscale_nth. f_equal. ring.
Qed.

(** The posteriors are those of the graph alone: the fraction of the weight of
    its paths that visits the state; the data play no role but their number. *)
Theorem C151_graph_alone : forall amax m g order stats,
  (forall o, In o order -> (o < size m)%nat) -> stats <> [] -> 0 < evidence g (silent (length stats)) ->
  exists posts, compute_posts amax m g order 0 stats = Ok posts /\ length posts = length stats /\
  forall t j d, (t < length stats)%nat -> (j < cg_n g)%nat ->
    nth t posts d j = Num (visit_mass g (silent (length stats)) t j / evidence g (silent (length stats))).
Proof.
  intros amax m g order stats Ho Hne Hev. unfold compute_posts. rewrite pc_llhs_ok by auto. cbn [bindr]. unfold inference.
  replace (map (fun x => vscale 0 (map (fun k => nth k (ellh m x) 0) order)) stats)
    with (map (vscale 0) (map (fun x => map (fun k => nth k (ellh m x) 0) order) stats)) by (now rewrite map_map).
  rewrite zero_rows, map_length.
  assert (HS : silent (length stats) <> []) by (destruct stats; [contradiction|discriminate]).
  destruct (posteriors_ok g _ HS) as (posts & lnm & E & L). rewrite E. cbn [bindr fst]. exists posts.
  assert (LS : length (silent (length stats)) = length stats) by apply repeat_length.
  split; [reflexivity|]. split; [congruence|]. intros t j d Ht Hj.
  apply (C07_state_posteriors_exact g _ posts lnm t j d E Hev); [congruence|exact Hj].
Qed.

(** They are flat (1/K) when the graph has the same weights everywhere. *)
Lemma visit_count n : forall len t j, (t < len)%nat -> (j < n)%nat ->
  length (filter (visits t j) (paths n len)) = (n ^ (len - 1))%nat.
Proof.
  assert (PL : forall len, length (paths n len) = (n ^ len)%nat).
  { induction len as [|len IH]; [reflexivity|]. cbn [paths Nat.pow].
    assert (G : forall l : list nat, length (flat_map (fun i => map (cons i) (paths n len)) l) = (length l * n ^ len)%nat).
    { induction l as [|i l IHl]; [reflexivity|]. cbn [flat_map length]. rewrite app_length, map_length, IH, IHl. lia. }
    now rewrite G, seq_length. }
  induction len as [|len IH]; intros t j Ht Hj; [lia|]. cbn [paths]. replace (S len - 1)%nat with len by lia.
  destruct t as [|t].
  - assert (G : forall l : list nat, length (filter (visits 0 j) (flat_map (fun i => map (cons i) (paths n len)) l)) =
              (count_occ Nat.eq_dec l j * n ^ len)%nat).
    { induction l as [|i l IHl]; [reflexivity|]. cbn [flat_map count_occ]. rewrite filter_app, app_length, IHl.
      assert (E : filter (visits 0 j) (map (cons i) (paths n len)) = if Nat.eq_dec i j then map (cons i) (paths n len) else []).
      { clear. induction (paths n len) as [|p P IHP]; [now destruct (Nat.eq_dec i j)|]. cbn [map filter]. rewrite IHP.
        unfold visits at 1. cbn [nth_error]. destruct (Nat.eq_dec i j) as [->|N]; [now rewrite Nat.eqb_refl|].
        destruct (Nat.eqb_spec i j); [contradiction|reflexivity]. }
      rewrite E. destruct (Nat.eq_dec i j); [rewrite map_length, PL; cbn; lia|cbn; lia]. }
    rewrite G. assert (C : count_occ Nat.eq_dec (seq 0 n) j = 1%nat).
    { assert (N := seq_NoDup n 0). rewrite (NoDup_count_occ' Nat.eq_dec) in N. apply N, in_seq. lia. }
    rewrite C. lia.
  - assert (G : forall l : list nat, length (filter (visits (S t) j) (flat_map (fun i => map (cons i) (paths n len)) l)) =
              (length l * n ^ (len - 1))%nat).
    { induction l as [|i l IHl]; [reflexivity|]. cbn [flat_map length]. rewrite filter_app, app_length, IHl.
      assert (E : filter (visits (S t) j) (map (cons i) (paths n len)) = map (cons i) (filter (visits t j) (paths n len))).
      { clear. induction (paths n len) as [|p P IHP]; [reflexivity|]. cbn [map filter]. rewrite IHP.
        change (visits (S t) j (i :: p)) with (visits t j p). now destruct (visits t j p). }
      rewrite E, map_length, IH by lia. lia. }
    rewrite G, seq_length. destruct len as [|len]; [lia|]. replace (S len - 1)%nat with len by lia. reflexivity.
Qed.

Lemma paths_length n : forall len p, In p (paths n len) -> length p = len.
Proof.
  induction len as [|len IH]; intros p H; [destruct H as [<-|[]]; reflexivity|].
  cbn [paths] in H. apply in_flat_map in H. destruct H as (i & _ & H). apply in_map_iff in H. destruct H as (q & <- & Hq).
  cbn. now rewrite (IH q).
Qed.

Theorem C151_flat_on_uniform_graphs : forall amax m g order stats ci cf ct,
  (forall o, In o order -> (o < size m)%nat) -> stats <> [] -> (0 < cg_n g)%nat ->
  (forall i, cg_init g i = Fin ci) -> (forall i, cg_final g i = Fin cf) -> (forall i j, cg_trans g i j = Fin ct) ->
  exists posts, compute_posts amax m g order 0 stats = Ok posts /\
  forall t j d, (t < length stats)%nat -> (j < cg_n g)%nat -> nth t posts d j = Num (/ INR (cg_n g)).
Proof.
  intros amax m g order stats ci cf ct Ho Hne Hn Hi Hf Ht. set (T := length stats).
  assert (HT : (0 < T)%nat) by (unfold T; destruct stats; [contradiction|cbn; lia]).
  set (c := exp ci * exp ct ^ (T - 1) * exp cf).
  assert (Cp : 0 < c) by (unfold c; repeat apply Rmult_lt_0_compat; try apply pow_lt; apply exp_pos).
  assert (TP : forall k s p, length p = k -> tail_prob g s (silent k) p = exp ct ^ k * exp cf).
  { induction k as [|k IH]; intros s [|j p] L; try discriminate L.
    - cbn. rewrite Hf. cbn. ring.
    - cbn [silent repeat tail_prob]. rewrite Ht. fold (silent k). rewrite IH by (now injection L). cbn [ex pow]. rewrite exp_0. ring. }
  assert (PP : forall p, In p (paths (cg_n g) T) -> path_prob g (silent T) p = c).
  { intros p Hp. apply paths_length in Hp. unfold c. destruct T as [|k]; [lia|]. destruct p as [|j p]; [discriminate|].
    cbn [silent repeat path_prob]. rewrite Hi. fold (silent k). rewrite TP by (now injection Hp).
    replace (S k - 1)%nat with k by lia. cbn [ex]. rewrite exp_0. ring. }
  assert (LS : length (silent T) = T) by apply repeat_length.
  assert (VM : forall t j, (t < T)%nat -> (j < cg_n g)%nat -> visit_mass g (silent T) t j = INR (cg_n g ^ (T - 1)) * c).
  { intros t j H1 H2. unfold visit_mass. rewrite LS. rewrite (sumf_ext _ (fun _ => c)).
    - rewrite sumf_const. rewrite visit_count by auto. ring.
    - intros p Hp. apply filter_In in Hp. now apply PP. }
  assert (EV : evidence g (silent T) = INR (cg_n g) * (INR (cg_n g ^ (T - 1)) * c)).
  { rewrite <- (visit_mass_total g (silent T) 0) by (rewrite LS; lia).
    rewrite (sumf_ext _ (fun _ => INR (cg_n g ^ (T - 1)) * c)).
    - rewrite sumf_const, seq_length. ring.
    - intros j Hj. apply in_seq in Hj. apply VM; lia. }
  assert (N : 0 < INR (cg_n g)) by (now apply lt_0_INR).
  assert (NP : 0 < INR (cg_n g ^ (T - 1))) by (apply lt_0_INR; apply Nat.neq_0_lt_0, Nat.pow_nonzero; lia).
  assert (HE : 0 < evidence g (silent T)) by (rewrite EV; apply Rmult_lt_0_compat; [auto|apply Rmult_lt_0_compat; auto]).
  destruct (C151_graph_alone amax m g order stats Ho Hne HE) as (posts & E & L & P).
  exists posts. split; [exact E|]. intros t j d H1 H2. rewrite P by auto. fold T. f_equal. rewrite VM, EV by auto.
  field. repeat split; lra.
Qed.

(** On the left-to-right graphs of the units they are not flat: with two states
    and two frames there is a single path. *)
Definition left_to_right : cgraph := {| cg_n := 2;
  cg_init := fun i => if (i =? 0)%nat then Fin 0 else NInf;
  cg_final := fun i => if (i =? 1)%nat then Fin 0 else NInf;
  cg_trans := fun i j => if (i <=? j)%nat then Fin (ln (1/2)) else NInf |}.

Theorem C151_flat_refuted : forall amax m order stats,
  (forall o, In o order -> (o < size m)%nat) -> length stats = 2%nat ->
  exists posts, compute_posts amax m left_to_right order 0 stats = Ok posts /\
  forall d, nth 0 posts d 0%nat = Num 1 /\ nth 0 posts d 1%nat = Num 0 /\
            nth 1 posts d 0%nat = Num 0 /\ nth 1 posts d 1%nat = Num 1.
Proof.
  intros amax m order stats Ho HL. assert (Hne : stats <> []) by (destruct stats; [discriminate|discriminate]).
  assert (EV : evidence left_to_right (silent 2) = 1/2).
  { unfold evidence, sumf, rsum. simpl. rewrite !exp_0, !exp_ln by lra. lra. }
  destruct (C151_graph_alone amax m left_to_right order stats Ho Hne) as (posts & E & L & P); [rewrite HL, EV; lra|].
  exists posts. split; [exact E|]. intros d. rewrite HL in P. rewrite !P by (cbn; lia). rewrite EV.
  unfold visit_mass, sumf, rsum. simpl. rewrite !exp_0, !exp_ln by lra.
  repeat split; f_equal; field.
Qed.

(** As it is, the script stops before any of this. *)
Theorem C151_never_runs_refuted : forall A (utts : list A), script utts = Err TypeError /\
  (call 1 1 (script_body utts) = Ok tt <-> utts = []).
Proof.
  intros A utts. split; [reflexivity|]. unfold call, script_body. cbn [Nat.eqb]. destruct utts; split; intros; try discriminate; auto.
Qed.

Example C151_example : evidence left_to_right (silent 2) = 1/2 /\
  path_prob left_to_right (silent 2) [0; 1]%nat = 1/2 /\ path_prob left_to_right (silent 2) [0; 0]%nat = 0.
Proof.
  repeat split; unfold evidence, sumf, rsum; simpl; rewrite ?exp_0, ?exp_ln by lra; lra.
Qed.

Print Assumptions C151_flat_on_uniform_graphs.
Print Assumptions C151_flat_refuted.
