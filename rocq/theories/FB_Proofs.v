(** Proofs about the inference on compiled graphs. *)
From Coq Require Import Reals List Lra Lia Arith Bool.
From Verif Require Import Prelude FB_Model FB_Spec.
Import ListNotations.
Local Open Scope R_scope.

(** ** Log-domain arithmetic *)
Lemma ex_nonneg a : 0 <= ex a.
Proof. destruct a; simpl; [lra|]. left; apply exp_pos. Qed.

Lemma ex_ladd a b : ex (ladd a b) = ex a * ex b.
Proof. destruct a, b; simpl; try ring. now rewrite exp_plus. Qed.

Lemma ex_zero_iff a : ex a = 0 <-> a = NInf.
Proof.
  destruct a; simpl; split; intros H; try reflexivity; try discriminate.
  pose proof (exp_pos r). lra.
Qed.

Lemma rsum_ex_nonneg l : 0 <= rsum (map ex l).
Proof. apply (sumf_nonneg ex). intros; apply ex_nonneg. Qed.

Lemma forallb_ninf_sum l : forallb is_ninf l = true <-> rsum (map ex l) = 0.
Proof.
  induction l as [|a l IH]; simpl; [tauto|].
  pose proof (rsum_ex_nonneg l) as Hl. pose proof (ex_nonneg a) as Ha.
  rewrite andb_true_iff, IH. split.
  - intros [H1 H2]. destruct a; [simpl; lra|discriminate].
  - intros H. assert (ex a = 0) by lra. apply ex_zero_iff in H0. subst a.
    split; [reflexivity|simpl in H; lra].
Qed.

Lemma ex_lse l : ex (lse l) = rsum (map ex l).
Proof.
  unfold lse. destruct (forallb is_ninf l) eqn:E.
  - apply forallb_ninf_sum in E. rewrite E. reflexivity.
  - simpl. apply exp_ln.
    pose proof (rsum_ex_nonneg l) as [H|H]; [exact H|].
    symmetry in H. apply forallb_ninf_sum in H. congruence.
Qed.

Lemma lse_fin l : 0 < rsum (map ex l) -> lse l = Fin (ln (rsum (map ex l))).
Proof.
  intros H. unfold lse. destruct (forallb is_ninf l) eqn:E; [|reflexivity].
  apply forallb_ninf_sum in E. lra.
Qed.

Lemma lp_eq_ex a b : ex a = ex b -> a = b.
Proof.
  destruct a as [|x], b as [|y]; simpl; intros H; auto.
  - pose proof (exp_pos y); lra.
  - pose proof (exp_pos x); lra.
  - f_equal. now apply exp_inv.
Qed.

Lemma exp_sub_num a n : 0 < ex n -> exp_sub a n = Num (ex a / ex n).
Proof.
  destruct n as [|y]; simpl; [lra|]. intros _. pose proof (exp_pos y) as Hy.
  destruct a as [|x]; simpl; f_equal.
  - unfold Rdiv; ring.
  - unfold Rminus. rewrite exp_plus, exp_Ropp. reflexivity.
Qed.

Lemma map_sumf {A} (f : A -> lp) l : rsum (map ex (map f l)) = sumf (fun x => ex (f x)) l.
Proof. unfold sumf. now rewrite map_map. Qed.

(** ** Steps in the probability domain *)
Lemma ex_fwd_step g a l j :
  ex (fwd_step g a l j) =
  ex (l j) * sumf (fun i => ex (a i) * ex (cg_trans g i j)) (seq 0 (cg_n g)).
Proof.
  unfold fwd_step. rewrite ex_ladd, ex_lse, map_sumf.
  f_equal. apply sumf_ext. intros. apply ex_ladd.
Qed.

Lemma ex_bwd_step g l b i :
  ex (bwd_step g l b i) =
  sumf (fun j => ex (cg_trans g i j) * ex (l j) * ex (b j)) (seq 0 (cg_n g)).
Proof.
  unfold bwd_step. rewrite ex_lse, map_sumf.
  apply sumf_ext. intros. now rewrite !ex_ladd.
Qed.

(** ** Lengths *)
Lemma fwd_from_length g ls : forall a, length (fwd_from g a ls) = length ls.
Proof. induction ls; simpl; intros; auto. Qed.

Lemma forward_length g ls : length (forward g ls) = length ls.
Proof. destruct ls; simpl; auto. now rewrite fwd_from_length. Qed.

Lemma bwd_from_length g ls : length (bwd_from g ls) = S (length ls).
Proof. induction ls; simpl; auto. Qed.

Lemma backward_length g ls : length (backward g ls) = length ls.
Proof. destruct ls; simpl; auto. apply bwd_from_length. Qed.

(** ** Backward variables are sums over all the continuations *)
Definition beta_sum g ls s := sumf (tail_prob g s ls) (paths (cg_n g) (length ls)).

Lemma beta_sum_cons g l ls s :
  beta_sum g (l :: ls) s =
  sumf (fun j => ex (cg_trans g s j) * ex (l j) * beta_sum g ls j)
       (seq 0 (cg_n g)).
Proof.
  unfold beta_sum at 1. simpl length. simpl paths.
  rewrite sumf_flat_map. apply sumf_ext. intros j _.
  rewrite sumf_map. simpl. unfold beta_sum. now rewrite sumf_scal_l.
Qed.

Lemma bwd_from_hd g ls s d :
  ex (hd d (bwd_from g ls) s) = beta_sum g ls s.
Proof.
  revert s d. induction ls as [|l ls IH]; intros s d.
  - simpl. unfold beta_sum, sumf. simpl. lra.
  - simpl. rewrite ex_bwd_step, beta_sum_cons.
    apply sumf_ext. intros j _. now rewrite IH.
Qed.

Lemma bwd_from_nth g ls t s d :
  (t <= length ls)%nat ->
  ex (nth t (bwd_from g ls) d s) = beta_sum g (skipn t ls) s.
Proof.
  revert t. induction ls as [|l ls IH]; intros t Ht.
  - simpl in Ht. assert (t = 0)%nat by lia. subst. simpl.
    unfold beta_sum, sumf; simpl; lra.
  - destruct t as [|t].
    + simpl skipn. rewrite <- (bwd_from_hd g (l :: ls) s d).
      destruct (bwd_from g (l::ls)) eqn:E; reflexivity.
    + simpl. apply IH. simpl in Ht; lia.
Qed.

(** ** Visits *)
Definition ind (b : bool) : R := if b then 1 else 0.

Lemma sumf_filter_ind {A} (p : A -> bool) (f : A -> R) l :
  sumf f (filter p l) = sumf (fun x => ind (p x) * f x) l.
Proof.
  rewrite sumf_filter. apply sumf_ext. intros x _. unfold ind.
  destruct (p x); lra.
Qed.

(** Weight of all the continuations satisfying [q], from the distribution
    [a] over the current states. *)
Definition cont_mass g (a : row) ls (q : list nat -> bool) : R :=
  sumf (fun i => ex (a i) *
          sumf (fun p => ind (q p) * tail_prob g i ls p)
               (paths (cg_n g) (length ls))) (seq 0 (cg_n g)).

Lemma cont_mass_cons g a l ls q :
  cont_mass g a (l :: ls) q =
  sumf (fun k => ex (fwd_step g a l k) *
          sumf (fun p => ind (q (k :: p)) * tail_prob g k ls p)
               (paths (cg_n g) (length ls))) (seq 0 (cg_n g)).
Proof.
  unfold cont_mass. simpl length. simpl paths.
  transitivity (sumf (fun i => sumf (fun k =>
      (ex (l k) * (ex (a i) * ex (cg_trans g i k))) *
      sumf (fun p => ind (q (k :: p)) * tail_prob g k ls p)
               (paths (cg_n g) (length ls))) (seq 0 (cg_n g))) (seq 0 (cg_n g))).
  - apply sumf_ext. intros i _. rewrite sumf_flat_map, <- sumf_scal_l.
    apply sumf_ext. intros k _. rewrite sumf_map, <- !sumf_scal_l.
    apply sumf_ext. intros p _. simpl. ring.
  - rewrite sumf_swap. apply sumf_ext. intros k _.
    rewrite sumf_scal_r. f_equal. rewrite sumf_scal_l, ex_fwd_step.
    reflexivity.
Qed.

Lemma cont_mass_shift g a l ls q :
  cont_mass g a (l :: ls) (fun p => match p with [] => false | _ :: p' => q p' end) =
  cont_mass g (fwd_step g a l) ls q.
Proof. rewrite cont_mass_cons. reflexivity. Qed.

Lemma cont_mass_ext g a ls q1 q2 :
  (forall p, length p = length ls -> q1 p = q2 p) ->
  cont_mass g a ls q1 = cont_mass g a ls q2.
Proof.
  intros H. unfold cont_mass. apply sumf_ext. intros i _. f_equal.
  apply sumf_ext. intros p Hp. f_equal. rewrite H; auto.
  clear -Hp. revert p Hp. generalize (length ls) as len.
  induction len as [|len IH]; simpl; intros p Hp.
  - destruct Hp as [<-|[]]; reflexivity.
  - apply in_flat_map in Hp. destruct Hp as (i & _ & Hp).
    apply in_map_iff in Hp. destruct Hp as (p' & <- & Hp).
    simpl. f_equal. auto.
Qed.

Lemma paths_length n len p : In p (paths n len) -> length p = len.
Proof.
  revert p. induction len as [|len IH]; simpl; intros p Hp.
  - destruct Hp as [<-|[]]; reflexivity.
  - apply in_flat_map in Hp. destruct Hp as (i & _ & Hp).
    apply in_map_iff in Hp. destruct Hp as (p' & <- & Hp).
    simpl. f_equal. auto.
Qed.

Lemma paths_in n len p :
  In p (paths n len) <-> length p = len /\ Forall (fun i => (i < n)%nat) p.
Proof.
  revert p. induction len as [|len IH]; simpl; intros p.
  - split.
    + intros [<-|[]]. split; [reflexivity|constructor].
    + intros [H _]. destruct p; [now left|discriminate].
  - rewrite in_flat_map. split.
    + intros (i & Hi & Hp). apply in_map_iff in Hp. destruct Hp as (p' & <- & Hp).
      apply IH in Hp. destruct Hp as [H1 H2]. apply in_seq in Hi. simpl.
      split; [now f_equal|]. constructor; [lia|assumption].
    + intros [H1 H2]. destruct p as [|i p]; [discriminate|].
      inversion_clear H2. exists i. split; [apply in_seq; lia|].
      apply in_map. apply IH. split; auto.
Qed.

Lemma cont_mass_first g a l ls j :
  (j < cg_n g)%nat ->
  cont_mass g a (l :: ls) (visits 0 j) = ex (fwd_step g a l j) * beta_sum g ls j.
Proof.
  intros Hj. rewrite cont_mass_cons. rewrite (sumf_seq_single _ _ j); auto.
  - f_equal. unfold beta_sum. apply sumf_ext. intros p _.
    unfold visits; simpl. rewrite Nat.eqb_refl. unfold ind; lra.
  - intros k _ Hk. rewrite sumf_zero; [lra|]. intros p _.
    unfold visits; simpl. apply Nat.eqb_neq in Hk. rewrite Hk. unfold ind; lra.
Qed.

Lemma cont_mass_visit g ls : forall a t j da db,
  (t < length ls)%nat -> (j < cg_n g)%nat ->
  cont_mass g a ls (visits t j) =
  ex (nth t (fwd_from g a ls) da j) * ex (nth (S t) (bwd_from g ls) db j).
Proof.
  induction ls as [|l ls IH]; intros a t j da db Ht Hj; [simpl in Ht; lia|].
  destruct t as [|t].
  - rewrite cont_mass_first by auto. simpl nth. f_equal.
    destruct (bwd_from g ls) eqn:E.
    + pose proof (bwd_from_length g ls). rewrite E in H. discriminate.
    + rewrite <- (bwd_from_hd g ls j db), E. reflexivity.
  - simpl in Ht.
    transitivity (cont_mass g (fwd_step g a l) ls (visits t j)).
    + rewrite <- cont_mass_shift. apply cont_mass_ext. intros [|x p] Hp; reflexivity.
    + rewrite (IH _ t j da db) by (auto; lia). reflexivity.
Qed.

Lemma cont_mass_pair g ls : forall a t i j da db dl,
  (S t < length ls)%nat -> (i < cg_n g)%nat -> (j < cg_n g)%nat ->
  cont_mass g a ls (fun p => visits t i p && visits (S t) j p) =
  ex (nth t (fwd_from g a ls) da i) * ex (cg_trans g i j) *
  (ex (nth (S t) ls dl j) * ex (nth (S (S t)) (bwd_from g ls) db j)).
Proof.
  induction ls as [|l ls IH]; intros a t i j da db dl Ht Hi Hj; [simpl in Ht; lia|].
  destruct t as [|t].
  - destruct ls as [|l2 ls]; [simpl in Ht; lia|].
    rewrite cont_mass_cons. rewrite (sumf_seq_single _ _ i); auto.
    + simpl nth.
      rewrite Rmult_assoc. f_equal.
      simpl length. simpl paths. rewrite sumf_flat_map.
      rewrite (sumf_seq_single _ _ j); auto.
      * rewrite sumf_map. rewrite <- Rmult_assoc.
        transitivity (ex (cg_trans g i j) * ex (l2 j) * beta_sum g ls j).
        -- unfold beta_sum. rewrite <- sumf_scal_l. apply sumf_ext. intros p _.
           unfold visits; simpl. rewrite !Nat.eqb_refl. unfold ind; simpl. ring.
        -- rewrite <- (bwd_from_hd g ls j db).
           destruct (bwd_from g ls) eqn:E; reflexivity.
      * intros k _ Hk. rewrite sumf_map. apply sumf_zero. intros p _.
        unfold visits; simpl. apply Nat.eqb_neq in Hk. rewrite Hk.
        rewrite andb_false_r. unfold ind; lra.
    + intros k _ Hk. rewrite sumf_zero; [lra|]. intros p _.
      unfold visits at 1; simpl. apply Nat.eqb_neq in Hk. rewrite Hk.
      unfold ind; simpl; lra.
  - simpl in Ht.
    transitivity (cont_mass g (fwd_step g a l) ls
                    (fun p => visits t i p && visits (S t) j p)).
    + rewrite <- cont_mass_shift. apply cont_mass_ext. intros [|x p] Hp; reflexivity.
    + rewrite (IH _ t i j da db dl) by (auto; lia). reflexivity.
Qed.

(** ** Masses of full paths *)
Definition path_mass g ls (q : list nat -> bool) : R :=
  sumf (fun p => ind (q p) * path_prob g ls p) (paths (cg_n g) (length ls)).

Definition alpha0 g (l : row) : row := fun j => ladd (l j) (cg_init g j).

Lemma path_mass_cons g l ls q :
  path_mass g (l :: ls) q =
  sumf (fun k => ex (alpha0 g l k) *
          sumf (fun p => ind (q (k :: p)) * tail_prob g k ls p)
               (paths (cg_n g) (length ls))) (seq 0 (cg_n g)).
Proof.
  unfold path_mass. simpl length. simpl paths. rewrite sumf_flat_map.
  apply sumf_ext. intros k _. rewrite sumf_map, <- sumf_scal_l.
  apply sumf_ext. intros p _. simpl. unfold alpha0. rewrite ex_ladd. ring.
Qed.

Lemma path_mass_shift g l ls q :
  path_mass g (l :: ls) (fun p => match p with [] => false | _ :: p' => q p' end) =
  cont_mass g (alpha0 g l) ls q.
Proof. rewrite path_mass_cons. reflexivity. Qed.

Lemma path_mass_ext g ls q1 q2 :
  (forall p, length p = length ls -> q1 p = q2 p) ->
  path_mass g ls q1 = path_mass g ls q2.
Proof.
  intros H. unfold path_mass. apply sumf_ext. intros p Hp.
  rewrite H; auto. eapply paths_length; eauto.
Qed.

Lemma path_mass_visit g ls t j da db :
  (t < length ls)%nat -> (j < cg_n g)%nat ->
  path_mass g ls (visits t j) =
  ex (nth t (forward g ls) da j) * ex (nth t (backward g ls) db j).
Proof.
  intros Ht Hj. destruct ls as [|l ls]; [simpl in Ht; lia|].
  destruct t as [|t].
  - simpl forward. simpl backward. simpl nth.
    rewrite path_mass_cons, (sumf_seq_single _ _ j); auto.
    + unfold alpha0. f_equal.
      transitivity (beta_sum g ls j).
      * unfold beta_sum. apply sumf_ext. intros p _.
        unfold visits; simpl. rewrite Nat.eqb_refl. unfold ind; lra.
      * rewrite <- (bwd_from_hd g ls j db).
        destruct (bwd_from g ls); reflexivity.
    + intros k _ Hk. rewrite sumf_zero; [lra|]. intros p _.
      unfold visits; simpl. apply Nat.eqb_neq in Hk. rewrite Hk. unfold ind; lra.
  - simpl in Ht.
    transitivity (cont_mass g (alpha0 g l) ls (visits t j)).
    + rewrite <- path_mass_shift. apply path_mass_ext. intros [|x p] Hp; reflexivity.
    + rewrite (cont_mass_visit g ls _ t j da db) by (auto; lia). reflexivity.
Qed.

Lemma path_mass_pair g ls t i j da db dl :
  (S t < length ls)%nat -> (i < cg_n g)%nat -> (j < cg_n g)%nat ->
  path_mass g ls (fun p => visits t i p && visits (S t) j p) =
  ex (nth t (forward g ls) da i) * ex (cg_trans g i j) *
  (ex (nth (S t) ls dl j) * ex (nth (S t) (backward g ls) db j)).
Proof.
  intros Ht Hi Hj. destruct ls as [|l ls]; [simpl in Ht; lia|].
  destruct t as [|t].
  - destruct ls as [|l2 ls]; [simpl in Ht; lia|].
    rewrite path_mass_cons, (sumf_seq_single _ _ i); auto.
    + simpl forward. simpl nth. rewrite Rmult_assoc. unfold alpha0 at 1. f_equal.
      simpl length. simpl paths. rewrite sumf_flat_map.
      rewrite (sumf_seq_single _ _ j); auto.
      * rewrite sumf_map. rewrite <- Rmult_assoc.
        transitivity (ex (cg_trans g i j) * ex (l2 j) * beta_sum g ls j).
        -- unfold beta_sum. rewrite <- sumf_scal_l. apply sumf_ext. intros p _.
           unfold visits; simpl. rewrite !Nat.eqb_refl. unfold ind; simpl. ring.
        -- rewrite <- (bwd_from_hd g ls j db).
           destruct (bwd_from g ls) eqn:E; reflexivity.
      * intros k _ Hk. rewrite sumf_map. apply sumf_zero. intros p _.
        unfold visits; simpl. apply Nat.eqb_neq in Hk. rewrite Hk.
        rewrite andb_false_r. unfold ind; lra.
    + intros k _ Hk. rewrite sumf_zero; [lra|]. intros p _.
      unfold visits at 1; simpl. apply Nat.eqb_neq in Hk. rewrite Hk.
      unfold ind; simpl; lra.
  - simpl in Ht.
    transitivity (cont_mass g (alpha0 g l) ls
                    (fun p => visits t i p && visits (S t) j p)).
    + rewrite <- path_mass_shift. apply path_mass_ext. intros [|x p] Hp; reflexivity.
    + rewrite (cont_mass_pair g ls _ t i j da db dl) by (auto; lia). reflexivity.
Qed.

Lemma visit_mass_eq g ls t j : visit_mass g ls t j = path_mass g ls (visits t j).
Proof. unfold visit_mass, path_mass. apply sumf_filter_ind. Qed.

Lemma pair_mass_eq g ls t i j :
  pair_mass g ls t i j = path_mass g ls (fun p => visits t i p && visits (S t) j p).
Proof. unfold pair_mass, path_mass. apply sumf_filter_ind. Qed.

(** Every path visits exactly one state at each time. *)
Lemma visits_sum n len p t :
  In p (paths n len) -> (t < len)%nat ->
  sumf (fun j => ind (visits t j p)) (seq 0 n) = 1.
Proof.
  intros Hp Ht. apply paths_in in Hp. destruct Hp as [Hl Hf].
  destruct (nth_error p t) as [k|] eqn:E.
  - assert (Hk : (k < n)%nat).
    { rewrite Forall_forall in Hf. apply Hf. eapply nth_error_In; eauto. }
    rewrite (sumf_seq_single _ _ k); auto.
    + unfold visits. rewrite E, Nat.eqb_refl. reflexivity.
    + intros x _ Hx. unfold visits. rewrite E.
      assert (H : Nat.eqb k x = false) by (apply Nat.eqb_neq; congruence).
      rewrite H. reflexivity.
  - apply nth_error_None in E. lia.
Qed.

Lemma visit_mass_total g ls t :
  (t < length ls)%nat ->
  sumf (visit_mass g ls t) (seq 0 (cg_n g)) = evidence g ls.
Proof.
  intros Ht.
  rewrite (sumf_ext _ (fun j => path_mass g ls (visits t j)))
    by (intros; apply visit_mass_eq).
  unfold path_mass. rewrite sumf_swap. unfold evidence.
  apply sumf_ext. intros p Hp. rewrite sumf_scal_r.
  rewrite (visits_sum _ _ _ _ Hp Ht). lra.
Qed.

Lemma pair_mass_sum_right g ls t i :
  (S t < length ls)%nat ->
  sumf (pair_mass g ls t i) (seq 0 (cg_n g)) = visit_mass g ls t i.
Proof.
  intros Ht. rewrite visit_mass_eq.
  rewrite (sumf_ext _ (fun j => path_mass g ls
              (fun p => visits t i p && visits (S t) j p)))
    by (intros; apply pair_mass_eq).
  unfold path_mass. rewrite sumf_swap.
  apply sumf_ext. intros p Hp. rewrite sumf_scal_r. f_equal.
  destruct (visits t i p); simpl.
  - rewrite (visits_sum _ _ _ _ Hp Ht). reflexivity.
  - apply sumf_zero. intros; reflexivity.
Qed.

Lemma pair_mass_sum_left g ls t j :
  (S t < length ls)%nat ->
  sumf (fun i => pair_mass g ls t i j) (seq 0 (cg_n g)) = visit_mass g ls (S t) j.
Proof.
  intros Ht. rewrite visit_mass_eq.
  rewrite (sumf_ext _ (fun i => path_mass g ls
              (fun p => visits t i p && visits (S t) j p)))
    by (intros; apply pair_mass_eq).
  unfold path_mass. rewrite sumf_swap.
  apply sumf_ext. intros p Hp. rewrite sumf_scal_r. f_equal.
  destruct (visits (S t) j p); simpl.
  - rewrite <- (visits_sum (cg_n g) (length ls) p t Hp) by lia.
    apply sumf_ext. intros i _. now rewrite andb_true_r.
  - apply sumf_zero. intros i _. now rewrite andb_false_r.
Qed.

(** ** Main results *)
Lemma combine_nth_lt {A B} (l1 : list A) (l2 : list B) n d1 d2 :
  length l1 = length l2 -> nth n (combine l1 l2) (d1, d2) = (nth n l1 d1, nth n l2 d2).
Proof. intros. now apply combine_nth. Qed.

Lemma ex_lognorm g ls t da db :
  (t < length ls)%nat ->
  ex (lognorm g (nth t (forward g ls) da) (nth t (backward g ls) db)) = evidence g ls.
Proof.
  intros Ht. unfold lognorm. rewrite ex_lse, map_sumf.
  rewrite <- (visit_mass_total g ls t Ht). apply sumf_ext. intros j Hj.
  apply in_seq in Hj.
  rewrite ex_ladd, visit_mass_eq, (path_mass_visit g ls t j da db) by (auto; lia).
  reflexivity.
Qed.

Lemma evidence_nonneg g ls : 0 <= evidence g ls.
Proof.
  unfold evidence. apply sumf_nonneg. intros p _.
  assert (Ht : forall ls s p, 0 <= tail_prob g s ls p).
  { clear. induction ls as [|l ls IH]; intros s [|j p]; simpl; try lra.
    - apply ex_nonneg.
    - apply Rmult_le_pos; [apply Rmult_le_pos; apply ex_nonneg|apply IH]. }
  destruct ls as [|l ls], p as [|j p]; simpl; try lra.
  apply Rmult_le_pos; [apply Rmult_le_pos; apply ex_nonneg|apply Ht].
Qed.

Lemma posteriors_ok g ls :
  ls <> [] -> exists posts ln,
  posteriors g ls = Ok (posts, ln) /\ length posts = length ls.
Proof.
  intros H. destruct ls as [|l ls]; [congruence|].
  unfold posteriors. eexists _, _. split; [reflexivity|].
  rewrite map_length, combine_length, forward_length, backward_length. lia.
Qed.

Lemma posteriors_state g ls posts lnm t j d :
  posteriors g ls = Ok (posts, lnm) ->
  0 < evidence g ls -> (t < length ls)%nat -> (j < cg_n g)%nat ->
  nth t posts d j = Num (visit_mass g ls t j / evidence g ls).
Proof.
  intros H Hev Ht Hj. destruct ls as [|l0 ls0] eqn:E; [simpl in Ht; lia|].
  rewrite <- E in *. unfold posteriors in H. rewrite E in H at 1.
  inversion H; subst posts lnm; clear H.
  set (da := (cg_init g : row)).
  rewrite (map_nth_lt _ _ _ (da, da))
    by (rewrite combine_length, forward_length, backward_length; lia).
  rewrite combine_nth_lt by now rewrite forward_length, backward_length.
  simpl. unfold state_post.
  rewrite exp_sub_num.
  - rewrite ex_lognorm by auto. rewrite ex_ladd.
    rewrite visit_mass_eq, (path_mass_visit g ls t j da da) by auto. reflexivity.
  - rewrite ex_lognorm by auto. exact Hev.
Qed.

Lemma lp_mean_const l v : l <> [] -> (forall x, In x l -> x = Fin v) -> lp_mean l = Fin v.
Proof.
  intros Hne H. unfold lp_mean.
  assert (E : existsb is_ninf l = false).
  { apply not_true_iff_false. rewrite existsb_exists. intros (x & Hx & Hi).
    rewrite (H x Hx) in Hi. discriminate. }
  rewrite E. f_equal.
  change (sumf (fun a => match a with Fin r => r | NInf => 0 end) l / INR (length l) = v).
  rewrite (sumf_ext _ (fun _ => v)).
  - rewrite sumf_const. field. apply not_0_INR. destruct l; [congruence|discriminate].
  - intros x Hx. now rewrite (H x Hx).
Qed.

Lemma lp_mean_ninf l : In NInf l -> lp_mean l = NInf.
Proof.
  intros H. unfold lp_mean.
  assert (E : existsb is_ninf l = true) by (apply existsb_exists; exists NInf; auto).
  now rewrite E.
Qed.

Lemma lognorms_const g ls x :
  In x (map (fun x => lognorm g (fst x) (snd x)) (combine (forward g ls) (backward g ls))) ->
  ex x = evidence g ls.
Proof.
  intros H. apply (In_nth _ _ NInf) in H. destruct H as (t & Ht & <-).
  rewrite map_length, combine_length, forward_length, backward_length in Ht.
  set (da := (cg_init g : row)).
  rewrite (map_nth_lt _ _ _ (da, da))
    by (rewrite combine_length, forward_length, backward_length; lia).
  rewrite combine_nth_lt by now rewrite forward_length, backward_length.
  simpl. apply ex_lognorm. lia.
Qed.

Lemma posteriors_lognorm g ls posts lnm :
  posteriors g ls = Ok (posts, lnm) ->
  lnm = (if Rlt_dec 0 (evidence g ls) then Fin (ln (evidence g ls)) else NInf).
Proof.
  intros H. destruct ls as [|l0 ls0] eqn:E; [discriminate|].
  rewrite <- E in *. unfold posteriors in H. rewrite E in H at 1.
  inversion H; subst posts lnm; clear H.
  set (l := map _ _).
  assert (Hl : forall x, In x l -> ex x = evidence g ls) by (apply lognorms_const).
  assert (Hne : l <> []).
  { unfold l. rewrite E. simpl. intros Hc. destruct (bwd_from g ls0) eqn:Eb; [|discriminate].
    pose proof (bwd_from_length g ls0). rewrite Eb in H. discriminate. }
  destruct (Rlt_dec 0 (evidence g ls)) as [Hp|Hn].
  - apply lp_mean_const; auto. intros x Hx. apply lp_eq_ex.
    rewrite (Hl x Hx). simpl. now rewrite exp_ln.
  - apply lp_mean_ninf. destruct l as [|x l']; [congruence|].
    left. apply ex_zero_iff. rewrite (Hl x) by now left.
    pose proof (evidence_nonneg g ls). lra.
Qed.

(** Impossible observations: every posterior is NaN. *)
Lemma posteriors_impossible g ls posts lnm t j d :
  posteriors g ls = Ok (posts, lnm) ->
  evidence g ls = 0 -> (t < length ls)%nat -> (j < cg_n g)%nat ->
  nth t posts d j = NaN.
Proof.
  intros H Hev Ht Hj. destruct ls as [|l0 ls0] eqn:E; [simpl in Ht; lia|].
  rewrite <- E in *. unfold posteriors in H. rewrite E in H at 1.
  inversion H; subst posts lnm; clear H.
  set (da := (cg_init g : row)).
  rewrite (map_nth_lt _ _ _ (da, da))
    by (rewrite combine_length, forward_length, backward_length; lia).
  rewrite combine_nth_lt by now rewrite forward_length, backward_length.
  simpl. unfold state_post.
  assert (E1 : lognorm g (nth t (forward g ls) da) (nth t (backward g ls) da) = NInf).
  { apply ex_zero_iff. rewrite ex_lognorm; auto. }
  rewrite E1.
  assert (E2 : ladd (nth t (forward g ls) da j) (nth t (backward g ls) da j) = NInf).
  { apply ex_zero_iff.
    assert (Hz : rsum (map ex (map (fun j => ladd (nth t (forward g ls) da j)
                     (nth t (backward g ls) da j)) (seq 0 (cg_n g)))) = 0).
    { rewrite <- ex_lse. unfold lognorm in E1. rewrite E1. reflexivity. }
    rewrite map_sumf in Hz.
    eapply (sumf_zero_inv (fun x => ex (ladd (nth t (forward g ls) da x)
                                          (nth t (backward g ls) da x)))); eauto.
    - intros; apply ex_nonneg.
    - apply in_seq; lia. }
  rewrite E2. reflexivity.
Qed.

(** Transition posteriors. *)
Lemma sumf_pairs (f : nat -> nat -> R) n :
  sumf (fun ij => f (fst ij) (snd ij)) (pairs n) =
  sumf (fun i => sumf (fun j => f i j) (seq 0 n)) (seq 0 n).
Proof.
  unfold pairs. rewrite sumf_flat_map. apply sumf_ext. intros i _.
  now rewrite sumf_map.
Qed.

Lemma nth_removelast {A} (l : list A) t d :
  (S t < length l)%nat -> nth t (removelast l) d = nth t l d.
Proof.
  revert t. induction l as [|x l IH]; intros t Ht; [simpl in Ht; lia|].
  destruct l as [|y l]; [simpl in Ht; lia|].
  destruct t as [|t]; [reflexivity|]. simpl removelast. simpl nth at 1.
  rewrite IH by (simpl in *; lia). reflexivity.
Qed.

Lemma removelast_length {A} (l : list A) : length (removelast l) = pred (length l).
Proof.
  induction l as [|x l IH]; [reflexivity|].
  destruct l as [|y l]; [reflexivity|]. simpl in *. now rewrite IH.
Qed.

Lemma nth_tl {A} (l : list A) t d : nth t (tl l) d = nth (S t) l d.
Proof. destruct l; simpl; [destruct t; reflexivity|reflexivity]. Qed.

Lemma tl_length {A} (l : list A) : length (tl l) = pred (length l).
Proof. destruct l; reflexivity. Qed.

Lemma trans_posteriors_length g ls :
  length (trans_posteriors g ls) = pred (length ls).
Proof.
  unfold trans_posteriors.
  rewrite map_length, combine_length, combine_length, removelast_length,
    !tl_length, forward_length, backward_length. lia.
Qed.

Lemma trans_posteriors_nth g ls t d i j :
  (S t < length ls)%nat ->
  nth t (trans_posteriors g ls) d i j =
  trans_post g (nth t (forward g ls) (cg_init g)) (nth (S t) ls (cg_init g))
     (nth (S t) (backward g ls) (cg_init g)) i j.
Proof.
  intros Ht. unfold trans_posteriors. set (da := (cg_init g : row)).
  rewrite (map_nth_lt _ _ _ (da, (da, da))).
  2:{ rewrite !combine_length, removelast_length, !tl_length, forward_length,
        backward_length. lia. }
  rewrite combine_nth_lt.
  2:{ rewrite combine_length, removelast_length, !tl_length, forward_length,
        backward_length. lia. }
  rewrite combine_nth_lt by (now rewrite !tl_length, backward_length).
  simpl. rewrite nth_removelast by now rewrite forward_length.
  now rewrite !nth_tl.
Qed.

Lemma pair_mass_total g ls t :
  (S t < length ls)%nat ->
  sumf (fun i => sumf (pair_mass g ls t i) (seq 0 (cg_n g))) (seq 0 (cg_n g))
  = evidence g ls.
Proof.
  intros Ht. rewrite <- (visit_mass_total g ls t) by lia.
  apply sumf_ext. intros i _. now apply pair_mass_sum_right.
Qed.

Lemma ex_log_xi g ls t i j :
  (S t < length ls)%nat -> (i < cg_n g)%nat -> (j < cg_n g)%nat ->
  ex (log_xi g (nth t (forward g ls) (cg_init g)) (nth (S t) ls (cg_init g))
     (nth (S t) (backward g ls) (cg_init g)) i j) = pair_mass g ls t i j.
Proof.
  intros Ht Hi Hj. unfold log_xi. rewrite !ex_ladd, pair_mass_eq.
  now rewrite (path_mass_pair g ls t i j (cg_init g) (cg_init g) (cg_init g)).
Qed.

Lemma ex_lse_xi g ls t :
  (S t < length ls)%nat ->
  ex (lse (map (fun ij => log_xi g (nth t (forward g ls) (cg_init g))
                 (nth (S t) ls (cg_init g))
                 (nth (S t) (backward g ls) (cg_init g)) (fst ij) (snd ij))
            (pairs (cg_n g)))) = evidence g ls.
Proof.
  intros Ht. rewrite ex_lse, map_sumf.
  rewrite (sumf_pairs (fun i j => ex (log_xi g (nth t (forward g ls) (cg_init g))
                 (nth (S t) ls (cg_init g))
                 (nth (S t) (backward g ls) (cg_init g)) i j))).
  rewrite <- (pair_mass_total g ls t Ht).
  apply sumf_ext. intros i Hi. apply sumf_ext. intros j Hj.
  apply in_seq in Hi. apply in_seq in Hj. apply ex_log_xi; auto; lia.
Qed.

Lemma trans_posteriors_pair g ls t d i j :
  0 < evidence g ls ->
  (S t < length ls)%nat -> (i < cg_n g)%nat -> (j < cg_n g)%nat ->
  nth t (trans_posteriors g ls) d i j =
  Num (pair_mass g ls t i j / evidence g ls).
Proof.
  intros Hev Ht Hi Hj. rewrite trans_posteriors_nth by auto.
  unfold trans_post. rewrite exp_sub_num by (rewrite ex_lse_xi; auto).
  rewrite ex_lse_xi, ex_log_xi by auto. reflexivity.
Qed.

Lemma trans_posteriors_impossible g ls t d i j :
  evidence g ls = 0 ->
  (S t < length ls)%nat -> (i < cg_n g)%nat -> (j < cg_n g)%nat ->
  nth t (trans_posteriors g ls) d i j = Num 0.
Proof.
  intros Hev Ht Hi Hj. rewrite trans_posteriors_nth by auto.
  unfold trans_post.
  assert (E1 : log_xi g (nth t (forward g ls) (cg_init g)) (nth (S t) ls (cg_init g))
     (nth (S t) (backward g ls) (cg_init g)) i j = NInf).
  { apply ex_zero_iff. rewrite ex_log_xi by auto.
    pose proof (pair_mass_total g ls t Ht) as Htot. rewrite Hev in Htot.
    assert (Hnn : forall i j, 0 <= pair_mass g ls t i j).
    { intros. unfold pair_mass. apply sumf_nonneg. intros p _.
      assert (Hq : forall ls s p, 0 <= tail_prob g s ls p).
      { clear. induction ls as [|l ls IH]; intros s [|j p]; simpl; try lra.
        - apply ex_nonneg.
        - apply Rmult_le_pos; [apply Rmult_le_pos; apply ex_nonneg|apply IH]. }
      destruct ls as [|l ls], p as [|k p]; simpl; try lra.
      apply Rmult_le_pos; [apply Rmult_le_pos; apply ex_nonneg|apply Hq]. }
    assert (Hi0 : sumf (pair_mass g ls t i) (seq 0 (cg_n g)) = 0).
    { apply (sumf_zero_inv (fun i => sumf (pair_mass g ls t i) (seq 0 (cg_n g)))
               (seq 0 (cg_n g))); auto.
      - intros; apply sumf_nonneg; auto.
      - apply in_seq; lia. }
    eapply (sumf_zero_inv (pair_mass g ls t i)); eauto. apply in_seq; lia. }
  rewrite E1.
  assert (E2 : forall n, exp_sub NInf n = Num 0 \/ exp_sub NInf n = NaN).
  { intros [|r]; simpl; auto. }
  match goal with |- nan_to_zero (exp_sub NInf ?n) = _ => destruct (E2 n) as [->| ->] end;
  reflexivity.
Qed.
