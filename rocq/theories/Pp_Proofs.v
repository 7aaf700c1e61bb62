(** Proofs about the posteriors of a phone-loop. *)
From Coq Require Import Reals String List Arith Bool Lia Lra.
From Verif Require Import Prelude Vec Dec_Model Opt_Model Opt_Spec Opt_Proofs Opt_Pipe.
From Verif Require Import FB_Model FB_Spec FB_Proofs FB_Viterbi Graph_Model Graph_Spec Graph_Proofs
  Gb_Model Gb_Spec Gb_Lang Gb_Proofs Gb_Loop Pa_Spec.
From Verif Require Import Set_Model Set_Spec Set_Index Set_Proofs HMM_Model HMM_Spec HMM_Proofs HMM_Props
  Vt_Model Vt_Spec Vt_Proofs Vl_Model Rp_Spec Rp_Start De_Proofs Na_Spec Pp_Model Pp_Spec.
Import ListNotations.
Local Open Scope R_scope.

(** ** Sums of slices *)
Lemma nsum_num l : nsum (map Num l) = Num (rsum l).
Proof. induction l as [|x l IH]; [reflexivity|]. cbn [map]. unfold nsum in *. cbn [fold_right]. rewrite IH. reflexivity. Qed.

Lemma slice_map {A B} (f : A -> B) l a b : slice (map f l) a b = map f (slice l a b).
Proof. unfold slice. now rewrite skipn_map, firstn_map. Qed.

Lemma slice_seq n a b : (b <= n)%nat -> slice (seq 0 n) a b = seq a (b - a).
Proof.
  intros H. destruct (le_lt_dec a b) as [L|L].
  - replace (seq 0 n) with (seq 0 a ++ seq a (b - a) ++ seq b (n - b)).
    + unfold slice. rewrite skipn_app, skipn_all2 by (rewrite seq_length; lia). rewrite seq_length, Nat.sub_diag. cbn [skipn app].
      rewrite firstn_app, firstn_all2 by (rewrite seq_length; lia). rewrite seq_length, Nat.sub_diag. cbn [firstn]. now rewrite app_nil_r.
    + replace n with (a + ((b - a) + (n - b)))%nat at 2 by lia. rewrite !seq_app. do 2 f_equal. simpl. f_equal. lia.
  - unfold slice. replace (b - a)%nat with 0%nat by lia. reflexivity.
Qed.

(** ** Probabilities *)
Definition within (a b s : nat) : bool := (a <=? s)%nat && (s <? b)%nat.

Lemma chance_range g rows t a b : (t < length rows)%nat -> (b <= cg_n g)%nat ->
  sumf (fun j => visit_mass g rows t j / evidence g rows) (seq a (b - a)) = chance g rows (fun p => within a b (nth t p 0%nat)).
Proof.
  intros Ht Hb. unfold chance. rewrite <- (expect_state g rows t (fun s => if within a b s then 1 else 0)) by exact Ht.
  destruct (le_lt_dec a b) as [L|L].
  - replace (cg_n g) with (a + ((b - a) + (cg_n g - b)))%nat by lia. rewrite !seq_app, !sumf_app.
    rewrite (sumf_zero _ (seq 0 a)), (sumf_zero _ (seq (0 + a + (b - a)) _)).
    + rewrite Rplus_0_l, Rplus_0_r. simpl (0 + a)%nat. apply sumf_ext. intros j Hj. apply in_seq in Hj. unfold within.
      rewrite (proj2 (Nat.leb_le a j)), (proj2 (Nat.ltb_lt j b)) by lia. simpl. ring.
    + intros j Hj. apply in_seq in Hj. unfold within. rewrite (proj2 (Nat.ltb_ge j b)), andb_false_r by lia. ring.
    + intros j Hj. apply in_seq in Hj. unfold within. rewrite (proj2 (Nat.leb_gt a j)) by lia. simpl. ring.
  - replace (b - a)%nat with 0%nat by lia. cbn [seq]. rewrite sumf_nil. symmetry. apply sumf_zero. intros j _. unfold within.
    destruct (Nat.leb_spec a j), (Nat.ltb_spec j b); simpl; try lia; ring.
Qed.

Lemma chance_ext g rows Q Q' : (forall p, In p (paths (cg_n g) (length rows)) -> Q p = Q' p) -> chance g rows Q = chance g rows Q'.
Proof. intros H. apply expect_ext. intros p Hp. now rewrite H. Qed.

(** The paths which are impossible do not count. *)
Lemma chance_none g rows Q : (forall p, In p (paths (cg_n g) (length rows)) -> path_prob g rows p <> 0 -> Q p = false) -> chance g rows Q = 0.
Proof.
  intros H. unfold chance, expect. apply sumf_zero. intros p Hp. destruct (Req_dec (path_prob g rows p) 0) as [E|E].
  - rewrite E. unfold Rdiv. ring.
  - rewrite (H p Hp E). ring.
Qed.

(** ** HMM.posteriors *)
Section Post.
  Variables (amax : nat -> (nat -> lp) -> nat) (m : mset) (g : cgraph) (order : list nat) (scale : R) (stats : mat).
  Hypothesis Hw : Set_Spec.wf m.
  Hypothesis Ho : forall o, In o order -> (o < size m)%nat.
  Hypothesis Hn : length order = cg_n g.
  Hypothesis Hst : stats <> [].
  Let rows := HMM_Spec.frames 1 (reorder (denote m) order) (map (vscale scale) stats).

  Lemma post_rows : length rows = length stats.
  Proof. unfold rows. rewrite frames_length. apply map_length. Qed.

  Lemma posts_are : exists posts lnm, hmm_posteriors amax m g order scale stats = Ok posts /\ posteriors g rows = Ok (posts, lnm) /\
    length posts = length stats.
  Proof.
    unfold hmm_posteriors. rewrite pc_llhs_reorder by auto. cbn [bindr]. unfold inference. rewrite as_rows_frames. fold rows.
    destruct (posteriors_ok g rows) as (posts & lnm & Hp & Hl).
    { intros E. apply (f_equal (@length _)) in E. rewrite post_rows in E. destruct stats; [congruence|discriminate]. }
    exists posts, lnm. rewrite Hp. split; [reflexivity|]. split; [reflexivity|]. rewrite Hl. apply post_rows.
  Qed.

  (** The rows as numbers *)
  Definition prow (t : nat) : list R := map (fun j => visit_mass g rows t j / evidence g rows) (seq 0 (cg_n g)).

  Lemma posts_num posts lnm : posteriors g rows = Ok (posts, lnm) -> length posts = length stats -> 0 < evidence g rows ->
    map (fun r => map r (seq 0 (cg_n g))) posts = map (map Num) (map prow (seq 0 (length stats))).
  Proof.
    intros E L Hev. apply (nth_ext _ _ [] []); [now rewrite !map_length, seq_length|]. intros t Ht. rewrite map_length in Ht.
    rewrite (map_nth_lt _ _ _ (fun _ => NaN)) by exact Ht. rewrite (map_nth_lt _ _ _ []) by (rewrite map_length, seq_length; lia).
    rewrite (map_nth_lt _ _ _ 0%nat) by (rewrite seq_length; lia). rewrite seq_nth by lia. simpl (0 + t)%nat.
    unfold prow. rewrite map_map. apply map_ext_in. intros j Hj. apply in_seq in Hj.
    apply (posteriors_state g rows posts lnm); auto; rewrite ?post_rows; lia.
  Qed.

  Lemma posts_nan posts lnm : posteriors g rows = Ok (posts, lnm) -> length posts = length stats -> evidence g rows = 0 ->
    map (fun r => map r (seq 0 (cg_n g))) posts = repeat (repeat NaN (cg_n g)) (length stats).
  Proof.
    intros E L Hev. apply (nth_ext _ _ [] []); [now rewrite map_length, repeat_length|]. intros t Ht. rewrite map_length in Ht.
    rewrite (map_nth_lt _ _ _ (fun _ => NaN)) by exact Ht. rewrite (nth_indep _ [] (repeat NaN (cg_n g))) by (rewrite repeat_length; lia).
    rewrite nth_repeat. apply (nth_ext _ _ NaN NaN); [now rewrite map_length, seq_length, repeat_length|]. intros j Hj.
    rewrite map_length, seq_length in Hj. rewrite nth_repeat. rewrite (map_nth_lt _ _ _ 0%nat) by (now rewrite seq_length).
    rewrite seq_nth by exact Hj. apply (posteriors_impossible g rows posts lnm); auto; rewrite post_rows; lia.
  Qed.

  Lemma post_evidence p : In p (paths (cg_n g) (length stats)) -> 0 < prior_prob g (length stats) p -> 0 < evidence g rows.
  Proof.
    intros Hp Hpr. apply (evidence_pos g 1 _ (map (vscale scale) stats) p); rewrite ?map_length; auto.
    unfold reorder. now rewrite map_length.
  Qed.

  Lemma post_no_evidence : no_path g (length stats) -> evidence g rows = 0.
  Proof.
    intros H. unfold evidence. rewrite post_rows. apply sumf_zero. intros p Hp. unfold rows.
    rewrite path_prob_frames; rewrite ?map_length; auto; [rewrite H by exact Hp; ring|]. unfold reorder. now rewrite map_length.
  Qed.
End Post.

(** ** The units *)
Section Unit.
  Variables (t : list (nat * nat * R)) (k n x : nat).
  Hypothesis Hn : (2 <= n)%nat.
  Hypothesis Ho : one_way t n.
  Hypothesis Hx : single_exit t n x.

  Lemma walk_last a ls w : walk (unit_of t k n) a ls w (n - 1) -> a <> (n - 1)%nat ->
    (ls = [] -> a = x) /\ (ls <> [] -> List.last ls 0%nat = (k + (x - 1))%nat).
  Proof.
    intros H. remember (n - 1)%nat as z eqn:Ez. induction H as [a|a c o ls w v b Ha Hs Hw IH]; intros Az; [contradiction|].
    destruct (unit_step t k n (S x) x Hn Ho (Nat.neq_succ_diag_l x) a c o v Ha Hs) as ((w0 & Hin) & C0 & Hlt & ->).
    destruct (Nat.eqb_spec c (n - 1)) as [Ec|Ec].
    - assert (Ea : a = x) by (destruct Hx as (_ & _ & Hall); exact (Hall _ Hin Ec)).
      assert (ls = []).
      { inversion Hw as [|a' c' o' ls' w' v' b' Ha' Hs' Hw']; subst; [reflexivity|].
        destruct (unit_step t k n (S x) x Hn Ho (Nat.neq_succ_diag_l x) (n - 1)%nat c' o' v' Ha' Hs') as ((w1 & Hin') & _).
        exfalso. destruct Ho as (_ & O2 & _). exact (O2 _ Hin' eq_refl). }
      subst ls. cbn [app]. split; [auto|congruence].
    - destruct (IH Ez) as (I1 & I2); [congruence|]. cbn [app]. split; [discriminate|]. intros _.
      destruct ls as [|y ls]; [rewrite (I1 eq_refl); reflexivity|]. change (List.last (y :: ls) 0%nat = (k + (x - 1))%nat). now apply I2.
  Qed.

  Lemma unit_last ls : Gb_Spec.accepts (unit_of t k n) ls -> ls <> [] /\ List.last ls 0%nat = (k + (x - 1))%nat.
  Proof.
    intros (w & s & f & o & ls' & Es & Ee & Hs & Hw & ->).
    simpl in Es, Ee. injection Es as <-. injection Ee as <-.
    apply unit_sts_in in Hs. destruct Hs as (_ & ->). cbn [unit_pdf Nat.eqb orb label app].
    destruct (walk_last 0%nat ls' w Hw) as (I1 & I2); [lia|].
    assert (ls' <> []) by (intros E; specialize (I1 E); destruct Hx; lia). auto.
  Qed.
End Unit.

Lemma owned_seq t k n s : (2 <= n)%nat -> owned (unit_of t k n) s = within k (k + (n - 2)) s.
Proof.
  intros Hn. unfold owned, within. cbn [unit_of g_states]. apply Bool.eq_iff_eq_true. rewrite existsb_exists, andb_true_iff, Nat.leb_le, Nat.ltb_lt. split.
  - intros ([i o] & Hi & Ho). apply unit_sts_in in Hi. destruct Hi as (Hi & ->). cbn [snd] in Ho. unfold unit_pdf in Ho.
    destruct (Nat.eqb_spec i 0), (Nat.eqb_spec i (n - 1)); cbn [orb] in Ho; try discriminate. apply Nat.eqb_eq in Ho. lia.
  - intros H. exists ((s - k + 1)%nat, Some s). split; [|cbn [snd]; apply Nat.eqb_refl].
    apply unit_sts_in. split; [lia|]. unfold unit_pdf.
    destruct (Nat.eqb_spec (s - k + 1) 0), (Nat.eqb_spec (s - k + 1) (n - 1)); cbn [orb]; try lia. f_equal. lia.
Qed.

(** Units which follow each other: a state is in one of the ranges, last state
    excepted, or it is one of the last states. *)
Lemma ranges_sum s : forall (us : list (nat * nat)) a N, Forall (fun u => (1 <= snd u)%nat) us ->
  concat (map (fun u => seq (fst u) (snd u)) us) = seq a N ->
  sumf (fun u => if within (fst u) (fst u + snd u - 1) s then 1 else 0) us =
  (if within a (a + N) s then 1 else 0) - (if existsb (Nat.eqb s) (map (fun u => (fst u + snd u - 1)%nat) us) then 1 else 0) /\
  Forall (fun u => (a <= fst u /\ fst u + snd u <= a + N)%nat) us.
Proof.
  induction us as [|[k len] us IH]; intros a N F E.
  - cbn in E. destruct N; [|discriminate]. rewrite sumf_nil. cbn [map existsb]. unfold within. split; [|constructor].
    destruct (Nat.leb_spec a s), (Nat.ltb_spec s (a + 0)); simpl; try lia; lra.
  - inversion F as [|? ? F1 F2]; subst. cbn [fst snd map concat] in *.
    assert (HN : (len <= N)%nat).
    { apply (f_equal (@length nat)) in E. rewrite app_length, !seq_length in E. lia. }
    replace (seq a N) with (seq a len ++ seq (a + len) (N - len)) in E by (rewrite <- seq_app; f_equal; lia).
    assert (k = a). { destruct len; [lia|]. cbn [seq app] in E. now injection E. }
    subst k. apply app_inv_head in E. destruct (IH _ _ F2 E) as (I1 & I2). split.
    + rewrite sumf_cons, I1. cbn [fst snd existsb]. clear IH I1 E.
      assert (Ex : existsb (Nat.eqb s) (map (fun u => (fst u + snd u - 1)%nat) us) = true -> (a + len <= s)%nat).
      { intros H. apply existsb_exists in H. destruct H as (y & Hy & Ey). apply Nat.eqb_eq in Ey. subst y.
        apply in_map_iff in Hy. destruct Hy as (u & Eu & Hu). assert (Q := proj1 (Forall_forall _ _) I2 u Hu).
        assert (Q' := proj1 (Forall_forall _ _) F2 u Hu). cbn beta in Q, Q'. lia. }
      replace (a + len + (N - len))%nat with (a + N)%nat by lia. unfold within.
      destruct (existsb _ _); [specialize (Ex eq_refl)|clear Ex];
      destruct (Nat.leb_spec a s), (Nat.ltb_spec s (a + len - 1)), (Nat.leb_spec (a + len) s), (Nat.ltb_spec s (a + N)), (Nat.eqb_spec s (a + len - 1));
        simpl; try lia; lra.
    + constructor; [cbn [fst snd]; lia|]. eapply Forall_impl; [|exact I2]. intros u Hu. cbn beta in *. lia.
Qed.
