(** Lemmas on the variational training of HMMs over sets. *)
From Coq Require Import Reals List Arith Bool Lia Lra.
From Verif Require Import Prelude Vec Lgamma FB_Model FB_Spec FB_Proofs Edit_Model Dec_Model Set_Model Set_Spec Set_Proofs
  HMM_Model HMM_Spec HMM_Proofs HMM_Props Dist_Model Dist_Spec Dist_Proofs NG_Proofs KL_Proofs Dist_Props Mat NW_Model NW_Spec NW_Proofs NW_KL NW_Props
  Vt_Model Vt_Spec.
Import ListNotations.
Local Open Scope R_scope.

(** ** Jensen's inequality *)
Lemma ln_mono x y : 0 < x -> x <= y -> ln x <= ln y.
Proof. intros Hx [H|E]; [left; now apply ln_increasing|subst; lra]. Qed.

Lemma jensen {A} (l : list A) (w d : A -> R) :
  (forall a, In a l -> 0 <= w a) -> sumf w l = 1 ->
  sumf (fun a => w a * d a) l <= ln (sumf (fun a => w a * exp (d a)) l).
Proof.
  intros Hw H1. set (mu := sumf (fun a => w a * d a) l).
  assert (E : exp mu <= sumf (fun a => w a * exp (d a)) l).
  { apply Rle_trans with (sumf (fun a => exp mu * (w a * (1 + (d a - mu)))) l).
    - rewrite sumf_scal_l.
      assert (E : sumf (fun a => w a * (1 + (d a - mu))) l = 1).
      { rewrite (sumf_ext _ (fun a => w a * (1 - mu) + w a * d a)) by (intros; ring).
        rewrite sumf_plus, sumf_scal_r, H1. fold mu. ring. }
      rewrite E. lra.
    - apply sumf_le. intros a Ha. specialize (Hw a Ha).
      replace (exp (d a)) with (exp mu * exp (d a - mu)) by (rewrite <- exp_plus; f_equal; ring).
      pose proof (exp_ineq1_le (d a - mu)) as E. pose proof (exp_pos mu) as P.
      replace (w a * (exp mu * exp (d a - mu))) with (exp mu * (w a * exp (d a - mu))) by ring.
      apply Rmult_le_compat_l; [lra|]. apply Rmult_le_compat_l; auto. }
  rewrite <- (ln_exp mu). apply ln_mono; [apply exp_pos|exact E].
Qed.

(** ** Components *)
Definition dc : cell := CWeights [] [].

Lemma nw_ess_ok D p : nw_ok D p -> exists e, nw_ess p = Ok e /\ length e = (D + (D * D + 2))%nat.
Proof.
  intros (O1 & O2 & O3 & O4 & O5). destruct (chol_complete D _ O3) as (L & _ & HL).
  destruct (nw_ess_epar D p L O1 O2 HL) as (e & Ee & He). exists e. split; [auto|apply He].
Qed.

Lemma leaf_form_length k D c : leaf_cell k D c -> length (cell_form c) = suff_dim k D.
Proof.
  destruct k, c; simpl; try tauto; intros [_ H].
  - destruct H as (A & B & _). rewrite (ng_ess_length D); auto; lia.
  - destruct H as (A & _). now rewrite ig_ess_length, A.
  - destruct (nw_ess_ok D _ H) as (e & -> & L). exact L.
  - destruct H as (A & B & _). rewrite dir_ess_length; auto. intros ->. simpl in A. lia.
Qed.

Lemma weights_form_length n c : weights_cell n c -> length (cell_form c) = n.
Proof.
  destruct c; simpl; try tauto. intros [_ (A & B & _)]. rewrite dir_ess_length; auto.
  intros ->. simpl in A. lia.
Qed.

Lemma forms_nth st p k : (k < length (st p))%nat ->
  nth k (forms st p) [] = cell_form (nth k (st p) dc).
Proof. intros H. unfold forms. now rewrite (map_nth_lt _ _ _ dc). Qed.

Lemma forms_length st p : length (forms st p) = length (st p).
Proof. apply map_length. Qed.

(** ** Emissions *)
Fixpoint einst (tab : nat -> mat) (e : em) : em :=
  match e with
  | EComp p k _ c => EComp p k (nth k (tab p) []) c
  | EMix p k _ subs => EMix p k (nth k (tab p) []) (map (einst tab) subs)
  end.

Fixpoint etyped (k : kind) (D : nat) (st : state) (ps : list nat) (e : em) : Prop :=
  match e with
  | EComp p i _ _ => In p ps /\ (i < length (st p))%nat /\ leaf_cell k D (nth i (st p) dc)
  | EMix p i _ subs => In p ps /\ (i < length (st p))%nat /\ weights_cell (length subs) (nth i (st p) dc) /\
      subs <> [] /\
      (fix es l := match l with [] => True | e :: t => etyped k D st ps e /\ es t end) subs
  end.

Lemma etyped_subs k D st ps l :
  (fix es l := match l with [] => True | e :: t => etyped k D st ps e /\ es t end) l <->
  Forall (etyped k D st ps) l.
Proof.
  induction l as [|e l IH]; [split; auto|]. rewrite IH. split.
  - intros [A B]. now constructor.
  - intros H. inversion H; auto.
Qed.

Lemma etyped_mono k D st ps ps' e : incl ps ps' -> etyped k D st ps e -> etyped k D st ps' e.
Proof.
  intros Hi. induction e as [p i nf c|p i cf subs IH] using em_rect'; simpl.
  - intros (A & B & C). auto.
  - rewrite !etyped_subs. intros (A & B & C & N & E). split; [auto|]. split; [auto|]. split; [auto|]. split; [auto|].
    rewrite Forall_forall in *. auto.
Qed.

Lemma inst_joint tab l : inst tab (Joint l) = Joint (map (inst tab) l).
Proof. reflexivity. Qed.

Lemma typed_joint k D st l :
  (fix ts l := match l with [] => True | m :: t => typed k D st m /\ ts t end) l <-> Forall (typed k D st) l.
Proof.
  induction l as [|e l IH]; [split; auto|]. rewrite IH. split.
  - intros [A B]. now constructor.
  - intros H. inversion H; auto.
Qed.

Lemma inst_size k D st m : typed k D st m -> size (inst (forms st) m) = size m.
Proof.
  induction m as [p d nf c|l IH|m r IH|p cf m IH] using mset_rect'; intros H.
  - destruct H as (_ & H & _). cbn [inst size]. now rewrite forms_length.
  - cbn [typed] in H. rewrite typed_joint in H. rewrite inst_joint. cbn [size].
    induction IH as [|m t Hm Ht IHt]; [reflexivity|]. inversion H; subst. cbn [map]. now rewrite Hm, IHt.
  - destruct H as [H _]. cbn [inst size]. now rewrite IH.
  - destruct H as (_ & _ & H & _). cbn [inst size]. now rewrite forms_length.
Qed.

Lemma inst_params tab m : params (inst tab m) = params m.
Proof.
  induction m as [p d nf c|l IH|m r IH|p cf m IH] using mset_rect'.
  - reflexivity.
  - rewrite inst_joint. cbn [params].
    induction IH as [|m t Hm Ht IHt]; [reflexivity|]. cbn [map]. now rewrite Hm, IHt.
  - exact IH.
  - cbn [inst params]. now rewrite IH.
Qed.

Lemma inst_wf k D st m : typed k D st m -> wf (inst (forms st) m).
Proof.
  induction m as [p d nf c|l IH|m r IH|p cf m IH] using mset_rect'; intros H.
  - destruct H as (-> & H & F). cbn [inst wf]. unfold forms. apply Forall_map.
    eapply Forall_impl; [|exact F]. intros a Ha. now apply leaf_form_length.
  - cbn [typed] in H. rewrite typed_joint in H. rewrite inst_joint. cbn [wf].
    induction IH as [|m t Hm Ht IHt]; [exact I|]. inversion H; subst. cbn [map]. split; [now apply Hm|now apply IHt].
  - destruct H as [H Hr]. cbn [inst wf]. auto.
  - destruct H as (H & H0 & H1 & n & Hn & Hs & F). cbn [inst wf]. rewrite forms_length. split; [auto|]. split; [lia|].
    exists n. rewrite (inst_size k D) by auto. split; [auto|]. split; [now rewrite <- H1|].
    unfold forms. apply Forall_map. eapply Forall_impl; [|exact F]. intros a Ha. now apply weights_form_length.
Qed.

Lemma inst_accepts k D st m : typed k D st m -> accepts (suff_dim k D) (inst (forms st) m).
Proof.
  induction m as [p d nf c|l IH|m r IH|p cf m IH] using mset_rect'; intros H.
  - now destruct H as (-> & _).
  - cbn [typed] in H. rewrite typed_joint in H. rewrite inst_joint. cbn [accepts].
    induction IH as [|m t Hm Ht IHt]; [exact I|]. inversion H; subst. cbn [map]. split; [now apply Hm|now apply IHt].
  - destruct H as [H Hr]. cbn [inst accepts]. auto.
  - destruct H as (H & _). cbn [inst accepts]. auto.
Qed.

Lemma inst_denote k D st m : typed k D st m ->
  denote (inst (forms st) m) = map (einst (forms st)) (denote m).
Proof.
  induction m as [p d nf c|l IH|m r IH|p cf m IH] using mset_rect'; intros H.
  - destruct H as (_ & H & _). cbn [inst denote]. rewrite map_map, forms_length, H. reflexivity.
  - cbn [typed] in H. rewrite typed_joint in H. rewrite inst_joint. cbn [denote].
    induction IH as [|m t Hm Ht IHt]; [reflexivity|]. inversion H; subst. cbn [map]. now rewrite map_app, Hm, IHt.
  - destruct H as [H Hr]. cbn [inst denote]. rewrite IH by auto. rewrite map_length, map_map.
    apply map_ext_in. intros i Hi. apply in_seq in Hi.
    apply (map_nth_lt (einst (forms st)) (denote m) (i mod length (denote m)) e0).
    apply Nat.mod_upper_bound. lia.
  - destruct H as (H & H0 & H1 & n & Hn & Hs & F). cbn [inst denote]. rewrite IH by auto.
    rewrite map_length, forms_length, <- H1, map_map.
    assert (En : (length (denote m) / length cf = n)%nat) by (rewrite denote_length, Hs; now apply div_size).
    rewrite En. apply map_ext_in. intros i Hi. apply in_seq in Hi. cbn [einst].
    f_equal. rewrite map_map. apply map_ext_in. intros j Hj. apply in_seq in Hj.
    apply (map_nth_lt (einst (forms st)) (denote m) _ e0). rewrite denote_length, Hs. nia.
Qed.

Lemma Forall_nth_in {A} (P : A -> Prop) l k d : Forall P l -> (k < length l)%nat -> P (nth k l d).
Proof. intros H Hk. rewrite Forall_forall in H. apply H. now apply nth_In. Qed.

Lemma typed_etyped k D st m : typed k D st m -> Forall (etyped k D st (params m)) (denote m).
Proof.
  induction m as [p d nf c|l IH|m r IH|p cf m IH] using mset_rect'; intros H; apply Forall_forall; intros e He.
  - destruct H as (_ & H & F). cbn [denote] in He. apply in_map_iff in He. destruct He as (i & <- & Hi).
    apply in_seq in Hi. cbn. split; [auto|]. split; [lia|]. apply Forall_nth_in; auto. lia.
  - cbn [typed] in H. rewrite typed_joint in H. cbn [denote] in He. cbn [params].
    induction IH as [|m t Hm Ht IHt]; [destruct He|]. inversion H as [|? ? T1 T2]; subst.
    apply in_app_iff in He. destruct He as [He|He].
    + eapply etyped_mono; [|exact (proj1 (Forall_forall _ _) (Hm T1) e He)]. apply incl_appl, incl_refl.
    + eapply etyped_mono; [|apply IHt; auto]. apply incl_appr, incl_refl.
  - destruct H as [H Hr]. cbn [denote] in He. cbn [params]. apply in_map_iff in He. destruct He as (i & <- & Hi).
    apply in_seq in Hi. apply Forall_nth_in; auto. apply Nat.mod_upper_bound. lia.
  - destruct H as (H & H0 & H1 & n & Hn & Hs & F). cbn [denote] in He. apply in_map_iff in He.
    destruct He as (i & <- & Hi). apply in_seq in Hi.
    assert (En : (length (denote m) / length cf = n)%nat) by (rewrite denote_length, Hs; now apply div_size).
    rewrite En. cbn [etyped params]. rewrite etyped_subs, map_length, seq_length.
    split; [now left|]. split; [lia|]. split; [apply Forall_nth_in; auto; lia|].
    split; [destruct n; [lia|discriminate]|].
    apply Forall_map, Forall_forall. intros j Hj. apply in_seq in Hj.
    eapply etyped_mono; [|apply Forall_nth_in; [apply IH; auto|]]; [apply incl_tl, incl_refl|].
    rewrite denote_length, Hs. nia.
Qed.

(** ** The gain of an emission: linear in the change of the natural forms *)
Definition form (st : state) (q : nat * nat) : list R := nth (snd q) (forms st (fst q)) [].

Lemma joint_sum cf ll : length cf = length ll ->
  rsum (joint_probs cf ll) = sumf (fun j => exp (cat_logprob cf j + nth j ll 0)) (seq 0 (length ll)).
Proof.
  intros H. unfold joint_probs.
  rewrite (rsum_map2_index _ _ _ 0 0) by (rewrite cat_logprobs_length; auto).
  rewrite cat_logprobs_length, H. apply sumf_ext. intros j Hj. apply in_seq in Hj.
  unfold cat_logprobs. rewrite (map_nth_lt _ _ _ 0%nat), seq_nth by (rewrite ?seq_length; lia). reflexivity.
Qed.

Lemma em_post_nth x cf subs j : length cf = length subs -> (j < length subs)%nat ->
  nth j (em_post x cf subs) 0 =
  exp (cat_logprob cf j + em_llh x (nth j subs e0)) / rsum (joint_probs cf (map (em_llh x) subs)).
Proof.
  intros H Hj. unfold em_post.
  rewrite (map_nth_lt _ _ _ 0).
  2:{ unfold joint_probs. rewrite map2_length, cat_logprobs_length, map_length. lia. }
  f_equal. unfold joint_probs. rewrite (map2_nth _ _ _ _ 0 0) by (rewrite ?cat_logprobs_length, ?map_length; lia).
  rewrite (map_nth_lt _ _ _ e0) by auto. unfold cat_logprobs.
  rewrite (map_nth_lt _ _ _ 0%nat), seq_nth by (rewrite ?seq_length; lia). reflexivity.
Qed.

Fixpoint gain (x : list R) (st st' : state) (e : em) : R :=
  match e with
  | EComp p i _ _ => dot x (form st' (p, i)) - dot x (form st (p, i))
  | EMix p i _ subs =>
      sumf (fun j => nth j (em_post x (form st (p, i)) (map (einst (forms st)) subs)) 0 *
                     (cat_logprob (form st' (p, i)) j - cat_logprob (form st (p, i)) j +
                      nth j (map (gain x st st') subs) 0)) (seq 0 (length subs))
  end.

Lemma form_weights st p i n : (i < length (st p))%nat -> weights_cell n (nth i (st p) dc) ->
  length (form st (p, i)) = n.
Proof. intros H W. unfold form. cbn [fst snd]. rewrite forms_nth by auto. now apply weights_form_length. Qed.

Lemma form_leaf k D st p i : (i < length (st p))%nat -> leaf_cell k D (nth i (st p) dc) ->
  length (form st (p, i)) = suff_dim k D.
Proof. intros H W. unfold form. cbn [fst snd]. rewrite forms_nth by auto. now apply leaf_form_length. Qed.

Lemma gain_le k D x st st' ps e : etyped k D st ps e -> etyped k D st' ps e ->
  gain x st st' e <= em_llh x (einst (forms st') e) - em_llh x (einst (forms st) e).
Proof.
  induction e as [p i nf c|p i cf subs IH] using em_rect'.
  - intros _ _. cbn [gain einst em_llh]. unfold form. cbn [fst snd]. lra.
  - cbn [etyped]. rewrite !etyped_subs. intros (_ & I1 & W1 & Hne & T1) (_ & I2 & W2 & _ & T2).
    cbn [gain einst em_llh]. change (nth i (forms st p) []) with (form st (p, i)).
    change (nth i (forms st' p) []) with (form st' (p, i)).
    assert (L1 := form_weights st p i _ I1 W1). assert (L2 := form_weights st' p i _ I2 W2).
    set (F := form st (p, i)) in *. set (F' := form st' (p, i)) in *. rewrite !map_map.
    rewrite !joint_sum by (now rewrite map_length). rewrite !map_length.
    set (a := fun j => cat_logprob F j + nth j (map (fun e => em_llh x (einst (forms st) e)) subs) 0).
    set (a' := fun j => cat_logprob F' j + nth j (map (fun e => em_llh x (einst (forms st') e)) subs) 0).
    set (n := length subs) in *.
    change (sumf (fun j => exp (cat_logprob F' j + _)) (seq 0 n)) with (sumf (fun j => exp (a' j)) (seq 0 n)).
    change (sumf (fun j => exp (cat_logprob F j + _)) (seq 0 n)) with (sumf (fun j => exp (a j)) (seq 0 n)).
    assert (Hn : (0 < n)%nat) by (unfold n; destruct subs; [congruence|simpl; lia]).
    assert (P : forall b : nat -> R, 0 < sumf (fun j => exp (b j)) (seq 0 n)).
    { intros b. apply (sumf_pos _ _ 0%nat); [intros; left; apply exp_pos|apply in_seq; lia|apply exp_pos]. }
    set (Z := sumf (fun j => exp (a j)) (seq 0 n)). assert (PZ : 0 < Z) by apply P.
    assert (J := jensen (seq 0 n) (fun j => exp (a j) / Z) (fun j => a' j - a j)).
    assert (E1 : sumf (fun j => exp (a j) / Z) (seq 0 n) = 1).
    { unfold Rdiv. rewrite sumf_scal_r. fold Z. field. lra. }
    assert (E2 : sumf (fun j => exp (a j) / Z * exp (a' j - a j)) (seq 0 n) = sumf (fun j => exp (a' j)) (seq 0 n) * / Z).
    { rewrite <- sumf_scal_r. apply sumf_ext. intros j _. unfold Rdiv.
      replace (exp (a' j)) with (exp (a j) * exp (a' j - a j)) by (rewrite <- exp_plus; f_equal; ring). ring. }
    cbv beta in J. rewrite E2, ln_mult, ln_Rinv in J; auto using Rinv_0_lt_compat.
    eapply Rle_trans; [|apply J; [intros; left; apply Rdiv_lt_0_compat; auto using exp_pos|exact E1]].
    apply sumf_le. intros j Hj. apply in_seq in Hj.
    rewrite em_post_nth by (rewrite ?map_length; fold n; auto; lia).
    rewrite map_map, joint_sum by (now rewrite map_length). rewrite map_length. fold n.
    change (sumf (fun j => exp (cat_logprob F j + _)) (seq 0 n)) with Z.
    assert (Hjs : (j < length subs)%nat) by (fold n; lia).
    rewrite (map_nth_lt _ _ _ e0), (map_nth_lt _ _ _ e0) by auto.
    replace (cat_logprob F j + em_llh x (einst (forms st) (nth j subs e0))) with (a j)
      by (unfold a; now rewrite (map_nth_lt _ _ _ e0)).
    apply Rmult_le_compat_l; [left; apply Rdiv_lt_0_compat; auto using exp_pos|].
    unfold a, a'. rewrite !(map_nth_lt _ _ _ e0) by auto.
    assert (G := Forall_nth_in _ _ _ e0 IH Hjs (Forall_nth_in _ _ _ e0 T1 Hjs) (Forall_nth_in _ _ _ e0 T2 Hjs)). lra.
Qed.

(** The gain in terms of the accumulated statistics of the emission. *)
Definition eqq (a b : nat * nat) : {a = b} + {a <> b}.
Proof. decide equality; apply Nat.eq_dec. Defined.

Lemma is_cell p i (q : nat * nat) : (Nat.eqb p (fst q) && Nat.eqb i (snd q))%bool = true <-> q = (p, i).
Proof.
  destruct q as [a b]. cbn [fst snd]. rewrite andb_true_iff, !Nat.eqb_eq. split.
  - intros [-> ->]. reflexivity.
  - intros E. injection E as -> ->. auto.
Qed.

Definition lin_gain (Q : list (nat * nat)) (st st' : state) (x : list R) (e : em) (r : R) : R :=
  sumf (fun q => sumf (fun i => em_acc q x i (einst (forms st) e) r *
                                (nth i (form st' q) 0 - nth i (form st q) 0))
                  (seq 0 (length (form st q)))) Q.

Lemma dot_diff x u v : length x = length u -> length x = length v ->
  dot x u - dot x v = sumf (fun i => nth i x 0 * (nth i u 0 - nth i v 0)) (seq 0 (length v)).
Proof.
  intros H1 H2. rewrite !dot_nth by auto. rewrite H2, <- sumf_minus. apply sumf_ext. intros; ring.
Qed.

Lemma cat_gain (post F F' : list R) n : (0 < n)%nat -> length F = n -> length F' = n -> length post = n -> rsum post = 1 ->
  sumf (fun j => nth j post 0 * (cat_logprob F' j - cat_logprob F j)) (seq 0 n) =
  sumf (fun i => (if Nat.eqb (S i) n then 1 else nth i post 0) * (nth i F' 0 - nth i F 0)) (seq 0 n).
Proof.
  intros Hn L1 L2 Lp Sp. destruct n as [|n]; [lia|].
  assert (La : forall l : list R, length l = S n -> last l 0 = nth n l 0).
  { intros l Hl. rewrite last_nth, Hl. reflexivity. }
  rewrite rsum_nth, Lp, seq_S, sumf_app, sumf_cons, sumf_nil in Sp. cbn [plus] in Sp.
  rewrite seq_S, !sumf_app, !sumf_cons, !sumf_nil. cbn [plus]. rewrite Nat.eqb_refl.
  rewrite (sumf_ext _ (fun i => nth i post 0 * (nth i F' 0 - nth i F 0) + nth i post 0 * (nth n F' 0 - nth n F 0)) (seq 0 n)).
  2:{ intros j Hj. apply in_seq in Hj. unfold cat_logprob. rewrite L1, L2.
      destruct (Nat.eqb_spec (S j) (S n)); [lia|]. rewrite !La by auto. ring. }
  rewrite (sumf_ext (fun i => (if Nat.eqb (S i) (S n) then 1 else nth i post 0) * _) (fun i => nth i post 0 * (nth i F' 0 - nth i F 0)) (seq 0 n)).
  2:{ intros j Hj. apply in_seq in Hj. destruct (Nat.eqb_spec (S j) (S n)); [lia|]. reflexivity. }
  rewrite sumf_plus, sumf_scal_r. unfold cat_logprob. rewrite L1, L2, Nat.eqb_refl.
  replace (nth n post 0) with (1 - sumf (fun i => nth i post 0) (seq 0 n)) by lra. ring.
Qed.

Lemma gain_acc k D x st st' ps Q e r : NoDup Q ->
  (forall p i, In p ps -> (i < length (st p))%nat -> In (p, i) Q) ->
  etyped k D st ps e -> etyped k D st' ps e -> length x = suff_dim k D ->
  r * gain x st st' e = lin_gain Q st st' x e r.
Proof.
  intros HQ HIn. revert r. induction e as [p i nf c|p i cf subs IH] using em_rect'; intros r T1 T2 Lx.
  - destruct T1 as (P1 & I1 & W1), T2 as (_ & I2 & W2). unfold lin_gain.
    rewrite (sumf_single _ Q (p, i)); auto.
    + cbn [gain einst em_acc fst snd]. rewrite !Nat.eqb_refl. cbn [andb].
      rewrite dot_diff by (rewrite (form_leaf k D); auto). rewrite <- sumf_scal_l.
      apply sumf_ext. intros; ring.
    + intros q _ Nq. apply sumf_zero. intros j _. cbn [einst em_acc].
      destruct (_ && _) eqn:E; [apply is_cell in E; congruence|ring].
  - cbn [etyped] in T1, T2. rewrite etyped_subs in T1, T2.
    destruct T1 as (P1 & I1 & W1 & Hne & T1), T2 as (_ & I2 & W2 & _ & T2).
    assert (L1 := form_weights st p i _ I1 W1). assert (L2 := form_weights st' p i _ I2 W2).
    set (n := length subs) in *. assert (Hn : (0 < n)%nat) by (unfold n; destruct subs; [congruence|simpl; lia]).
    unfold lin_gain. cbn [gain einst em_acc]. change (nth i (forms st p) []) with (form st (p, i)).
    set (F := form st (p, i)) in *. set (F' := form st' (p, i)) in *.
    set (post := em_post x F (map (einst (forms st)) subs)).
    assert (Lp : length post = n) by (unfold post; rewrite em_post_length; rewrite map_length; auto).
    assert (Sp : rsum post = 1).
    { apply em_post_sum; [now rewrite map_length|]. destruct subs; [congruence|discriminate]. }
    rewrite (sumf_ext (fun q => sumf (fun _ => _) _) (fun q =>
      (if Nat.eqb p (fst q) && Nat.eqb i (snd q) then
         sumf (fun j => r * (if Nat.eqb (S j) n then 1 else nth j post 0) * (nth j F' 0 - nth j F 0)) (seq 0 n)
       else 0) +
      sumf (fun j => sumf (fun a => em_acc q x a (einst (forms st) (nth j subs e0)) (r * nth j post 0) *
          (nth a (form st' q) 0 - nth a (form st q) 0)) (seq 0 (length (form st q)))) (seq 0 n))).
    2:{ intros q _.
        rewrite (sumf_ext _ (fun a =>
          (if Nat.eqb p (fst q) && Nat.eqb i (snd q) then r * (if Nat.eqb (S a) n then 1 else nth a post 0) else 0) *
            (nth a (form st' q) 0 - nth a (form st q) 0) +
          sumf (fun j => em_acc q x a (einst (forms st) (nth j subs e0)) (r * nth j post 0) *
            (nth a (form st' q) 0 - nth a (form st q) 0)) (seq 0 n))).
        2:{ intros a _. rewrite !map_length. fold n. rewrite Rmult_plus_distr_r. f_equal.
            rewrite sumf_scal_r. f_equal. rewrite map2_map_r, map2_map_r.
            rewrite (rsum_map2_index _ _ _ 0 e0) by exact Lp. rewrite Lp. reflexivity. }
        rewrite sumf_plus. f_equal; [|apply sumf_swap].
        destruct (_ && _) eqn:E.
        - apply is_cell in E. subst q. fold F F'. rewrite L1. reflexivity.
        - apply sumf_zero. intros; ring. }
    rewrite sumf_plus. rewrite (sumf_single _ Q (p, i)); auto.
    2:{ intros q _ Nq. destruct (_ && _) eqn:E; [apply is_cell in E; congruence|reflexivity]. }
    cbn [fst snd]. rewrite !Nat.eqb_refl. cbn [andb].
    rewrite (sumf_ext (fun j => r * _ * _) (fun j => r * ((if Nat.eqb (S j) n then 1 else nth j post 0) * (nth j F' 0 - nth j F 0)))) by (intros; ring).
    rewrite sumf_scal_l, <- cat_gain by auto. rewrite sumf_swap.
    rewrite (sumf_ext (fun j => nth j post 0 * (_ + _)) (fun j => nth j post 0 * (cat_logprob F' j - cat_logprob F j) +
       nth j post 0 * gain x st st' (nth j subs e0))).
    2:{ intros j Hj. apply in_seq in Hj. rewrite (map_nth_lt _ _ _ e0) by (fold n; lia). ring. }
    rewrite sumf_plus, Rmult_plus_distr_l. f_equal. rewrite <- sumf_scal_l. apply sumf_ext.
    intros j Hj. apply in_seq in Hj. assert (Hjs : (j < length subs)%nat) by (fold n; lia).
    rewrite <- Rmult_assoc.
    apply (Forall_nth_in _ _ _ e0 IH Hjs (r * nth j post 0) (Forall_nth_in _ _ _ e0 T1 Hjs) (Forall_nth_in _ _ _ e0 T2 Hjs) Lx).
Qed.

(** ** One utterance *)
Lemma path_prob_le_evidence g ls p : In p (paths (cg_n g) (length ls)) -> path_prob g ls p <= evidence g ls.
Proof. intros H. apply (sumf_ge_term (path_prob g ls)); auto. intros; apply path_prob_nonneg. Qed.

Lemma evidence_pos g scale es stats p : length es = cg_n g ->
  In p (paths (cg_n g) (length stats)) -> 0 < prior_prob g (length stats) p ->
  0 < evidence g (frames scale es stats).
Proof.
  intros Hl Hp Hpos. eapply Rlt_le_trans; [|apply (path_prob_le_evidence g _ p); now rewrite frames_length].
  rewrite path_prob_frames by auto. apply Rmult_lt_0_compat; [auto|apply exp_pos].
Qed.

Lemma utt_gain k D st st' ps Q g scale es0 stats : NoDup Q -> 0 <= scale ->
  (forall p i, In p ps -> (i < length (st p))%nat -> In (p, i) Q) ->
  length es0 = cg_n g -> Forall (etyped k D st ps) es0 -> Forall (etyped k D st' ps) es0 ->
  Forall (fun x => length x = suff_dim k D) stats ->
  let es := map (einst (forms st)) es0 in let es' := map (einst (forms st')) es0 in
  0 < evidence g (frames scale es stats) -> 0 < evidence g (frames scale es' stats) ->
  sumf (fun q => sumf (fun i => scale * expect g (frames scale es stats) (path_stats q i es stats) *
      (nth i (form st' q) 0 - nth i (form st q) 0)) (seq 0 (length (form st q)))) Q <=
  ln (evidence g (frames scale es' stats)) - ln (evidence g (frames scale es stats)).
Proof.
  intros HQ Hs HIn Hl T1 T2 Hx es es' P1 P2.
  assert (Le : length es = cg_n g) by (unfold es; now rewrite map_length).
  assert (Le' : length es' = cg_n g) by (unfold es'; now rewrite map_length).
  set (T := length stats). set (ps0 := paths (cg_n g) T).
  set (Z := evidence g (frames scale es stats)) in *. set (Z' := evidence g (frames scale es' stats)) in *.
  set (L := path_loglik scale es stats). set (L' := path_loglik scale es' stats).
  set (pr := prior_prob g T).
  assert (EZ : Z = sumf (fun p => pr p * exp (L p)) ps0).
  { unfold Z, evidence. rewrite frames_length. apply sumf_ext. intros p Hp. now apply path_prob_frames. }
  assert (EZ' : Z' = sumf (fun p => pr p * exp (L' p)) ps0).
  { unfold Z', evidence. rewrite frames_length. apply sumf_ext. intros p Hp. now apply path_prob_frames. }
  assert (Ew : forall f, expect g (frames scale es stats) f = sumf (fun p => pr p * exp (L p) / Z * f p) ps0).
  { intros f. unfold expect. rewrite frames_length. apply sumf_ext. intros p Hp.
    rewrite path_prob_frames by auto. reflexivity. }
  assert (Hpr : forall p, 0 <= pr p) by (intros; apply path_prob_nonneg).
  assert (Hw : forall p, 0 <= pr p * exp (L p) / Z).
  { intros p. apply Rmult_le_pos; [apply Rmult_le_pos; [apply Hpr|left; apply exp_pos]|left; now apply Rinv_0_lt_compat]. }
  assert (J := jensen ps0 (fun p => pr p * exp (L p) / Z) (fun p => L' p - L p)). cbv beta in J.
  assert (E1 : sumf (fun p => pr p * exp (L p) / Z) ps0 = 1).
  { unfold Rdiv. rewrite sumf_scal_r, <- EZ. field. lra. }
  assert (E2 : sumf (fun p => pr p * exp (L p) / Z * exp (L' p - L p)) ps0 = Z' * / Z).
  { rewrite EZ', <- sumf_scal_r. apply sumf_ext. intros p _. unfold Rdiv.
    replace (exp (L' p)) with (exp (L p) * exp (L' p - L p)) by (rewrite <- exp_plus; f_equal; ring). ring. }
  rewrite E2, ln_mult, ln_Rinv in J; auto using Rinv_0_lt_compat.
  eapply Rle_trans; [|apply J; auto]. clear J.
  assert (Ep : forall p, In p ps0 ->
    sumf (fun q => sumf (fun i => scale * path_stats q i es stats p * (nth i (form st' q) 0 - nth i (form st q) 0))
      (seq 0 (length (form st q)))) Q <= L' p - L p).
  { intros p Hp. unfold L, L', path_loglik. rewrite <- sumf_minus. fold T.
    eapply Rle_trans; [|apply (sumf_le (fun t => scale * gain (nth t stats []) st st' (nth (nth t p 0%nat) es0 e0)))].
    - apply Req_le.
      rewrite (sumf_ext _ (fun t => scale * lin_gain Q st st' (nth t stats []) (nth (nth t p 0%nat) es0 e0) 1) (seq 0 T)).
      2:{ intros t Ht. apply in_seq in Ht. f_equal.
          assert (Hj : (nth t p 0 < length es0)%nat) by (rewrite Hl; eapply nth_path_lt; eauto; lia).
          rewrite <- (gain_acc k D _ st st' ps Q); auto; [ring| | |].
          - now apply Forall_nth_in.
          - now apply Forall_nth_in.
          - apply (Forall_nth_in _ stats t [] Hx). fold T. lia. }
      unfold lin_gain. rewrite sumf_scal_l. rewrite sumf_swap, <- sumf_scal_l. apply sumf_ext. intros q _.
      rewrite sumf_swap, <- sumf_scal_l. apply sumf_ext. intros i _. unfold path_stats. fold T.
      rewrite Rmult_assoc. f_equal. rewrite <- sumf_scal_r. apply sumf_ext. intros t Ht. apply in_seq in Ht. f_equal. f_equal.
      unfold es. apply map_nth_lt. rewrite Hl. eapply nth_path_lt; eauto; lia.
    - intros t Ht. apply in_seq in Ht.
      assert (Hj : (nth t p 0 < length es0)%nat) by (rewrite Hl; eapply nth_path_lt; eauto; lia).
      unfold es, es'. rewrite !(map_nth_lt _ _ _ e0) by auto. rewrite <- Rmult_minus_distr_l.
      apply Rmult_le_compat_l; auto. apply (gain_le k D _ st st' ps); now apply Forall_nth_in. }
  eapply Rle_trans; [|apply sumf_le; intros p Hp; apply Rmult_le_compat_l; [apply Hw|apply (Ep p Hp)]].
  apply Req_le.
  rewrite (sumf_ext (fun p => _ * sumf _ Q) (fun p => sumf (fun q => pr p * exp (L p) / Z *
    sumf (fun i => scale * path_stats q i es stats p * (nth i (form st' q) 0 - nth i (form st q) 0)) (seq 0 (length (form st q)))) Q))
    by (intros; now rewrite sumf_scal_l).
  rewrite sumf_swap. apply sumf_ext. intros q _.
  rewrite (sumf_ext (fun p => _ * sumf _ _) (fun p => sumf (fun i => pr p * exp (L p) / Z *
    (scale * path_stats q i es stats p * (nth i (form st' q) 0 - nth i (form st q) 0))) (seq 0 (length (form st q)))))
    by (intros; now rewrite sumf_scal_l).
  rewrite sumf_swap. apply sumf_ext. intros i _. rewrite Ew. rewrite Rmult_assoc, (Rmult_comm (sumf _ _)), <- Rmult_assoc, <- sumf_scal_l.
  apply sumf_ext. intros; ring.
Qed.

(** ** The statistics are those of a weighted data set *)
Definition cell_fn (c : cell) : list R -> list R :=
  match c with
  | CDiag _ _ => nd_suff_stats
  | CIso _ _ => in_suff_stats
  | CFull _ _ => nl_suff_stats
  | CWeights _ _ => cat_suff_stats
  end.

Definition fits (D : nat) (c : cell) (v : list R) : Prop :=
  match c with
  | CWeights p _ => length v = length p /\ Forall (fun a => 0 <= a) v
  | _ => length v = D
  end.

Definition cell_at (st : state) (q : nat * nat) : cell := nth (snd q) (st (fst q)) dc.

Fixpoint emdata (q : nat * nat) (y x : list R) (e : em) (r : R) : wdata :=
  match e with
  | EComp p i _ _ => if Nat.eqb p (fst q) && Nat.eqb i (snd q) then [(r, y)] else []
  | EMix p i cf subs =>
      (if Nat.eqb p (fst q) && Nat.eqb i (snd q) then [(r, em_post x cf subs)] else []) ++
      concat (map2 (fun pr f => f (r * pr)) (em_post x cf subs) (map (emdata q y x) subs))
  end.

Lemma leaf_fn k D c : leaf_cell k D c -> cell_fn c = suff k.
Proof. destruct k, c; simpl; tauto. Qed.

Lemma weights_fn n c : weights_cell n c -> cell_fn c = cat_suff_stats.
Proof. destruct c; simpl; tauto. Qed.

Lemma sumf_concat {A} (f : A -> R) ll : sumf f (concat ll) = rsum (map (sumf f) ll).
Proof. induction ll as [|l ll IH]; [reflexivity|]. cbn [concat map]. rewrite sumf_app, IH. reflexivity. Qed.

Lemma cat_suff_nth (post : list R) n i : length post = n -> (i < n)%nat ->
  nth i (cat_suff_stats post) 0 = if Nat.eqb (S i) n then rsum post else nth i post 0.
Proof.
  intros <- Hi. destruct (Nat.eqb_spec (S i) (length post)) as [E|N].
  - replace i with (pred (length post)) by lia. apply cat_suff_stats_last.
  - unfold cat_suff_stats. apply set_last_nth. lia.
Qed.

Lemma emdata_acc k D st ps q y e i : etyped k D st ps e -> forall r,
  (i < length (form st q))%nat ->
  em_acc q (suff k y) i (einst (forms st) e) r =
  sumf (fun gx => fst gx * nth i (cell_fn (cell_at st q) (snd gx)) 0)
    (emdata q y (suff k y) (einst (forms st) e) r).
Proof.
  induction e as [p j nf c|p j cf subs IH] using em_rect'; intros T r Hi.
  - cbn [einst em_acc emdata]. destruct T as (_ & I1 & W). destruct (_ && _) eqn:E; [|reflexivity].
    apply is_cell in E. subst q. rewrite sumf_cons, sumf_nil. cbn [fst snd].
    unfold cell_at. cbn [fst snd]. rewrite (leaf_fn k D) by auto. ring.
  - cbn [etyped] in T. rewrite etyped_subs in T. destruct T as (P1 & I1 & W & Hne & T).
    cbn [einst em_acc emdata]. rewrite sumf_app. change (nth j (forms st p) []) with (form st (p, j)).
    assert (L1 := form_weights st p j _ I1 W).
    set (post := em_post _ _ _).
    assert (Lp : length post = length subs) by (unfold post; rewrite em_post_length; rewrite map_length; auto).
    assert (Sp : rsum post = 1).
    { apply em_post_sum; [now rewrite map_length|]. destruct subs; [congruence|discriminate]. }
    f_equal.
    + destruct (_ && _) eqn:E; [|reflexivity].
      apply is_cell in E. subst q. rewrite sumf_cons, sumf_nil. cbn [fst snd].
      unfold cell_at. cbn [fst snd]. rewrite (weights_fn _ _ W).
      rewrite (cat_suff_nth post (length subs)), map_length by (auto; lia).
      rewrite Sp. destruct (Nat.eqb _ _); ring.
    + rewrite sumf_concat, map_map2, !map2_map_r. f_equal. apply map2_ext. intros a e He.
      apply in_combine_r in He. rewrite Forall_forall in IH, T. apply IH; auto.
Qed.

Lemma emdata_fits k D st ps q y e : etyped k D st ps e -> frame_ok k D y -> forall r, 0 <= r ->
  Forall (fun gx => 0 <= fst gx /\ fits D (cell_at st q) (snd gx))
    (emdata q y (suff k y) (einst (forms st) e) r).
Proof.
  intros T Hy. induction e as [p j nf c|p j cf subs IH] using em_rect'; intros r Hr.
  - cbn [einst emdata]. destruct T as (_ & I1 & W). destruct (_ && _) eqn:E; [|constructor].
    apply is_cell in E. subst q. constructor; [|constructor]. cbn [fst snd]. split; [auto|].
    unfold cell_at. cbn [fst snd]. destruct Hy as [Hy Hc].
    destruct k, (nth j (st p) dc); simpl in W |- *; try tauto. destruct W as [(A & _) _]. rewrite A. tauto.
  - cbn [etyped] in T. rewrite etyped_subs in T. destruct T as (P1 & I1 & W & Hne & T).
    cbn [einst emdata]. change (nth j (forms st p) []) with (form st (p, j)).
    assert (L1 := form_weights st p j _ I1 W).
    set (post := em_post _ _ _).
    assert (Lp : length post = length subs) by (unfold post; rewrite em_post_length; rewrite map_length; auto).
    assert (Np : Forall (fun a => 0 <= a) post).
    { apply Forall_forall. intros a Ha. left. eapply em_post_nonneg; eauto. }
    apply Forall_app. split.
    + destruct (_ && _) eqn:E; [|constructor].
      apply is_cell in E. subst q. constructor; [|constructor]. cbn [fst snd]. split; [auto|].
      unfold cell_at. cbn [fst snd]. destruct (nth j (st p) dc); simpl in W |- *; try tauto.
      destruct W as [(A & _) _]. rewrite A. auto.
    + apply Forall_concat. rewrite !map2_map_r. apply Forall_forall. intros l Hl.
      rewrite map2_combine in Hl. apply in_map_iff in Hl. destruct Hl as ([a e] & <- & Hae). cbn [fst snd].
      rewrite Forall_forall in IH, T, Np.
      apply IH; [now apply in_combine_r in Hae|apply T; now apply in_combine_r in Hae|].
      apply Rmult_le_pos; [auto|]. apply Np. now apply in_combine_l in Hae.
Qed.

(** ** The update of one component *)
Lemma fits_dim D c data : Forall (fun gx : R * list R => 0 <= fst gx /\ fits D c (snd gx)) data ->
  nonneg_weights data /\
  match c with
  | CWeights p _ => frames_of_dim (length p) data /\ Forall (fun gx => Forall (fun v => 0 <= v) (snd gx)) data
  | _ => frames_of_dim D data
  end.
Proof.
  intros H. split; [eapply Forall_impl; [|exact H]; intros [g v] [A B]; exact A|].
  destruct c; [| | |split]; (eapply Forall_impl; [|exact H]); intros [g v] [A B]; cbn in *; tauto.
Qed.

Lemma dir_step d lrate prior post data : dir_ok d prior -> dir_ok d post -> 0 <= lrate <= 1 ->
  frames_of_dim d data -> nonneg_weights data -> Forall (fun gx => Forall (fun v => 0 <= v) (snd gx)) data ->
  dir_ok d (std_update dir_nat dir_from_nat lrate prior post (wstats d cat_suff_stats data)).
Proof.
  intros Hp Hq Hl Hx Hw Hv. apply (C33_positive_forever d prior); auto.
  apply (reach_step dir_nat dir_from_nat (dir_ok d) (fun data => frames_of_dim d data /\ nonneg_weights data /\
    Forall (fun gx => Forall (fun v => 0 <= v) (snd gx)) data) (wstats d cat_suff_stats)); auto.
  now constructor.
Qed.

Lemma weights_step n D lrate c data : weights_cell n c -> 0 <= lrate <= 1 ->
  Forall (fun gx => 0 <= fst gx /\ fits D c (snd gx)) data ->
  let stats := wstats (length (cell_form c)) (cell_fn c) data in
  let c' := cell_update lrate stats c in
  weights_cell n c' /\ dot stats (cell_form c) - cell_kl c <= dot stats (cell_form c') - cell_kl c'.
Proof.
  intros W Hl Hd stats c'. assert (Lf := weights_form_length n c W).
  destruct (fits_dim D c data Hd) as (Hw & Hx). destruct c as [| | |p q]; simpl in W; try tauto.
  destruct W as [Wp Wq]. destruct Hx as [Hx Hv]. rewrite (proj1 Wp) in Hx. unfold c', stats. rewrite Lf.
  split; [split; [exact Wp|apply dir_step; auto]|].
  apply (C41_dirichlet n p q data lrate); auto.
Qed.

Lemma leaf_step k D lrate c data : leaf_cell k D c -> 0 <= lrate <= 1 ->
  Forall (fun gx => 0 <= fst gx /\ fits D c (snd gx)) data ->
  let stats := wstats (length (cell_form c)) (cell_fn c) data in
  let c' := cell_update lrate stats c in
  leaf_cell k D c' /\ dot stats (cell_form c) - cell_kl c <= dot stats (cell_form c') - cell_kl c'.
Proof.
  intros W Hl Hd stats c'. assert (Lf := leaf_form_length k D c W).
  destruct (fits_dim D c data Hd) as (Hw & Hx). unfold c', stats. rewrite Lf.
  destruct k, c as [p q|p q|p q|p q]; simpl in W; try tauto; destruct W as [Wp Wq]; cbn [suff_dim cell_fn cell_update].
  - split; [split; [exact Wp|now apply ng_step_ok]|].
    apply (C41_normal_gamma D p q data lrate); auto.
  - split; [split; [exact Wp|now apply ig_step_ok]|].
    apply (C41_isotropic_normal_gamma D p q data lrate); auto.
  - destruct (nw_step D lrate p q data Wp Wq Hl Hx Hw) as (q' & E & O).
    destruct (C41_normal_wishart D p q data lrate Wp Wq Hx Hw Hl) as (q1 & full & b & b' & best & U1 & _ & B1 & B2 & _ & Hb & _).
    rewrite E in U1. injection U1 as <-. rewrite E. cbn [or_default]. split; [split; auto|].
    cbn [cell_form cell_kl]. unfold nw_elbo in B1, B2.
    destruct (nw_ess q) as [e1|] eqn:Q1; [|discriminate]. destruct (nw_ess q') as [e2|] eqn:Q2; [|discriminate].
    cbn [bindr] in B1, B2. destruct (nw_kl q p) as [k1|]; [|discriminate]. destruct (nw_kl q' p) as [k2|]; [|discriminate].
    cbn [bindr] in B1, B2. injection B1 as <-. injection B2 as <-. cbn [or_default]. exact Hb.
  - destruct Hx as [Hx Hv]. rewrite (proj1 Wp) in Hx.
    split; [split; [exact Wp|apply dir_step; auto]|].
    apply (C41_dirichlet D p q data lrate); auto.
Qed.
