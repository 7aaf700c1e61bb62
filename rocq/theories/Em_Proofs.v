(** Proofs about the emissions of mkphones. *)
From Coq Require Import Reals String List Arith Bool Lia Lra Permutation.
From Verif Require Import Prelude Vec MF_Model MF_Proofs Graph_Model Gb_Model Gb_Spec Gb_Proofs Edit_Model Dec_Model.
From Verif Require Import Lgamma Set_Model Set_Spec Set_Proofs HMM_Model Dist_Model Dist_Spec Dist_Proofs Mat NW_Model NW_Spec
  NW_Proofs Df_Model Df_Spec Df_Proofs Df_Props Vt_Model Vt_Spec Vt_Proofs Em_Model Em_Spec.
Import ListNotations.
Local Open Scope R_scope.

(** ** The Normals *)
Lemma randn_length draw n D : length (randn draw n D) = n.
Proof. unfold randn. now rewrite map_length, seq_length. Qed.

Lemma diag_posdef D (v : list R) : length v = D -> Forall (fun x => 0 < x) v ->
  posdef D (fun i j => if Nat.eqb i j then nth i v 0 else 0).
Proof.
  intros Hl Hv. assert (P : forall i, (i < D)%nat -> 0 < nth i v 0).
  { intros i Hi. rewrite Forall_forall in Hv. apply Hv. apply nth_In. lia. }
  split.
  - intros i j _ _. rewrite (Nat.eqb_sym j i). destruct (Nat.eqb_spec i j); [now subst|reflexivity].
  - intros x (i & Hi & Hx).
    assert (E : quad D (fun i j => if Nat.eqb i j then nth i v 0 else 0) x = bsum D (fun i => nth i v 0 * (x i * x i))).
    { unfold quad, dotf. apply bsum_ext. intros a Ha. unfold mvm.
      rewrite (bsum_single D _ a Ha); [rewrite Nat.eqb_refl; ring|].
      intros j _ Hj. destruct (Nat.eqb_spec a j); [congruence|ring]. }
    rewrite E. assert (Hi0 : 0 < nth i v 0 * (x i * x i)).
    { apply Rmult_lt_0_compat; [auto|]. apply Rlt_0_sqr. exact Hx. }
    assert (Hle := bsum_ge_term D (fun i => nth i v 0 * (x i * x i)) i). cbv beta in Hle.
    apply Rlt_le_trans with (1 := Hi0). apply Hle; [|exact Hi].
    intros a Ha. apply Rmult_le_pos; [left; auto|]. apply Rle_0_sqr.
Qed.

(** A Normal of the set with that kind of parameters *)
Lemma normals_ok D mean var k cov_type s noise eps : features_ok D mean var -> 0 < s -> kind_of cov_type k ->
  Forall (fun e => length e = D) eps ->
  exists nps, normalset_create mean (T1 var) eps s noise cov_type = Ok nps /\
    Forall2 (fun e c => leaf_cell k D c /\ around mean var s noise (fun i => nth i e 0) c) eps (map normal_cell nps).
Proof.
  intros (HD & Hm & Hv & Hp) Hs Hk He.
  set (C := fun i j : nat => if Nat.eqb i j then nth i var 0 else 0).
  assert (Hd : denotes D (T1 var) C) by now apply dn_diag.
  assert (Hn : ~ dimensionless (T1 var)) by (intros (c & H); discriminate).
  assert (HC : forall i, (i < D)%nat -> 0 < C i i).
  { intros i Hi. unfold C. rewrite Nat.eqb_refl. rewrite Forall_forall in Hp. apply Hp, nth_In. lia. }
  assert (HCv : forall i, C i i = nth i var 0) by (intros i; unfold C; now rewrite Nat.eqb_refl).
  set (mv := fun e => noisy_mean noise (map (fun i => C i i) (seq 0 D)) mean e).
  assert (HI : 1 <= INR D) by (change 1 with (INR 1); now apply le_INR).
  assert (Mv : forall e, length e = D -> length (mv e) = D /\ forall i, (i < D)%nat ->
     nth i (mv e) 0 = nth i mean 0 + noise * sqrt (nth i var 0) * nth i e 0).
  { intros e Hl. split; [now apply noisy_mean_length|]. intros i Hi. unfold mv. rewrite (noisy_mean_nth D) by auto. now rewrite HCv. }
  destruct Hk as [[-> ->]|[[-> ->]|[-> ->]]].
  - destruct (default_full_ok D mean (T1 var) C s HD Hm Hd Hn (diag_posdef D var Hv Hp) Hs) as (W & E & HW & PW & I1 & I2).
    eexists. split.
    { change (normalset_create mean (T1 var) eps s noise "full") with (set_default default_full mean (T1 var) eps s noise).
      rewrite (set_default_ok default_full D mean (T1 var) C eps s noise _ Hm Hd Hn E). reflexivity. }
    rewrite map_map. cbn [with_mean normal_cell bp_prior bp_post nw_scale nw_W nw_dof].
    clear E. induction He as [|e eps Hl He IH]; [constructor|]. cbn [map]. constructor; [|exact IH].
    destruct (Mv e Hl) as (M1 & M2). split.
    + split; unfold nw_ok; cbn; repeat (split; auto); lra.
    + unfold around. cbn [nw_mean nw_scale nw_dof nw_W]. rewrite Hm. split; [reflexivity|]. split; [reflexivity|]. split; [reflexivity|].
      split; [exact I1|]. split; [split; [exact M1|exact M2]|]. auto.
  - assert (E := default_diag_ok D mean (T1 var) C s Hm Hd Hn). cbv zeta in E.
    assert (O := ng_default_ok D mean C s Hm Hs HC).
    eexists. split.
    { change (normalset_create mean (T1 var) eps s noise "diagonal") with (set_default default_diag mean (T1 var) eps s noise).
      rewrite (set_default_ok default_diag D mean (T1 var) C eps s noise _ Hm Hd Hn E). reflexivity. }
    rewrite map_map. cbn [with_mean normal_cell bp_prior bp_post ng_scale ng_shape ng_rates].
    clear E. induction He as [|e eps Hl He IH]; [constructor|]. cbn [map]. constructor; [|exact IH].
    destruct (Mv e Hl) as (M1 & M2). split.
    + split; [exact O|]. destruct O as (_ & O2 & O3 & O4 & O5). exact (conj M1 (conj O2 (conj O3 (conj O4 O5)))).
    + unfold around. cbn [ng_mean ng_scale ng_shape ng_rates]. rewrite Hm. split; [reflexivity|]. split; [reflexivity|]. split; [reflexivity|]. split.
      { intros i Hi. rewrite LMat.map_seq_nth by auto. rewrite HCv. specialize (HC i Hi). rewrite HCv in HC. field. lra. }
      split; [split; [exact M1|exact M2]|]. auto.
  - destruct (default_iso_ok D mean (T1 var) C s HD Hm Hd Hn) as (v & HV & E). cbv zeta in E.
    assert (Hv0 : 0 < v) by (destruct HV as (_ & HV); specialize (HV 0%nat HD); specialize (HC 0%nat HD); lra).
    assert (Hsv : 0 < s * v) by now apply Rmult_lt_0_compat.
    eexists. split.
    { change (normalset_create mean (T1 var) eps s noise "isotropic") with (set_default default_iso mean (T1 var) eps s noise).
      rewrite (set_default_ok default_iso D mean (T1 var) C eps s noise _ Hm Hd Hn E). reflexivity. }
    rewrite map_map. cbn [with_mean normal_cell bp_prior bp_post ig_scale ig_shape ig_rate].
    clear E. induction He as [|e eps Hl He IH]; [constructor|]. cbn [map]. constructor; [|exact IH].
    destruct (Mv e Hl) as (M1 & M2). split.
    + split; [exact (conj Hm (conj Hs (conj Hs Hsv)))|exact (conj M1 (conj Hs (conj Hs Hsv)))].
    + unfold around. cbn [ig_mean ig_scale ig_shape ig_rate]. rewrite Hm. split; [reflexivity|]. split; [reflexivity|]. split; [reflexivity|]. split.
      { destruct HV as ((i & Hi & Ei) & HV). rewrite HCv in Ei. exists v. split; [rewrite Ei; apply nth_In; lia|]. split.
        - intros u Hu. apply (In_nth var u 0) in Hu. destruct Hu as (j & Hj & <-). rewrite <- HCv. apply HV. lia.
        - field. lra. }
      split; [split; [exact M1|exact M2]|]. auto.
Qed.

Lemma kind_dim cov_type k D : kind_of cov_type k -> cov_dim cov_type D = suff_dim k D.
Proof. intros [[-> ->]|[[-> ->]|[-> ->]]]; reflexivity. Qed.

Lemma kind_stats cov_type k : kind_of cov_type k -> cov_stats cov_type = suff k.
Proof. intros [[-> ->]|[[-> ->]|[-> ->]]]; reflexivity. Qed.

(** ** The emissions of a group *)
Definition group_ok (D : nat) (mean var : list R) (draw : nat -> nat -> R) (i tot : nat) (gc : emconf) (k : kind) (p : pdfs) : Prop :=
  pd_set p = Mix (2 * i + 1) (map cell_form (pd_weights p))
    (Leaf (2 * i) (suff_dim k D) (map cell_form (pd_normals p)) (- (1 / 2) * INR D * ln (2 * PI))) /\
  length (pd_weights p) = tot /\ length (pd_normals p) = (tot * ec_n gc)%nat /\
  Forall (weights_cell (ec_n gc)) (pd_weights p) /\ Forall (leaf_cell k D) (pd_normals p) /\
  Forall (even_weights (ec_n gc) (ec_strength gc)) (pd_weights p) /\
  forall j, (j < tot * ec_n gc)%nat ->
    around mean var (ec_strength gc) (ec_noise gc) (draw j) (nth j (pd_normals p) (CWeights [] [])).

Lemma F2_length {A B} (P : A -> B -> Prop) l l' : Forall2 P l l' -> length l = length l'.
Proof. induction 1; [reflexivity|]. simpl. congruence. Qed.

Lemma Forall2_nth {A B} (P : A -> B -> Prop) l l' da db : Forall2 P l l' ->
  forall j, (j < length l)%nat -> P (nth j l da) (nth j l' db).
Proof.
  intros H. induction H; intros j Hj; [simpl in Hj; lia|]. destruct j; [assumption|]. simpl in *. apply IHForall2. lia.
Qed.

Lemma around_ext mean var s noise e1 e2 c : (forall i, (i < length mean)%nat -> e1 i = e2 i) ->
  around mean var s noise e1 c -> around mean var s noise e2 c.
Proof.
  intros He. destruct c as [p q|p q|p q|]; unfold around; [| | |auto];
    intros (A1 & A2 & A3 & A4 & (A5 & A6) & A7); (repeat (split; [assumption|])); (split; [|exact A7]);
    (split; [exact A5|]); intros i Hi; rewrite <- He by exact Hi; auto.
Qed.

Lemma create_pdfs_ok D mean var draw i tot gc k : features_ok D mean var -> emconf_ok k gc -> (0 < tot)%nat ->
  exists p, create_pdfs i mean var draw tot gc = Ok p /\ group_ok D mean var draw i tot gc k p.
Proof.
  intros Hf (Hn & Hs & Hk) Ht. set (N := (tot * ec_n gc)%nat). assert (Hf' := Hf). destruct Hf' as (HD & Hm & _).
  assert (He : Forall (fun e : list R => length e = D) (randn draw N D)).
  { unfold randn. apply Forall_map, Forall_forall. intros r _. now rewrite map_length, seq_length. }
  destruct (normals_ok D mean var k (ec_cov gc) (ec_strength gc) (ec_noise gc) _ Hf Hs Hk He) as (nps & E & F).
  assert (Ln : length nps = N).
  { apply F2_length in F. rewrite randn_length, map_length in F. lia. }
  assert (Ed : (length nps / tot)%nat = ec_n gc) by (rewrite Ln; unfold N; rewrite Nat.mul_comm; apply Nat.div_mul; lia).
  unfold create_pdfs. rewrite Hm. fold N. rewrite E. cbn [bindr].
  destruct (Nat.eqb_spec tot 0); [lia|]. eexists. split; [reflexivity|]. unfold group_ok. cbn [pd_set pd_weights pd_normals].
  rewrite Ed, (kind_dim _ k D Hk). destruct (C119_uniform (ec_n gc) Hn) as (U1 & U2 & U3 & U4).
  destruct (C119_categorical (ec_n gc) _ (ec_strength gc) U1 Hn U4 U2 Hs) as (W1 & _).
  split; [reflexivity|]. split; [apply repeat_length|]. split; [now rewrite map_length|]. split; [|split; [|split]].
  - apply Forall_forall. intros c Hc. apply repeat_spec in Hc. subst c. split; exact W1.
  - clear - F. induction F as [|e c es cs (H & _) F IH]; constructor; auto.
  - apply Forall_forall. intros c Hc. apply repeat_spec in Hc. subst c. split; [reflexivity|]. split; [exact (proj1 W1)|].
    intros j Hj. unfold categorical_default. rewrite (nth_indep _ 0 ((fun w => w * ec_strength gc) 0)) by (rewrite map_length, U1; exact Hj).
    rewrite (map_nth (fun w => w * ec_strength gc)), U3 by exact Hj. unfold Rdiv. ring.
  - intros j Hj. assert (Hj' : (j < length (randn draw N D))%nat) by (rewrite randn_length; exact Hj).
    destruct (Forall2_nth _ _ _ [] (CWeights [] []) F j Hj') as (_ & A).
    eapply around_ext; [|exact A]. intros c Hc. cbv beta. rewrite Hm in Hc. unfold randn.
    rewrite (nth_indep _ [] ((fun r => map (draw r) (seq 0 D)) 0%nat)) by (rewrite map_length, seq_length; exact Hj).
    rewrite (map_nth (fun r => map (draw r) (seq 0 D))), seq_nth by exact Hj. cbn [plus]. now rewrite LMat.map_seq_nth.
Qed.

(** ** All the groups *)
Inductive groups_ok (D : nat) (mean var : list R) (draw : nat -> nat -> nat -> R) : nat -> list nat -> list emconf -> list kind -> list pdfs -> Prop :=
| go_nil : forall i, groups_ok D mean var draw i [] [] [] []
| go_cons : forall i tot tots gc gcs k ks p ps, group_ok D mean var (draw i) i tot gc k p ->
    groups_ok D mean var draw (S i) tots gcs ks ps ->
    groups_ok D mean var draw i (tot :: tots) (gc :: gcs) (k :: ks) (p :: ps).

Lemma create_all_ok D mean var draw : features_ok D mean var -> forall tots gcs ks i,
  Forall2 emconf_ok ks gcs -> length tots = length gcs -> Forall (fun t => (0 < t)%nat) tots ->
  exists ps, create_all i mean var draw tots gcs = Ok ps /\ groups_ok D mean var draw i tots gcs ks ps.
Proof.
  intros Hf. induction tots as [|tot tots IH]; intros gcs ks i Hk Hl Hp; destruct gcs as [|gc gcs]; try discriminate.
  - inversion Hk; subst. exists []. split; [reflexivity|constructor].
  - inversion Hk as [|k ? ks' ? H1 H2]; subst. inversion Hp; subst. injection Hl as Hl.
    destruct (create_pdfs_ok D mean var (draw i) i tot gc k Hf H1) as (p & E & Hg); [assumption|].
    destruct (IH gcs ks' (S i) H2 Hl) as (ps & E' & Hgs); [assumption|].
    exists (p :: ps). cbn [create_all]. rewrite E. cbn [bindr]. rewrite E'. split; [reflexivity|]. now constructor.
Qed.

Lemma groups_size D mean var draw i tots gcs ks ps : groups_ok D mean var draw i tots gcs ks ps -> size (em_set ps) = list_sum tots.
Proof.
  unfold em_set. induction 1 as [i|i tot tots gc gcs k ks p ps Hg H IH]; [reflexivity|].
  destruct Hg as (E & Lw & _). cbn [map]. change (size (pd_set p) + size (Joint (map pd_set ps)) = list_sum (tot :: tots))%nat.
  rewrite IH, E. cbn [size]. rewrite map_length, Lw. reflexivity.
Qed.

Lemma groups_params D mean var draw i tots gcs ks ps : groups_ok D mean var draw i tots gcs ks ps ->
  params (em_set ps) = flat_map (fun j => [2 * j + 1; 2 * j])%nat (seq i (length ps)).
Proof.
  unfold em_set. induction 1 as [i|i tot tots gc gcs k ks p ps Hg H IH]; [reflexivity|].
  destruct Hg as (E & _). cbn [map length seq flat_map]. change (params (pd_set p) ++ params (Joint (map pd_set ps)) =
    [2 * i + 1; 2 * i]%nat ++ flat_map (fun j => [2 * j + 1; 2 * j])%nat (seq (S i) (length ps))).
  rewrite IH, E. reflexivity.
Qed.

Lemma pairs_in x i n : In x (flat_map (fun j => [2 * j + 1; 2 * j])%nat (seq i n)) <-> (2 * i <= x < 2 * (i + n))%nat.
Proof.
  rewrite in_flat_map. split.
  - intros (j & Hj & [<-|[<-|[]]]); apply in_seq in Hj; lia.
  - intros H. exists (x / 2)%nat. assert (Ed := Nat.div_mod x 2 ltac:(lia)). assert (Hm := Nat.mod_upper_bound x 2 ltac:(lia)).
    revert Ed Hm. generalize (x / 2)%nat (x mod 2)%nat. intros q r Ed Hm.
    split; [apply in_seq; lia|]. destruct r as [|[|r]]; [right; left|left|]; lia.
Qed.

Lemma pairs_nodup i n : NoDup (flat_map (fun j => [2 * j + 1; 2 * j])%nat (seq i n)).
Proof.
  revert i. induction n as [|n IH]; intros i; [constructor|]. cbn [seq flat_map app].
  constructor; [|constructor; [|apply IH]].
  - intros [H|H]; [lia|]. apply pairs_in in H. lia.
  - intros H. apply pairs_in in H. lia.
Qed.

Lemma state_even ps j g : nth_error ps j = Some g -> em_state ps (2 * j)%nat = pd_normals g.
Proof.
  intros E. unfold em_state. replace (2 * j / 2)%nat with j by (rewrite Nat.mul_comm, Nat.div_mul; lia). rewrite E.
  replace (Nat.even (2 * j)) with true; [reflexivity|]. symmetry. apply Nat.even_spec. now exists j.
Qed.

Lemma state_odd ps j g : nth_error ps j = Some g -> em_state ps (2 * j + 1)%nat = pd_weights g.
Proof.
  intros E. unfold em_state. replace ((2 * j + 1) / 2)%nat with j.
  - rewrite E. replace (Nat.even (2 * j + 1)) with false; [reflexivity|]. symmetry.
    rewrite <- Nat.negb_odd. replace (Nat.odd (2 * j + 1)) with true; [reflexivity|]. symmetry. apply Nat.odd_spec. now exists j.
  - apply (Nat.div_unique (2 * j + 1) 2 j 1); lia.
Qed.

Lemma group_typed D mean var draw i tot gc k p st : (1 <= ec_n gc)%nat -> (0 < tot)%nat ->
  group_ok D mean var draw i tot gc k p -> st (2 * i)%nat = pd_normals p -> st (2 * i + 1)%nat = pd_weights p ->
  typed k D st (pd_set p).
Proof.
  intros Hn Ht (E & Lw & Ln & Fw & Fl & _) E1 E2. rewrite E. cbn [typed]. rewrite E1, E2, !map_length.
  split; [split; [reflexivity|]; split; [reflexivity|exact Fl]|]. split; [lia|]. split; [reflexivity|].
  exists (ec_n gc). split; [lia|]. split; [|exact Fw]. cbn [size]. rewrite map_length, Ln, Lw. reflexivity.
Qed.

Lemma groups_typed D mean var draw st k i tots gcs ks ps : groups_ok D mean var draw i tots gcs ks ps ->
  Forall2 emconf_ok ks gcs -> Forall (fun t => (0 < t)%nat) tots -> Forall (eq k) ks ->
  (forall j g, nth_error ps j = Some g -> st (2 * (i + j))%nat = pd_normals g /\ st (2 * (i + j) + 1)%nat = pd_weights g) ->
  typed k D st (em_set ps).
Proof.
  unfold em_set. intros H Hc Ht Hk Hst. cbn [typed]. apply typed_joint. revert Hc Ht Hk Hst.
  induction H as [i|i tot tots gc gcs k' ks p ps Hg H IH]; intros Hc Ht Hk Hst; [constructor|].
  inversion Hc as [|? ? ? ? (Hn & _) Hc']; subst. inversion Ht; subst. inversion Hk; subst. cbn [map]. constructor.
  - destruct (Hst 0%nat p eq_refl) as (S1 & S2). rewrite Nat.add_0_r in S1, S2. eapply group_typed; eauto.
  - apply IH; auto. intros j g Hj. destruct (Hst (S j) g Hj) as (S1 & S2).
    replace (S i + j)%nat with (i + S j)%nat by lia. auto.
Qed.

(** ** The parameter groups *)
Lemma em_groups_ok ps : em_groups ps = Ok [flat_map (fun j => [2 * j; 2 * j + 1])%nat (seq 0 (length ps))].
Proof.
  unfold em_groups. rewrite mff_joint.
  assert (G : forall l acc, joint_go acc (map (fun i => MMerge (MParams [2 * i]) (MParams [2 * i + 1])) l)%nat =
    Ok (acc ++ flat_map (fun j => [2 * j; 2 * j + 1])%nat l)).
  { induction l as [|j l IH]; intros acc; [cbn; now rewrite app_nil_r|].
    change (joint_go (acc ++ [2 * j; 2 * j + 1]%nat) (map (fun i => MMerge (MParams [2 * i]) (MParams [2 * i + 1])) l)%nat =
      Ok (acc ++ flat_map (fun j => [2 * j; 2 * j + 1])%nat (j :: l))).
    rewrite IH. cbn [flat_map]. now rewrite <- app_assoc. }
  rewrite G. reflexivity.
Qed.

Lemma pairs_perm l : Permutation (flat_map (fun j => [2 * j; 2 * j + 1])%nat l) (flat_map (fun j => [2 * j + 1; 2 * j])%nat l).
Proof. induction l as [|j l IH]; [constructor|]. cbn [flat_map app]. rewrite perm_swap. now do 2 constructor. Qed.

(** ** The configuration *)
Lemma sset_map {A B} (f : A -> B) k v (d : list (string * A)) :
  map (fun x => (fst x, f (snd x))) (sset k v d) = sset k (f v) (map (fun x => (fst x, f (snd x))) d).
Proof.
  induction d as [|[k' v'] d IH]; [reflexivity|]. cbn [sset map fst snd]. destruct (String.eqb k k'); [reflexivity|].
  cbn [map fst snd]. now rewrite IH.
Qed.

Lemma groups_length conf : length (groups_conf (topologies conf)) = length (emconfs conf).
Proof.
  unfold groups_conf, emconfs, topologies.
  assert (G : forall conf (d : list (string * (list (nat * nat * R) * emconf))),
    fold_left (fun d gc => sset (fst gc) (snd gc) d) (map (fun g : string * (list (nat * nat * R) * emconf) => (fst g, fst (snd g))) conf) (map (fun x => (fst x, fst (snd x))) d) =
      map (fun x => (fst x, fst (snd x))) (fold_left (fun d g => sset (fst g) (snd g) d) conf d) /\
    fold_left (fun d (g : string * (list (nat * nat * R) * emconf)) => sset (fst g) (snd (snd g)) d) conf (map (fun x => (fst x, snd (snd x))) d) =
      map (fun x => (fst x, snd (snd x))) (fold_left (fun d g => sset (fst g) (snd g) d) conf d)).
  { clear. induction conf as [|g conf IH]; intros d; [split; reflexivity|]. cbn [map fold_left fst snd].
    destruct (IH (sset (fst g) (snd g) d)) as (I1 & I2).
    rewrite (sset_map fst) in I1. rewrite (sset_map snd) in I2. split; [exact I1|exact I2]. }
  destruct (G conf []) as (G1 & G2). cbn [map] in G1, G2. rewrite G1, G2. now rewrite !map_length.
Qed.

Lemma sset_in {A} k v (d : list (string * A)) x : In x (sset k v d) -> snd x = v \/ In x d.
Proof.
  induction d as [|[k' v'] d IH]; cbn [sset].
  - intros [<-|[]]. now left.
  - destruct (String.eqb k k').
    + intros [<-|H]; [now left|]. right. now right.
    + intros [<-|H]; [right; now left|]. destruct (IH H); auto. right. now right.
Qed.

Lemma emconfs_in conf gc : In gc (map snd (emconfs conf)) -> exists g t, In (g, (t, gc)) conf.
Proof.
  unfold emconfs. assert (G : forall conf (d : list (string * emconf)) gc,
    In gc (map snd (fold_left (fun d (g : string * (list (nat * nat * R) * emconf)) => sset (fst g) (snd (snd g)) d) conf d)) ->
    In gc (map snd d) \/ exists g t, In (g, (t, gc)) conf).
  { clear. induction conf as [|[g [t e]] conf IH]; intros d gc H; [now left|]. cbn [fold_left fst snd] in H.
    apply IH in H. destruct H as [H|(g' & t' & H)]; [|right; exists g', t'; now right].
    apply in_map_iff in H. destruct H as (x & <- & H). apply sset_in in H. destruct H as [->|H].
    - right. exists g, t. now left.
    - left. now apply in_map. }
  intros H. destruct (G conf [] gc H) as [[]|?]; auto.
Qed.

(** The numbers of emissions of the groups are positive. *)
Lemma mkphones_tots conf lines units tots : mkphones conf lines = Ok (units, tots) -> Forall (fun t => (0 < t)%nat) tots.
Proof.
  unfold mkphones. destruct (group_units (groups_conf conf) lines) as [d|]; [|discriminate]. cbn [bindr].
  destruct (foldM (mkgroup (groups_conf conf)) d (0%nat, [], [])) as [[[k us] ts]|] eqn:E; [|discriminate].
  cbn [bindr]. intros H. injection H as <- <-.
  assert (G : forall l k us ts k' us' ts', foldM (mkgroup (groups_conf conf)) l (k, us, ts) = Ok (k', us', ts') ->
    Forall (fun t => (0 < t)%nat) ts -> Forall (fun t => (0 < t)%nat) ts').
  { clear. induction l as [|gn l IH]; intros k us ts k' us' ts' H F; cbn [foldM] in H; [injection H as <- <- <-; exact F|].
    destruct (mkgroup (groups_conf conf) (k, us, ts) gn) as [st|] eqn:Es; [|discriminate]. cbn [bindr] in H.
    apply mkgroup_inv in Es. destruct Es as (t1 & k1 & us1 & tot & _ & _ & _ & Hp & ->).
    apply (IH _ _ _ _ _ _ H). apply Forall_app. auto. }
  exact (G _ _ _ _ _ _ _ E (Forall_nil _)).
Qed.

(** ** Scores *)
Lemma score_joint l x : score (Joint l) x = bindr (mapM (fun m => score m x) l) (fun vs => Ok (concat vs)).
Proof.
  induction l as [|m l IH]; [reflexivity|].
  change (score (Joint (m :: l)) x) with (bindr (score m x) (fun u => bindr (score (Joint l) x) (fun v => Ok (u ++ v)))).
  rewrite IH. cbn [mapM]. destruct (score m x); [|reflexivity]. cbn [bindr].
  destruct (mapM (fun m => score m x) l); reflexivity.
Qed.

Lemma score_group D mean var draw i tot gc k p x : group_ok D mean var draw i tot gc k p ->
  score (pd_set p) x = if Nat.eqb (length x) (suff_dim k D) then Ok (ellh (pd_set p) x) else Err RuntimeError.
Proof.
  intros (-> & _). cbn [score]. destruct (Nat.eqb (length x) (suff_dim k D)); reflexivity.
Qed.

Lemma score_groups D mean var draw i tots gcs ks ps x : groups_ok D mean var draw i tots gcs ks ps ->
  score (em_set ps) x = if forallb (fun k => Nat.eqb (length x) (suff_dim k D)) ks then Ok (ellh (em_set ps) x) else Err RuntimeError.
Proof.
  unfold em_set. induction 1 as [i|i tot tots gc gcs k ks p ps Hg H IH]; [reflexivity|]. cbn [map forallb].
  change (score (Joint (pd_set p :: map pd_set ps)) x) with
    (bindr (score (pd_set p) x) (fun u => bindr (score (Joint (map pd_set ps)) x) (fun v => Ok (u ++ v)))).
  rewrite IH, (score_group _ _ _ _ _ _ _ _ _ x Hg).
  destruct (Nat.eqb (length x) (suff_dim k D)); [|reflexivity]. cbn [bindr andb].
  destruct (forallb (fun k => Nat.eqb (length x) (suff_dim k D)) ks); reflexivity.
Qed.

Lemma gauss_length k D x : length x = D -> k <> KCat -> length (suff k x) = suff_dim k D.
Proof.
  intros H Hk. destruct k; cbn [suff suff_dim]; [| | |congruence].
  - unfold nd_suff_stats. rewrite !app_length, ?map_length. simpl. lia.
  - unfold in_suff_stats. rewrite !app_length. simpl. lia.
  - now apply nl_suff_length.
Qed.

Lemma kind_gauss cov_type k : kind_of cov_type k -> k <> KCat.
Proof. intros [[_ ->]|[[_ ->]|[_ ->]]]; discriminate. Qed.

Lemma dims_differ k k' D : (2 <= D)%nat -> k <> KCat -> k' <> KCat -> suff_dim k D = suff_dim k' D -> k = k'.
Proof. intros HD H H'. destruct k, k'; try congruence; unfold suff_dim; intros E; exfalso; nia. Qed.

Lemma kind_unique c k k' : kind_of c k -> kind_of c k' -> k = k'.
Proof. intros [[-> ->]|[[-> ->]|[-> ->]]] [[H ->]|[[H ->]|[H ->]]]; try discriminate; reflexivity. Qed.

Lemma kind_same c c' k : kind_of c k -> kind_of c' k -> c = c'.
Proof. intros [[-> ->]|[[-> ->]|[-> ->]]] [[-> H]|[[-> H]|[-> H]]]; try discriminate; reflexivity. Qed.

Lemma in_kinds ks gcs : Forall2 emconf_ok ks gcs -> forall k0 k, In k (k0 :: ks) -> k = k0 \/ exists gc, In gc gcs /\ emconf_ok k gc.
Proof.
  intros F k0 k [->|H]; [now left|]. right. induction F as [|k1 gc1 ks gcs H1 F IH]; [destruct H|].
  destruct H as [->|H]; [exists gc1; split; [now left|exact H1]|]. destruct (IH H) as (gc & I1 & I2). exists gc. split; [now right|exact I2].
Qed.

Lemma in_kinds_rev ks gcs : Forall2 emconf_ok ks gcs -> forall gc, In gc gcs -> exists k, In k ks /\ emconf_ok k gc.
Proof.
  intros F. induction F as [|k1 gc1 ks gcs H1 F IH]; intros gc H; [destruct H|].
  destruct H as [->|H]; [exists k1; split; [now left|exact H1]|]. destruct (IH gc H) as (k & I1 & I2). exists k. split; [now right|exact I2].
Qed.

Lemma groups_nth D mean var draw i tots gcs ks ps : groups_ok D mean var draw i tots gcs ks ps ->
  forall j gc, nth_error gcs j = Some gc ->
  exists p k, nth_error ps j = Some p /\ group_ok D mean var (draw (i + j)%nat) (i + j) (nth j tots 0%nat) gc k p /\ In k ks.
Proof.
  induction 1 as [i|i tot tots gc gcs k ks p ps Hg H IH]; intros j gc' Hj; [destruct j; discriminate|].
  destruct j as [|j]; cbn [nth_error nth] in *.
  - injection Hj as <-. exists p, k. rewrite Nat.add_0_r. split; [reflexivity|]. split; [exact Hg|now left].
  - destruct (IH j gc' Hj) as (p' & k' & E & G & K). exists p', k'. replace (i + S j)%nat with (S i + j)%nat by lia.
    split; [exact E|]. split; [exact G|now right].
Qed.

Lemma sset_new {A} k (v : A) d : ~ In k (map fst d) -> sset k v d = d ++ [(k, v)].
Proof.
  induction d as [|[k' v'] d IH]; intros H; [reflexivity|]. cbn [sset app]. destruct (String.eqb_spec k k') as [->|Hk].
  - exfalso. apply H. now left.
  - rewrite IH; [reflexivity|]. intros H'. apply H. now right.
Qed.

Lemma emconfs_distinct conf : NoDup (map fst conf) -> map snd (emconfs conf) = map (fun g => snd (snd g)) conf.
Proof.
  unfold emconfs. assert (G : forall conf (d : list (string * emconf)), NoDup (map fst d ++ map fst conf) ->
    map snd (fold_left (fun d (g : string * (list (nat * nat * R) * emconf)) => sset (fst g) (snd (snd g)) d) conf d) =
    map snd d ++ map (fun g => snd (snd g)) conf).
  { clear. induction conf as [|[g [t e]] conf IH]; intros d H; cbn [fold_left map fst snd]; [now rewrite app_nil_r|].
    cbn [map fst] in H. rewrite sset_new.
    - rewrite IH; [rewrite map_app, <- app_assoc; reflexivity|]. rewrite map_app, <- app_assoc. exact H.
    - intros Hin. apply NoDup_remove_2 in H. apply H. apply in_app_iff. now left. }
  intros H. rewrite G; [reflexivity|exact H].
Qed.

Lemma emconfs_length conf : (length (emconfs conf) <= length conf)%nat.
Proof.
  unfold emconfs. assert (L : forall (d : list (string * emconf)) k v, (length (sset k v d) <= S (length d))%nat).
  { clear. induction d as [|[k' v'] d IH]; intros k v; [cbn; lia|]. cbn [sset]. destruct (String.eqb k k'); [cbn; lia|].
    specialize (IH k v). cbn [length]. lia. }
  assert (G : forall conf (d : list (string * emconf)),
    (length (fold_left (fun d (g : string * (list (nat * nat * R) * emconf)) => sset (fst g) (snd (snd g)) d) conf d) <= length d + length conf)%nat).
  { clear - L. induction conf as [|g conf IH]; intros d; cbn [fold_left length]; [lia|].
    specialize (IH (sset (fst g) (snd (snd g)) d)). specialize (L d (fst g) (snd (snd g))). lia. }
  apply (G conf []).
Qed.
