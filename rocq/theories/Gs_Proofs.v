(** Proofs about the subspace model. *)
From Coq Require Import Reals List Lra Lia Arith Bool.
From Verif Require Import Prelude Vec Gibbs Dist_Model Dist_Spec Dist_Proofs Llh_Proofs Mat MatDet NW_Model NW_Spec LMat NW_Proofs NW_Llh Gs_Model Gs_Spec.
Import ListNotations.
Local Open Scope R_scope.

(** ** Slicing *)
Lemma gslice_mid {A} (l1 l2 l3 : list A) a b : length l1 = a -> (a + length l2 = b)%nat ->
  gslice a b (l1 ++ l2 ++ l3) = l2.
Proof.
  intros H1 H2. unfold gslice. rewrite skipn_app, H1, Nat.sub_diag. cbn [skipn].
  rewrite skipn_all2 by lia. cbn [app]. rewrite firstn_app. replace (b - a)%nat with (length l2) by lia.
  rewrite firstn_all, Nat.sub_diag. cbn [firstn]. apply app_nil_r.
Qed.

Lemma gslice_cons_app {A} (l1 l2 : list A) a b : (length l1 <= a)%nat ->
  gslice a b (l1 ++ l2) = gslice (a - length l1) (b - length l1) l2.
Proof.
  intros H. unfold gslice. rewrite skipn_app, skipn_all2 by lia. cbn [app].
  destruct (Nat.le_gt_cases (length l1) b); [f_equal; lia|].
  replace (b - a)%nat with 0%nat by lia. now replace (b - length l1 - (a - length l1))%nat with 0%nat by lia.
Qed.

Lemma groups_concat {A} k (rows : list (list A)) : Forall (fun r => length r = k) rows ->
  groups (length rows) k (concat rows) = rows.
Proof.
  unfold groups. induction rows as [|r rows IH]; intros H; [reflexivity|].
  inversion H as [|? ? Hr Hrs]; subst. cbn [length seq map concat].
  f_equal.
  - rewrite <- (app_nil_l (r ++ _)). now apply gslice_mid.
  - rewrite <- seq_shift, map_map. rewrite <- (IH Hrs) at 2. apply map_ext. intros i.
    rewrite gslice_cons_app by (cbn; lia). f_equal; cbn; lia.
Qed.

Lemma concat_length_const {A} k (rows : list (list A)) : Forall (fun r => length r = k) rows ->
  length (concat rows) = (length rows * k)%nat.
Proof. induction 1; cbn; [reflexivity|]. rewrite app_length. lia. Qed.

Lemma reshape2_concat {A} k (rows : list (list A)) : (0 < k)%nat -> Forall (fun r => length r = k) rows ->
  reshape2 k (concat rows) = Ok rows.
Proof.
  intros Hk H. unfold reshape2. destruct (Nat.eqb_spec k 0); [lia|].
  rewrite (concat_length_const k) by auto. rewrite Nat.mod_mul, Nat.div_mul by lia. cbn [Nat.eqb].
  now rewrite groups_concat.
Qed.

Lemma reshape3_concat {A} k (ls : list (list A)) n : length ls = n -> (0 < n)%nat -> Forall (fun r => length r = k) ls ->
  reshape3 n (concat ls) = Ok ls.
Proof.
  intros Hn H0 H. unfold reshape3. destruct (Nat.eqb_spec n 0); [lia|].
  rewrite (concat_length_const k), Hn by auto. rewrite Nat.mul_comm, Nat.mod_mul, Nat.div_mul by lia. cbn [Nat.eqb].
  rewrite <- Hn. now rewrite groups_concat.
Qed.

Lemma groups_length {A} n k (l : list A) : length (groups n k l) = n.
Proof. unfold groups. now rewrite map_length, seq_length. Qed.

Lemma groups_rows {A} n k (l : list A) : length l = (n * k)%nat -> Forall (fun r => length r = k) (groups n k l).
Proof.
  intros H. apply Forall_forall. intros r Hr. apply in_map_iff in Hr. destruct Hr as (i & <- & Hi).
  apply in_seq in Hi. unfold gslice. rewrite firstn_length, skipn_length. nia.
Qed.

Lemma skipn_add {A} a b (l : list A) : skipn a (skipn b l) = skipn (b + a) l.
Proof. revert l. induction b as [|b IH]; intros l; [reflexivity|]. destruct l; [now rewrite skipn_nil|apply IH]. Qed.

Lemma concat_groups {A} n k (l : list A) : length l = (n * k)%nat -> concat (groups n k l) = l.
Proof.
  unfold groups. revert l. induction n as [|n IH]; intros l H.
  - destruct l; [reflexivity|discriminate].
  - cbn [seq map concat]. rewrite <- seq_shift, map_map.
    transitivity (firstn k l ++ skipn k l); [|apply firstn_skipn]. f_equal.
    + unfold gslice. cbn [Nat.mul Nat.add skipn]. now rewrite Nat.sub_0_r.
    + rewrite <- (IH (skipn k l)) by (rewrite skipn_length; nia). f_equal. apply map_ext. intros i.
      unfold gslice. rewrite skipn_add.
      replace (S i * k + k - S i * k)%nat with k by lia. replace (i * k + k - i * k)%nat with k by lia.
      now replace (S i * k)%nat with (k + i * k)%nat by lia.
Qed.

(** ** Packing and unpacking *)
Lemma map_concat {A B} (f : A -> B) ls : map f (concat ls) = concat (map (map f) ls).
Proof. induction ls; cbn; [reflexivity|]. now rewrite map_app, IHls. Qed.

Lemma concat_concat {A} (ls : list (list (list A))) : concat (concat ls) = concat (map (@concat A) ls).
Proof. induction ls; cbn; [reflexivity|]. now rewrite concat_app, IHls. Qed.

Lemma Forall_concat {A} (P : A -> Prop) ls : Forall (Forall P) ls -> Forall P (concat ls).
Proof. induction 1; cbn; [constructor|]. now apply Forall_app. Qed.

Fixpoint cols (params : list sparam) (svs : list svec) : list (list (list R)) :=
  match params with
  | [] => []
  | p :: ps => map (fun sv => concat (map (sp_val p) (hd [] sv))) svs :: cols ps (map (@tl _) svs)
  end.

Lemma mapM_val p rs : sparam_ok p -> Forall (fun r => length r = sp_dim p) rs ->
  mapM (sp_pdf p) rs = Ok (map (sp_val p) rs).
Proof.
  intros (_ & _ & _ & H). induction 1 as [|r rs Hr _ IH]; [reflexivity|]. cbn [mapM map].
  destruct (H r Hr) as (v & E & _). rewrite E. cbn [bindr]. rewrite IH. cbn [bindr].
  unfold sp_val at 2. now rewrite E.
Qed.

Lemma sp_val_length p r : sparam_ok p -> length r = sp_dim p -> length (sp_val p r) = sp_q p.
Proof. intros (_ & _ & _ & H) Hr. destruct (H r Hr) as (v & E & L). unfold sp_val. now rewrite E. Qed.

Lemma map2_ext_in {A B C} (f g : A -> B -> C) l m :
  (forall i a b, nth_error l i = Some a -> nth_error m i = Some b -> f a b = g a b) -> map2 f l m = map2 g l m.
Proof.
  revert m. induction l as [|a l IH]; intros [|b m] H; cbn; try reflexivity. f_equal.
  - apply (H 0%nat); reflexivity.
  - apply IH. intros i x y Hx Hy. apply (H (S i)); auto.
Qed.

Lemma pdfvecs_gen_ok params : forall idx pres (svs : list svec),
  Forall sparam_ok params -> length pres = length svs -> Forall (fun l => length l = idx) pres ->
  Forall (real_shape params) svs -> svs <> [] ->
  pdfvecs_gen params idx (map2 (@app R) pres (map flat svs)) = Ok (cols params svs).
Proof.
  induction params as [|p ps IH]; intros idx pres svs Hok HL Hpre Hsv Hne; [reflexivity|].
  inversion Hok as [|? ? Hp Hps]; subst. cbn [pdfvecs_gen cols].
  assert (Hd : Forall (fun sv => length (hd [] sv) = sp_n p /\ Forall (fun b => length b = sp_dim p) (hd [] sv) /\
     sv = hd [] sv :: tl sv /\ real_shape ps (tl sv)) svs).
  { eapply Forall_impl; [|exact Hsv]. intros sv H. inversion H as [|? bs ? t (H1 & H2) H3]; subst. cbn. repeat split; auto. }
  set (bss := map (hd []) svs).
  assert (Lb : forall sv, In sv svs -> length (concat (hd [] sv)) = (sp_dim p * sp_n p)%nat).
  { intros sv Hin. rewrite Forall_forall in Hd. destruct (Hd sv Hin) as (H1 & H2 & _).
    rewrite (concat_length_const (sp_dim p)) by auto. rewrite H1. lia. }
  assert (Hsl : map (gslice idx (idx + sp_dim p * sp_n p)) (map2 (@app R) pres (map flat svs)) = map (@concat R) bss).
  { unfold bss. clear Hne Hsv. revert pres HL Hpre Hd Lb. induction svs as [|sv svs IHs]; intros [|pre pres] HL Hpre Hd Lb; cbn in HL; try discriminate; [reflexivity|].
    assert (Hpr := Forall_inv Hpre). assert (Hpre' := Forall_inv_tail Hpre). cbn beta in Hpr.
    inversion Hd as [|? ? (H1 & H2 & H3 & H4) Hd']; subst x l. cbn [map map2]. f_equal.
    - rewrite H3 at 1. unfold flat. cbn [map concat]. apply gslice_mid; auto. rewrite Lb by now left. reflexivity.
    - apply IHs; auto. intros s Hs. apply Lb. now right. }
  assert (Hp' := Hp). destruct Hp' as (P1 & P2 & P3 & P4).
  assert (Fb : Forall (Forall (fun b => length b = sp_dim p)) bss).
  { unfold bss. apply Forall_map. eapply Forall_impl; [|exact Hd]. cbn. tauto. }
  rewrite Hsl, <- concat_concat. rewrite reshape2_concat; auto using Forall_concat. cbn [bindr].
  rewrite mapM_val by auto using Forall_concat. cbn [bindr].
  set (rows := map (fun sv => concat (map (sp_val p) (hd [] sv))) svs).
  assert (Hq : length (hd [] (map (sp_val p) (concat bss))) = sp_q p).
  { destruct svs as [|sv svs]; [contradiction|]. unfold bss. cbn [map concat].
    inversion Hd as [|? ? (H1 & H2 & _) _]; subst. destruct (hd [] sv) as [|b bs]; [cbn in H1; lia|].
    cbn. inversion H2; subst. apply sp_val_length; auto. }
  rewrite Hq.
  assert (E2 : concat (map (sp_val p) (concat bss)) = concat rows).
  { unfold rows, bss. rewrite map_concat, concat_concat, !map_map. reflexivity. }
  rewrite E2, reshape2_concat; [|nia|].
  2:{ unfold rows. apply Forall_map. eapply Forall_impl; [|exact Hd]. cbn beta. intros sv (H1 & H2 & _).
      rewrite (concat_length_const (sp_q p)); [rewrite map_length; lia|].
      apply Forall_map. eapply Forall_impl; [|exact H2]. cbn beta. intros r Hr. now apply sp_val_length. }
  cbn [bindr].
  assert (E3 : map2 (@app R) pres (map flat svs) =
    map2 (@app R) (map2 (@app R) pres (map (@concat R) bss)) (map flat (map (@tl _) svs))).
  { unfold bss. clear -HL Hd. revert pres HL. induction svs as [|sv svs IHs]; intros [|pre pres] HL; cbn in HL; try discriminate; [reflexivity|].
    inversion Hd as [|? ? (H1 & H2 & H3 & H4) Hd']; subst. cbn [map map2]. f_equal; [|now apply IHs; auto].
    rewrite H3 at 1. unfold flat. cbn [map concat]. now rewrite app_assoc. }
  rewrite E3, (IH (idx + sp_dim p * sp_n p)%nat); auto.
  - rewrite map2_length. unfold bss. rewrite !map_length. lia.
  - unfold bss. clear -HL Hpre Lb. revert pres HL Hpre. induction svs as [|sv svs IHs]; intros [|pre pres] HL Hpre; cbn in HL; try discriminate; [constructor|].
    assert (Hpr := Forall_inv Hpre). assert (Hpre' := Forall_inv_tail Hpre). cbn beta in Hpr.
    cbn [map map2]. constructor; [rewrite app_length, Lb by (now left); lia|].
    apply IHs; auto. intros s Hs. apply Lb. now right.
  - apply Forall_map. eapply Forall_impl; [|exact Hd]. cbn. tauto.
  - destruct svs; [contradiction|discriminate].
Qed.

Lemma map2_app_map {A B} (f g : A -> list B) l : map2 (@app B) (map f l) (map g l) = map (fun x => f x ++ g x) l.
Proof. apply map2_map. Qed.

Lemma hcat_cols params : forall svs, params <> [] -> Forall (real_shape params) svs ->
  hcat (cols params svs) = Ok (map (fun sv => flat (pdf_image params sv)) svs).
Proof.
  induction params as [|p ps IH]; intros svs Hne Hsv; [contradiction|].
  assert (Hd : Forall (fun sv => sv = hd [] sv :: tl sv /\ real_shape ps (tl sv)) svs).
  { eapply Forall_impl; [|exact Hsv]. intros sv H. inversion H as [|? bs ? t (H1 & H2) H3]; subst. cbn. auto. }
  destruct ps as [|p2 ps].
  - cbn [cols hcat]. f_equal. apply map_ext_in. intros sv Hin. rewrite Forall_forall in Hd.
    destruct (Hd sv Hin) as (-> & _). unfold flat, pdf_image. cbn. rewrite app_nil_r. reflexivity.
  - change (hcat (cols (p :: p2 :: ps) svs)) with
      (bindr (hcat (cols (p2 :: ps) (map (@tl _) svs))) (fun r =>
        let b := map (fun sv => concat (map (sp_val p) (hd [] sv))) svs in
        if Nat.eqb (length b) (length r) then Ok (map2 (@app R) b r) else Err RuntimeError)).
    rewrite IH; [|discriminate|apply Forall_map; eapply Forall_impl; [|exact Hd]; cbn; tauto].
    cbn [bindr]. rewrite !map_length, Nat.eqb_refl. f_equal. rewrite !map_map.
    rewrite map2_app_map. apply map_ext_in. intros sv Hin. rewrite Forall_forall in Hd.
    destruct (Hd sv Hin) as (E & _). rewrite E at 3. reflexivity.
Qed.

Lemma pdfvecs_from_rvecs_ok params (grid : list (list svec)) S0 :
  Forall sparam_ok params -> params <> [] -> grid <> [] -> (0 < S0)%nat ->
  Forall (fun l => length l = S0 /\ Forall (real_shape params) l) grid ->
  pdfvecs_from_rvecs params (map (map flat) grid) = Ok (map (map (fun sv => flat (pdf_image params sv))) grid).
Proof.
  intros Hok Hp Hg HS Hgrid. unfold pdfvecs_from_rvecs. rewrite <- map_concat.
  assert (F : Forall (real_shape params) (concat grid)).
  { apply Forall_concat. eapply Forall_impl; [|exact Hgrid]. cbn. tauto. }
  assert (N : concat grid <> []).
  { destruct grid as [|g grid]; [contradiction|]. inversion Hgrid as [|? ? (H1 & _) _]; subst.
    destruct g; [cbn in *; lia|]. discriminate. }
  assert (E : map flat (concat grid) = map2 (@app R) (map (fun _ => []) (concat grid)) (map flat (concat grid))).
  { rewrite map2_app_map. reflexivity. }
  rewrite E, pdfvecs_gen_ok; auto.
  2:{ now rewrite map_length. } 2:{ apply Forall_map, Forall_forall. reflexivity. }
  cbn [bindr]. rewrite hcat_cols by auto. cbn [bindr]. rewrite map_concat.
  apply (reshape3_concat S0).
  - now rewrite !map_length.
  - rewrite map_length. destruct grid; [contradiction|cbn; lia].
  - apply Forall_map. eapply Forall_impl; [|exact Hgrid]. cbn beta. intros l (H & _). now rewrite map_length.
Qed.

Lemma update_params_ok params : forall idx pre sv post,
  length pre = idx -> pdf_shape params sv ->
  update_params params idx (pre ++ flat sv ++ post) = Ok sv.
Proof.
  induction params as [|p ps IH]; intros idx pre sv post HL Hs; [now inversion Hs|].
  inversion Hs as [|? bs ? t (H1 & H2) H3]; subst.
  cbn [update_params].
  assert (Lc : length (concat bs) = (sp_n p * sp_q p)%nat) by (rewrite (concat_length_const (sp_q p)) by auto; now rewrite H1).
  unfold flat. cbn [map concat]. rewrite <- app_assoc. rewrite gslice_mid by (auto; lia).
  rewrite Lc, Nat.eqb_refl.
  replace (pre ++ concat bs ++ concat (map (@concat R) t) ++ post) with ((pre ++ concat bs) ++ flat t ++ post)
    by (unfold flat; now rewrite <- app_assoc).
  rewrite IH; [|rewrite app_length; lia|exact H3]. cbn [bindr]. rewrite <- H1. now rewrite groups_concat.
Qed.

Lemma update_params_flat params sv : pdf_shape params sv -> update_params params 0 (flat sv) = Ok sv.
Proof.
  intros H. rewrite <- (app_nil_r (flat sv)). apply (update_params_ok params 0 []); auto.
Qed.

Lemma pdf_image_shape params sv : Forall sparam_ok params -> real_shape params sv ->
  pdf_shape params (pdf_image params sv).
Proof.
  intros Hok H. induction H as [|p bs ps t (H1 & H2) H3 IH]; [constructor|].
  inversion Hok; subst. cbn. constructor; [|now apply IH]. split; [now rewrite map_length|].
  apply Forall_map. eapply Forall_impl; [|exact H2]. cbn beta. intros r Hr. now apply sp_val_length.
Qed.

Lemma flat_length_real params sv : real_shape params sv -> length (flat sv) = svec_dim params.
Proof.
  induction 1 as [|p bs ps t (H1 & H2) H3 IH]; [reflexivity|]. unfold flat in *. cbn.
  rewrite app_length, IH, (concat_length_const (sp_dim p)) by auto. rewrite H1. unfold svec_dim. lia.
Qed.

Definition qdim (params : list sparam) : nat :=
  fold_right (fun p acc => (sp_n p * sp_q p + acc)%nat) 0%nat params.

Lemma flat_length_pdf params sv : pdf_shape params sv -> length (flat sv) = qdim params.
Proof.
  induction 1 as [|p bs ps t (H1 & H2) H3 IH]; [reflexivity|]. unfold flat in *. cbn.
  rewrite app_length, IH, (concat_length_const (sp_q p)) by auto. rewrite H1. unfold qdim. lia.
Qed.

Lemma real_shape_exists params : forall v, length v = svec_dim params ->
  exists sv, real_shape params sv /\ flat sv = v.
Proof.
  induction params as [|p ps IH]; intros v H; cbn in H.
  - exists []. split; [constructor|]. destruct v; [reflexivity|discriminate].
  - destruct (IH (skipn (sp_dim p * sp_n p) v)) as (t & Ht & Et).
    { rewrite skipn_length. unfold svec_dim. lia. }
    exists (groups (sp_n p) (sp_dim p) (firstn (sp_dim p * sp_n p) v) :: t).
    assert (L : length (firstn (sp_dim p * sp_n p) v) = (sp_n p * sp_dim p)%nat) by (rewrite firstn_length; lia).
    split.
    + constructor; auto. split; [apply groups_length|]. now apply groups_rows.
    + unfold flat in *. cbn. rewrite Et, concat_groups by auto. apply firstn_skipn.
Qed.

Lemma real_shape_unique params : forall sv sv', real_shape params sv -> real_shape params sv' ->
  flat sv = flat sv' -> sv = sv'.
Proof.
  intros sv sv' H. revert sv'. induction H as [|p bs ps t (H1 & H2) H3 IH]; intros sv' H' E.
  - now inversion H'.
  - inversion H' as [|? bs' ? t' (H1' & H2') H3']; subst. unfold flat in E. cbn in E.
    assert (L : length (concat bs) = length (concat bs')).
    { rewrite !(concat_length_const (sp_dim p)) by auto. now rewrite H1, H1'. }
    assert (E1 : concat bs = concat bs').
    { assert (X : firstn (length (concat bs)) (concat bs ++ concat (map (@concat R) t)) =
                  firstn (length (concat bs)) (concat bs' ++ concat (map (@concat R) t'))) by now rewrite E.
      rewrite firstn_app, Nat.sub_diag, firstn_all in X. cbn [firstn] in X. rewrite app_nil_r in X.
      rewrite L, firstn_app, Nat.sub_diag, firstn_all in X. cbn [firstn] in X. now rewrite app_nil_r in X. }
    f_equal.
    + rewrite <- (groups_concat (sp_dim p) bs), <- (groups_concat (sp_dim p) bs') by auto. now rewrite E1, H1, H1'.
    + apply IH; auto. unfold flat. rewrite E1 in E. now apply app_inv_head in E.
Qed.

(** ** Transforms *)
Lemma as_matrices_ok ind out s_W : (0 < ind)%nat -> (0 < out)%nat ->
  Forall (fun w => length w = (ind * out)%nat) s_W ->
  as_matrices ind out s_W = Ok (map (groups ind out) s_W).
Proof.
  intros Hi Ho H. unfold as_matrices.
  assert (E : concat s_W = concat (concat (map (groups ind out) s_W))).
  { rewrite concat_concat, map_map. f_equal. transitivity (map (fun w : list R => w) s_W); [symmetry; apply map_id|].
    apply map_ext_in. intros w Hw. symmetry. apply concat_groups. rewrite Forall_forall in H. auto. }
  rewrite E, reshape2_concat; auto.
  - cbn [bindr]. apply reshape2_concat; auto. apply Forall_map, Forall_forall. intros w _. apply groups_length.
  - apply Forall_concat, Forall_map. eapply Forall_impl; [|exact H]. cbn beta. intros w Hw. now apply groups_rows.
Qed.

Lemma groups_nth {A} n k (l : list A) i d d0 d1 : (i < n)%nat -> (d < k)%nat ->
  nth d (nth i (groups n k l) d0) d1 = nth (i * k + d) l d1.
Proof.
  intros Hi Hd. unfold groups. rewrite (nth_indep _ d0 (gslice (0 * k) (0 * k + k) l)) by (now rewrite map_length, seq_length).
  rewrite (map_nth (fun i => gslice (i * k) (i * k + k) l)), seq_nth by auto. cbn [Nat.add].
  unfold gslice. replace (i * k + k - i * k)%nat with k by lia.
  rewrite <- (firstn_skipn k (skipn (i * k) l)) at 2 || idtac.
  assert (X : forall (m : list A) a, (d < a)%nat -> nth d (firstn a m) d1 = nth d m d1).
  { clear. intros m. revert d. induction m as [|y m IH]; intros d [|a] Ha; try lia; [destruct d; reflexivity|].
    destruct d; cbn; [reflexivity|]. apply IH. lia. }
  rewrite X by auto.
  assert (Y : forall (m : list A) a b, nth b (skipn a m) d1 = nth (a + b) m d1).
  { clear. intros m a. revert m. induction a as [|a IH]; intros m b; [reflexivity|]. destruct m; cbn; [destruct b; reflexivity|]. apply IH. }
  apply Y.
Qed.

Lemma rsum_map2_nth {A} (f : R -> A -> R) x (W : list A) n d : length x = n -> length W = n ->
  rsum (map2 f x W) = sumf (fun k => f (nth k x 0) (nth k W d)) (seq 0 n).
Proof.
  intros H1 H2. rewrite rsum_nth, map2_length, H1, H2, Nat.min_id. apply sumf_ext. intros k Hk. apply in_seq in Hk.
  rewrite (map2_nth f x W k 0 d) by lia. reflexivity.
Qed.

Lemma vecmat_linear ind out w x : length x = ind -> vecmat out x (groups ind out w) = linear ind out w x.
Proof.
  intros Hx. unfold vecmat, linear. apply map_ext_in. intros d Hd. apply in_seq in Hd.
  rewrite (rsum_map2_nth _ x _ ind []) by (auto using groups_length). apply sumf_ext. intros k Hk. apply in_seq in Hk.
  rewrite groups_nth by lia. reflexivity.
Qed.

Lemma vadd_affine ind out w b x : length x = ind -> length b = out ->
  vadd (vecmat out x (groups ind out w)) b = affine ind out w b x.
Proof.
  intros Hx Hb. rewrite vecmat_linear by auto. unfold affine, linear.
  assert (E : b = map (fun d => nth d b 0) (seq 0 out)) by (rewrite <- Hb; symmetry; apply seq_nth_map).
  rewrite E at 1. unfold vadd. rewrite map2_map. reflexivity.
Qed.

Lemma permute3_map {A} (F : A -> list R -> list R) (Ps : list A) X :
  permute3 (length X) (map (fun a => map (F a) X) Ps) = map (fun x => map (fun a => F a x) Ps) X.
Proof.
  unfold permute3. transitivity (map (fun x => map (fun a => F a x) Ps) (map (fun i => nth i X []) (seq 0 (length X)))).
  - rewrite map_map. apply map_ext_in. intros i Hi. apply in_seq in Hi. rewrite map_map. apply map_ext. intros a.
    rewrite (nth_indep _ [] (F a [])) by (rewrite map_length; lia). now rewrite map_nth.
  - f_equal. apply seq_nth_map.
Qed.

Lemma map2_combine {A B C} (f : A -> B -> C) l m : map2 f l m = map (fun ab => f (fst ab) (snd ab)) (combine l m).
Proof. revert m. induction l; intros [|]; cbn; congruence. Qed.

Lemma map2_map_l {A B C D} (f : A -> B -> C) (g : D -> A) l m : map2 f (map g l) m = map2 (fun d b => f (g d) b) l m.
Proof. revert m. induction l; intros [|]; cbn; congruence. Qed.

Lemma affine_forward_ok ind out s_W s_b X : (0 < ind)%nat -> (0 < out)%nat ->
  Forall (fun w => length w = (ind * out)%nat) s_W -> Forall (fun b => length b = out) s_b ->
  Forall (fun x => length x = ind) X ->
  affine_forward ind out s_W s_b X = Ok (map (fun x => map2 (fun w b => affine ind out w b x) s_W s_b) X).
Proof.
  intros Hi Ho HW Hb HX. unfold affine_forward. rewrite as_matrices_ok by auto. cbn [bindr]. f_equal.
  rewrite map2_map_l, map2_combine.
  rewrite (permute3_map (fun (ab : list R * list R) x => vadd (vecmat out x (groups ind out (fst ab))) (snd ab))).
  apply map_ext_in. intros x Hx. rewrite map2_combine. apply map_ext_in. intros (w, b) Hin. cbn [fst snd].
  rewrite Forall_forall in HX, Hb. apply vadd_affine; auto. apply Hb. eapply in_combine_r; eauto.
Qed.

Lemma linear_forward_ok ind out s_W X : (0 < ind)%nat -> (0 < out)%nat ->
  Forall (fun w => length w = (ind * out)%nat) s_W -> Forall (fun x => length x = ind) X ->
  linear_forward ind out s_W X = Ok (map (fun x => map (fun w => linear ind out w x) s_W) X).
Proof.
  intros Hi Ho HW HX. unfold linear_forward. rewrite as_matrices_ok by auto. cbn [bindr]. f_equal.
  rewrite map_map. rewrite (permute3_map (fun (w : list R) x => vecmat out x (groups ind out w))).
  apply map_ext_in. intros x Hx. apply map_ext. intros w. rewrite Forall_forall in HX. apply vecmat_linear; auto.
Qed.

Lemma rvecs_from_samples_ok (F : list R -> list (list R)) transform (samples : list (list (list R))) S0 P0 :
  transform (concat samples) = Ok (map F (concat samples)) ->
  samples <> [] -> Forall (fun hs => length hs = S0) samples ->
  (forall h, length (F h) = P0) ->
  rvecs_from_samples transform samples = Ok (map (flat_map F) samples).
Proof.
  intros HT Hne HS HF. unfold rvecs_from_samples. rewrite HT. cbn [bindr].
  rewrite map_concat, concat_concat, map_map.
  replace (map (fun x => concat (map F x)) samples) with (map (flat_map F) samples)
    by (apply map_ext; intros; apply flat_map_concat_map).
  apply (reshape3_concat (S0 * P0)%nat).
  - now rewrite map_length.
  - destruct samples; [contradiction|cbn; lia].
  - apply Forall_map. eapply Forall_impl; [|exact HS]. cbn beta. intros hs Hs. rewrite flat_map_concat_map.
    rewrite (concat_length_const P0), map_length; [now rewrite Hs|]. apply Forall_map, Forall_forall. auto.
Qed.

Lemma hier_forward_ok ind out rvec X : (0 < ind)%nat -> (0 < out)%nat ->
  Forall (Forall (fun r => length r = ((ind + 1) * out)%nat)) rvec -> Forall (fun x => length x = ind) X ->
  hier_forward ind out rvec X =
  Ok (map (fun x => map (fun r => affine ind out (firstn (ind * out) r) (skipn (ind * out) r) x) (concat rvec)) X).
Proof.
  intros Hi Ho HR HX. assert (HR' := Forall_concat _ _ HR). rewrite Forall_forall in HR'.
  unfold hier_forward.
  assert (E0 : forallb (fun r => Nat.eqb (length r) ((ind + 1) * out)) (concat rvec) = true).
  { apply forallb_forall. intros r Hr. apply Nat.eqb_eq. auto. }
  rewrite E0. rewrite <- !map_concat.
  rewrite as_matrices_ok; auto.
  2:{ apply Forall_map, Forall_forall. intros r Hr. rewrite firstn_length, HR' by auto. nia. }
  cbn [bindr]. rewrite reshape2_concat; auto.
  2:{ apply Forall_map, Forall_forall. intros r Hr. rewrite skipn_length, HR' by auto. nia. }
  cbn [bindr]. f_equal. rewrite map_map, map2_map.
  rewrite (permute3_map (fun (r : list R) x => vadd (vecmat out x (groups ind out (firstn (ind * out) r))) (skipn (ind * out) r))).
  apply map_ext_in. intros x Hx. apply map_ext_in. intros r Hr. rewrite Forall_forall in HX.
  apply vadd_affine; auto. rewrite skipn_length, HR' by auto. nia.
Qed.

Lemma affine_length ind out w b x : length (affine ind out w b x) = out.
Proof. unfold affine. now rewrite map_length, seq_length. Qed.

(** ** Means *)
Lemma vmean_length rows q : rows <> [] -> Forall (fun r => length r = q) rows -> length (vmean rows) = q.
Proof.
  intros Hne H. unfold vmean. rewrite vscale_length. destruct rows as [|r rows]; [contradiction|]. cbn [hd].
  assert (Hr := Forall_inv H). cbn beta in Hr. rewrite Hr. now apply colsum_length.
Qed.

Lemma vmean_nth rows q d : rows <> [] -> Forall (fun r => length r = q) rows -> (d < q)%nat ->
  nth d (vmean rows) 0 = mean_of (fun r => nth d r 0) rows.
Proof.
  intros Hne H Hd. unfold vmean, mean_of. rewrite vscale_nth. destruct rows as [|r rows]; [contradiction|]. cbn [hd].
  assert (Hr := Forall_inv H). cbn beta in Hr. rewrite Hr. rewrite colsum_nth; auto.
  unfold Rdiv. now rewrite Rmult_comm.
Qed.

Lemma mean_of_ext {A} (f g : A -> R) l : (forall a, In a l -> f a = g a) -> mean_of f l = mean_of g l.
Proof. intros H. unfold mean_of. now rewrite (sumf_ext f g) by auto. Qed.

Lemma mean_of_map {A B} (g : A -> B) (f : B -> R) l : mean_of f (map g l) = mean_of (fun a => f (g a)) l.
Proof. unfold mean_of. now rewrite sumf_map, map_length. Qed.

Lemma mean_of_minus {A} (f g : A -> R) l : mean_of f l - mean_of g l = mean_of (fun a => f a - g a) l.
Proof. unfold mean_of. rewrite sumf_minus. unfold Rdiv. ring. Qed.

Lemma mean_of_opp {A} (f : A -> R) l : mean_of (fun a => - f a) l = - mean_of f l.
Proof. unfold mean_of. rewrite sumf_opp. unfold Rdiv. ring. Qed.

Lemma mean_of_const {A} (f : A -> R) c l : l <> [] -> mean_of (fun a => f a + c) l = mean_of f l + c.
Proof.
  intros H. unfold mean_of. rewrite sumf_plus, sumf_const. field.
  apply not_0_INR. destruct l; [contradiction|discriminate].
Qed.

Lemma dot_vmean rows q s : rows <> [] -> Forall (fun r => length r = q) rows -> length s = q ->
  dot (vmean rows) s = mean_of (fun r => dot r s) rows.
Proof.
  intros Hne H Hs. rewrite dot_nth by (rewrite (vmean_length rows q); auto). rewrite (vmean_length rows q) by auto.
  unfold mean_of, Rdiv. rewrite <- sumf_scal_r.
  transitivity (sumf (fun k => sumf (fun r => nth k r 0 * nth k s 0 * / INR (length rows)) rows) (seq 0 q)).
  - apply sumf_ext. intros k Hk. apply in_seq in Hk. rewrite (vmean_nth rows q) by (auto; lia). unfold mean_of, Rdiv.
    rewrite !sumf_scal_r. ring.
  - rewrite sumf_swap. apply sumf_ext. intros r Hr. rewrite Forall_forall in H. rewrite dot_nth by (rewrite H; auto).
    rewrite H by auto. now rewrite sumf_scal_r.
Qed.

Lemma dot_comm u v : dot u v = dot v u.
Proof.
  revert v. induction u as [|x u IH]; intros [|y v]; try reflexivity.
  change (x * y + dot u v = y * x + dot v u). rewrite IH. ring.
Qed.

Lemma dot_concat (a b : list (list R)) : Forall2 (fun x y => length x = length y) a b ->
  dot (concat a) (concat b) = rsum (map2 dot a b).
Proof. induction 1; [reflexivity|]. cbn [concat map2]. rewrite dot_app by auto. cbn. now rewrite IHForall2. Qed.

Lemma shapes_forall2 p bs bs' : length bs = sp_n p -> Forall (fun b : list R => length b = sp_q p) bs ->
  length bs' = sp_n p -> Forall (fun b : list R => length b = sp_q p) bs' ->
  Forall2 (fun x y => length x = length y) bs bs'.
Proof.
  intros H1 H2. rewrite <- H1. clear H1. intros H3. revert bs' H3. induction H2 as [|b bs Hb H2 IH]; intros [|b' bs'] H3 H4; cbn in H3; try discriminate; constructor.
  - inversion H4; congruence.
  - inversion H4; subst. apply IH; auto.
Qed.

Lemma flat_dot params a b : pdf_shape params a -> pdf_shape params b -> dot (flat a) (flat b) = sv_dot a b.
Proof.
  intros H. revert b. induction H as [|p bs ps t (H1 & H2) H3 IH]; intros b Hb; inversion Hb as [|? bs' ? t' (H1' & H2') H3']; subst; [reflexivity|].
  unfold flat, sv_dot in *. cbn [map concat map2].
  change (rsum (?x :: ?l)) with (x + rsum l).
  assert (F := shapes_forall2 p bs bs' H1 H2 H1' H2').
  rewrite dot_app, dot_concat, IH; auto.
  rewrite !(concat_length_const (sp_q p)) by auto. congruence.
Qed.

Lemma nth_map2 {A B C} (f : A -> B -> C) l m k da db dc : (k < length l)%nat -> (k < length m)%nat ->
  nth k (map2 f l m) dc = f (nth k l da) (nth k m db).
Proof. apply map2_nth. Qed.

(** *** Mean of structured vectors *)
Fixpoint mean_sv (params : list sparam) (svs : list svec) : svec :=
  match params with
  | [] => []
  | p :: ps => map (fun j => vmean (map (fun sv => nth j (hd [] sv) []) svs)) (seq 0 (sp_n p)) :: mean_sv ps (map (@tl _) svs)
  end.

Lemma vmean_app {A} (f g : A -> list R) l a b : l <> [] -> (forall x, In x l -> length (f x) = a) ->
  (forall x, In x l -> length (g x) = b) ->
  vmean (map (fun x => f x ++ g x) l) = vmean (map f l) ++ vmean (map g l).
Proof.
  intros Hne Hf Hg.
  assert (N : forall h : A -> list R, map h l <> []) by (intros h; destruct l; [contradiction|discriminate]).
  assert (Ff : Forall (fun r => length r = a) (map f l)) by (apply Forall_map, Forall_forall; auto).
  assert (Fg : Forall (fun r => length r = b) (map g l)) by (apply Forall_map, Forall_forall; auto).
  assert (Ffg : Forall (fun r => length r = (a + b)%nat) (map (fun x => f x ++ g x) l)).
  { apply Forall_map, Forall_forall. intros x Hx. rewrite app_length, Hf, Hg; auto. }
  apply vec_ext.
  - rewrite app_length, (vmean_length _ (a + b)), (vmean_length _ a), (vmean_length _ b); auto.
  - intros k Hk. rewrite (vmean_length _ (a + b)) in Hk by auto. rewrite (vmean_nth _ (a + b)) by auto.
    rewrite mean_of_map. destruct (Nat.lt_ge_cases k a) as [H|H].
    + rewrite app_nth1 by (rewrite (vmean_length _ a); auto). rewrite (vmean_nth _ a), mean_of_map by auto.
      apply mean_of_ext. intros x Hx. rewrite app_nth1; [reflexivity|]. now rewrite Hf.
    + rewrite app_nth2 by (rewrite (vmean_length _ a); auto). rewrite (vmean_length _ a) by auto.
      rewrite (vmean_nth _ b), mean_of_map by (auto; lia).
      apply mean_of_ext. intros x Hx. rewrite app_nth2, Hf; auto. rewrite Hf; auto.
Qed.

Lemma vmean_nil {A} (l : list A) : vmean (map (fun _ => []) l) = [].
Proof. unfold vmean. destruct l; [reflexivity|]. cbn [map hd length]. induction (map (fun _ : A => @nil R) l); [reflexivity|]. cbn. reflexivity. Qed.

Lemma vmean_concat (n q : nat) (l : list (list (list R))) : l <> [] ->
  Forall (fun bs => length bs = n /\ Forall (fun b => length b = q) bs) l ->
  vmean (map (@concat R) l) = concat (map (fun j => vmean (map (fun bs => nth j bs []) l)) (seq 0 n)).
Proof.
  intros Hne. revert l Hne. induction n as [|n IH]; intros l Hne H.
  - cbn. rewrite (map_ext_in _ (fun _ => [])); [apply vmean_nil|]. intros bs Hb. rewrite Forall_forall in H.
    destruct (H bs Hb) as (H1 & _). destruct bs; [reflexivity|discriminate].
  - cbn [seq map concat]. rewrite <- seq_shift, map_map.
    rewrite Forall_forall in H.
    rewrite (map_ext_in (@concat R) (fun bs => nth 0 bs [] ++ concat (tl bs))).
    2:{ intros bs Hb. destruct (H bs Hb) as (H1 & _). destruct bs; [discriminate|reflexivity]. }
    rewrite (vmean_app _ _ l q (n * q)); auto.
    + f_equal. rewrite <- (map_map (@tl _) (@concat R)). rewrite IH.
      * f_equal. apply map_ext. intros j. f_equal. rewrite map_map. apply map_ext. intros bs. destruct bs; [destruct j|]; reflexivity.
      * destruct l; [contradiction|discriminate].
      * apply Forall_map, Forall_forall. intros bs Hb. destruct (H bs Hb) as (H1 & H2). destruct bs as [|b bs]; [discriminate|].
        assert (H3 := Forall_inv_tail H2). cbn [tl length] in *. split; [lia|auto].
    + intros bs Hb. destruct (H bs Hb) as (H1 & H2). destruct bs; [discriminate|]. now inversion H2.
    + intros bs Hb. destruct (H bs Hb) as (H1 & H2). destruct bs as [|b bs]; [discriminate|].
      assert (H3 := Forall_inv_tail H2). cbn [tl length] in *. rewrite (concat_length_const q) by auto. nia.
Qed.

Lemma vmean_flat params : forall svs, svs <> [] -> Forall (pdf_shape params) svs ->
  vmean (map flat svs) = flat (mean_sv params svs).
Proof.
  induction params as [|p ps IH]; intros svs Hne H.
  - cbn. rewrite (map_ext_in _ (fun _ => [])); [apply vmean_nil|]. intros sv Hs. rewrite Forall_forall in H.
    specialize (H sv Hs). now inversion H.
  - assert (Hd : Forall (fun sv => sv = hd [] sv :: tl sv /\ length (hd [] sv) = sp_n p /\
        Forall (fun b => length b = sp_q p) (hd [] sv) /\ pdf_shape ps (tl sv)) svs).
    { eapply Forall_impl; [|exact H]. intros sv Hs. inversion Hs as [|? bs ? t (H1 & H2) H3]; subst. cbn. auto. }
    rewrite Forall_forall in Hd.
    rewrite (map_ext_in flat (fun sv => concat (hd [] sv) ++ flat (tl sv))).
    2:{ intros sv Hs. destruct (Hd sv Hs) as (E & _). rewrite E at 1. reflexivity. }
    rewrite (vmean_app _ _ svs (sp_n p * sp_q p) (qdim ps)); auto.
    + cbn [mean_sv]. change (flat (?a :: ?b)) with (concat a ++ flat b). f_equal.
      * rewrite <- (map_map (hd []) (@concat R)). rewrite (vmean_concat (sp_n p) (sp_q p)).
        -- f_equal. apply map_ext. intros j. now rewrite map_map.
        -- destruct svs; [contradiction|discriminate].
        -- apply Forall_map, Forall_forall. intros sv Hs. destruct (Hd sv Hs) as (_ & A & B & _). auto.
      * rewrite <- (map_map (@tl _) flat). apply IH.
        -- destruct svs; [contradiction|discriminate].
        -- apply Forall_map, Forall_forall. intros sv Hs. destruct (Hd sv Hs) as (_ & _ & _ & B). auto.
    + intros sv Hs. destruct (Hd sv Hs) as (_ & A & B & _). rewrite (concat_length_const (sp_q p)) by auto. now rewrite A.
    + intros sv Hs. destruct (Hd sv Hs) as (_ & _ & _ & B). now apply flat_length_pdf.
Qed.

Lemma mean_sv_shape params : forall svs, svs <> [] -> Forall (pdf_shape params) svs -> pdf_shape params (mean_sv params svs).
Proof.
  induction params as [|p ps IH]; intros svs Hne H; [constructor|].
  assert (Hd : Forall (fun sv => sv = hd [] sv :: tl sv /\ length (hd [] sv) = sp_n p /\
        Forall (fun b => length b = sp_q p) (hd [] sv) /\ pdf_shape ps (tl sv)) svs).
  { eapply Forall_impl; [|exact H]. intros sv Hs. inversion Hs as [|? bs ? t (H1 & H2) H3]; subst. cbn. auto. }
  rewrite Forall_forall in Hd. cbn [mean_sv]. constructor.
  - split; [now rewrite map_length, seq_length|]. apply Forall_map, Forall_forall. intros j Hj. apply in_seq in Hj.
    apply vmean_length; [destruct svs; [contradiction|discriminate]|].
    apply Forall_map, Forall_forall. intros sv Hs. destruct (Hd sv Hs) as (_ & A & B & _). rewrite Forall_forall in B.
    apply B, nth_In. lia.
  - apply IH; [destruct svs; [contradiction|discriminate]|].
    apply Forall_map, Forall_forall. intros sv Hs. now apply (Hd sv Hs).
Qed.

Lemma mean_sv_nth params : forall svs k j p0, (k < length params)%nat -> (j < sp_n (nth k params p0))%nat ->
  nth j (nth k (mean_sv params svs) []) [] = vmean (map (fun sv => nth j (nth k sv []) []) svs).
Proof.
  induction params as [|p ps IH]; intros svs k j p0 Hk Hj; cbn in Hk; [lia|]. destruct k as [|k]; cbn [mean_sv nth] in *.
  - rewrite (nth_indep _ [] (vmean (map (fun sv => nth 0 (hd [] sv) []) svs))) by (now rewrite map_length, seq_length).
    rewrite (map_nth (fun j => vmean (map (fun sv => nth j (hd [] sv) []) svs))), seq_nth by auto. cbn [Nat.add].
    f_equal. apply map_ext. intros sv. destruct sv; reflexivity.
  - rewrite (IH _ k j p0) by (auto; lia). rewrite map_map. f_equal. apply map_ext. intros sv. destruct sv; [destruct k|]; reflexivity.
Qed.

Lemma pdf_image_nth params : forall sv k j p0, real_shape params sv -> (k < length params)%nat ->
  (j < sp_n (nth k params p0))%nat ->
  nth j (nth k (pdf_image params sv) []) [] = sp_val (nth k params p0) (nth j (nth k sv []) []).
Proof.
  intros sv k j p0 H. revert k j. induction H as [|p bs ps t (H1 & H2) H3 IH]; intros k j Hk Hj; cbn in Hk; [lia|].
  destruct k as [|k]; cbn in *.
  - rewrite (nth_indep _ [] (sp_val p [])) by (rewrite map_length; lia). now rewrite map_nth.
  - apply IH; auto. lia.
Qed.

Lemma update_models_ok params (svss : list (list svec)) : (forall svs, In svs svss -> svs <> [] /\ Forall (pdf_shape params) svs) ->
  update_models (repeat params (length svss)) (map (fun svs => vmean (map flat svs)) svss) = Ok (map (mean_sv params) svss).
Proof.
  induction svss as [|svs svss IH]; intros H; [reflexivity|]. cbn [length repeat map update_models].
  destruct (H svs (or_introl eq_refl)) as (H1 & H2).
  rewrite (vmean_flat params) by auto. rewrite update_params_flat by (now apply mean_sv_shape). cbn [bindr].
  rewrite IH by (intros; apply H; now right). reflexivity.
Qed.
