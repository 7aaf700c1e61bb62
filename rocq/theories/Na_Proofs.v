(** Proofs about Na_Model.v. *)
From Coq Require Import Reals List Arith Bool Lia Lra.
From Verif Require Import Prelude Vec FB_Model FB_Spec FB_Proofs FB_Viterbi Edit_Model Edit_Proofs Dec_Model Dec_Proofs
  HMM_Model HMM_Spec HMM_Proofs Vt_Model Vl_Model Vl_Spec Mx_Model Pw_Model Bg_Model Pa_Proofs Rp_Proofs De_Proofs Na_Model Na_Spec.
From Verif Require Import Set_Model Set_Spec Set_Proofs.
Import ListNotations.
Local Open Scope R_scope.

(** A tensor all of whose entries are changed by [f]: numbers, or all NaN *)
Section Hom.
  Variable f : R -> nr.
  Hypothesis H1 : forall x y, nadd (f x) (f y) = f (x + y).
  Hypothesis H2 : forall x y, nadd (f x) (Some y) = f (x + y).
  Hypothesis H3 : forall x y, nmul (f x) (Some y) = f (x * y).

  Definition nlift (d : sdict) : nsdict := map (fun pm => (fst pm, map (map f) (snd pm))) d.

  Lemma nvadd_hom : forall u v, nvadd (map f u) (map f v) = map f (vadd u v).
  Proof. induction u as [|a u IH]; intros [|b v]; cbn; auto. f_equal; [apply H1|apply IH]. Qed.

  Lemma nvadd_zeros n : forall u, nvadd (map f u) (nzeros n) = map f (vadd u (vzeros n)).
  Proof.
    unfold nzeros, vzeros. induction n as [|n IH]; intros [|a u]; cbn; auto. f_equal; [apply H2|apply IH].
  Qed.

  Lemma ncolsum_hom n : forall rows, rows <> [] -> ncolsum n (map (map f) rows) = map f (colsum n rows).
  Proof.
    intros [|r rows] H; [congruence|]. clear H. revert r. induction rows as [|r' rows IH]; intros r.
    - cbn. apply nvadd_zeros.
    - change (nvadd (map f r) (ncolsum n (map (map f) (r' :: rows))) = map f (vadd r (colsum n (r' :: rows)))).
      rewrite IH. apply nvadd_hom.
  Qed.

  Lemma nsum_hom : forall l, l <> [] -> nsum (map f l) = f (rsum l).
  Proof.
    intros [|a l] H; [congruence|]. clear H. revert a. induction l as [|b l IH]; intros a; [apply H2|].
    change (nadd (f a) (nsum (map f (b :: l))) = f (a + rsum (b :: l))). rewrite IH. apply H1.
  Qed.

  Lemma nscale_hom a v : nscale (f a) v = map f (vscale a v).
  Proof. unfold nscale, vscale. rewrite map_map. apply map_ext. intros x. apply H3. Qed.

  Lemma removelast_map {A B} (h : A -> B) : forall l, removelast (map h l) = map h (removelast l).
  Proof. induction l as [|a [|b l] IH]; cbn; auto. f_equal. exact IH. Qed.

  Lemma ncat_hom row : row <> [] -> ncat_stats (map f row) = map f (cat_stats row).
  Proof. intros H. unfold ncat_stats, cat_stats. rewrite map_app, removelast_map, nsum_hom by exact H. reflexivity. Qed.

  Lemma dset_hom : forall (d : sdict) k v, dset (nlift d) k (map (map f) v) = nlift (dset d k v).
  Proof.
    induction d as [|(k', v') d IH]; intros k v; [reflexivity|]. cbn. destruct (Nat.eq_dec k k'); [reflexivity|].
    cbn. f_equal. apply IH.
  Qed.

  Lemma ndupdate_hom : forall e d : sdict, ndupdate (nlift d) (nlift e) = nlift (dupdate d e).
  Proof.
    unfold ndupdate, dupdate. induction e as [|(k, v) e IH]; intros d; [reflexivity|]. cbn. rewrite dset_hom. apply IH.
  Qed.

  Lemma nth_hom k r : (k < length r)%nat -> nth k (map f r) (Some 0) = f (nth k r 0).
  Proof. intros H. rewrite (nth_indep _ _ (f 0)) by (now rewrite map_length). apply map_nth. Qed.

  Lemma map2_nscale_hom : forall r w, map2 nscale (map f r) w = map (map f) (map2 vscale r w).
  Proof. induction r as [|a r IH]; intros [|b w]; cbn; auto. f_equal; [apply nscale_hom|apply IH]. Qed.

  Lemma blocks_hom c w l : blocks c w (map f l) = map (map f) (blocks c w l).
  Proof. unfold blocks. rewrite map_map. apply map_ext. intros i. now rewrite skipn_map, firstn_map. Qed.

  Lemma map2_ne {A B C} (g : A -> B -> C) l m : l <> [] -> m <> [] -> map2 g l m <> [].
  Proof. destruct l, m; cbn; congruence. Qed.

  Lemma map2_map_l {A B C D} (g : B -> C -> D) (h : A -> B) : forall l m, map2 g (map h l) m = map2 (fun a c => g (h a) c) l m.
  Proof. induction l as [|a l IH]; intros [|b m]; cbn; auto. f_equal. apply IH. Qed.

  Lemma map2_map_r {A B C D} (g : A -> C -> D) (h : B -> C) : forall l m, map2 g l (map h m) = map2 (fun a c => g a (h c)) l m.
  Proof. induction l as [|a l IH]; intros [|b m]; cbn; auto. f_equal. apply IH. Qed.

  Lemma weighted_rows n cf llhs : (0 < n)%nat -> length llhs = (length cf * n)%nat -> Forall (fun w => length w = n) cf ->
    Forall (fun row => row <> []) (mix_resps (weighted n cf llhs)).
  Proof.
    intros Hn Hl Hw. unfold mix_resps, weighted. apply Forall_forall. intros row Hr. apply in_map_iff in Hr. destruct Hr as (w & <- & Hr).
    assert (Hw' : w <> []); [|destruct w; [congruence|discriminate]].
    assert (Lb : Forall (fun b : list R => b <> []) (blocks (length cf) n llhs)).
    { unfold blocks. apply Forall_forall. intros b Hb. apply in_map_iff in Hb. destruct Hb as (i & <- & Hi). apply in_seq in Hi.
      intros E. apply (f_equal (@length R)) in E. rewrite firstn_length, skipn_length, Hl in E. cbn in E. nia. }
    assert (Ll : Forall (fun b : list R => b <> []) (log_weights n cf)).
    { unfold log_weights, transpose. apply Forall_forall. intros b Hb. apply in_map_iff in Hb. destruct Hb as (i & <- & Hi).
      intros E. apply (f_equal (@length R)) in E. rewrite !map_length in E. unfold eye in E. rewrite map_length, seq_length in E. cbn in E. lia. }
    clear - Hr Lb Ll. revert Hr Ll. generalize (log_weights n cf). induction Lb as [|b bs Hb Lb IH]; intros [|c cs] Hr Ll; try contradiction.
    inversion Ll; subst. destruct Hr as [<-|Hr]; [|eapply IH; eauto]. now apply map2_ne.
  Qed.

  Lemma naccumulate_hom m : forall stats resps, wf m -> stats <> [] -> length resps = length stats ->
    Forall (fun r => length r = size m) resps ->
    naccumulate m stats (map (map f) resps) = nlift (accumulate m stats resps).
  Proof.
    induction m as [p d nf c|l IH|m r IH|p cf m IH] using mset_rect'; intros stats resps W Hne Hlen Hr.
    - cbn [naccumulate accumulate nlift map fst snd]. f_equal. f_equal. unfold nresps_t_stats, resps_t_stats. rewrite map_map.
      apply map_ext_in. intros k Hk. apply in_seq in Hk. rewrite <- ncolsum_hom.
      + f_equal. rewrite map2_map_l, map_map2. cbn [size] in Hr. clear - Hk Hr H3.
        revert stats. induction Hr as [|r rs Hr0 Hr IHr]; intros [|x xs]; cbn [map2]; auto. f_equal; [|apply IHr].
        rewrite nth_hom by lia. apply nscale_hom.
      + apply map2_ne; [|exact Hne]. destruct resps; [|congruence]. destruct stats; [congruence|discriminate].
    - rewrite accumulate_joint. change (naccumulate (Joint l) stats (map (map f) resps)) with
        ((fix accs l start acc := match l with [] => acc | m :: t => accs t (start + size m)%nat
            (ndupdate acc (naccumulate m stats (map (fun r => firstn (size m) (skipn start r)) (map (map f) resps)))) end) l 0%nat []).
      assert (G : forall s (a : sdict), Forall (fun r => length r = (s + size (Joint l))%nat) resps ->
        (fix accs l start acc := match l with [] => acc | m :: t => accs t (start + size m)%nat
            (ndupdate acc (naccumulate m stats (map (fun r => firstn (size m) (skipn start r)) (map (map f) resps)))) end) l s (nlift a) =
        nlift (accs l s stats resps a)).
      { clear Hr. induction IH as [|m t Hm Ht IHt]; intros s a Hs; [reflexivity|].
        destruct W as (W1 & W2). cbn [accs].
        assert (E : naccumulate m stats (map (fun r => firstn (size m) (skipn s r)) (map (map f) resps)) =
          nlift (accumulate m stats (columns s (size m) resps))).
        { rewrite <- Hm; auto.
          - f_equal. unfold columns. rewrite !map_map. apply map_ext. intros r. now rewrite skipn_map, firstn_map.
          - unfold columns. now rewrite map_length.
          - unfold columns. apply Forall_map. eapply Forall_impl; [|exact Hs]. intros r Er. cbn [size] in Er.
            rewrite firstn_length, skipn_length. lia. }
        rewrite E, ndupdate_hom. apply IHt; [exact W2|]. eapply Forall_impl; [|exact Hs]. intros r Er. cbn [size] in Er |- *. lia. }
      apply (G 0%nat []). exact Hr.
    - cbn [naccumulate accumulate]. destruct W as (W & Hp). rewrite <- IH; auto.
      + f_equal. rewrite !map_map. apply map_ext. intros row. rewrite map_length, blocks_hom, ncolsum_hom; [reflexivity|].
        unfold blocks. destruct r; [lia|discriminate].
      + now rewrite map_length.
      + apply Forall_map. eapply Forall_impl; [|exact Hr]. intros row Er. cbn [size] in Er. rewrite Er.
        assert (Ew : (size m * r / r)%nat = size m) by (apply Nat.div_mul; lia). rewrite Ew. apply colsum_length.
        unfold blocks. apply Forall_forall. intros b Hb. apply in_map_iff in Hb. destruct Hb as (i & <- & Hi). apply in_seq in Hi.
        rewrite firstn_length, skipn_length, Er. nia.
    - cbn [naccumulate accumulate]. cbv zeta. destruct W as (W & Hc & n & Hn & Hs & Hw).
      assert (En : ncpm cf m = n) by (unfold ncpm; rewrite Hs; now apply div_size). rewrite !En.
      set (joint0 := map2 (joint_resps cf m) stats resps).
      assert (EJ : map2 (fun x r => map2 nscale r (mix_resps (weighted n cf (ellh m x)))) stats (map (map f) resps) = map (map (map f)) joint0).
      { unfold joint0. rewrite map2_map_r, map_map2. apply map2_ext. intros x r _. unfold joint_resps. rewrite En. apply map2_nscale_hom. }
      rewrite EJ.
      assert (Hmix : forall x, Forall (fun row => row <> []) (mix_resps (weighted n cf (ellh m x)))).
      { intros x. apply weighted_rows; auto. rewrite ellh_length. exact Hs. }
      assert (Hj : Forall (Forall (fun row : list R => row <> [])) joint0).
      { unfold joint0. clear - Hmix En. revert resps. induction stats as [|x xs IHx]; intros [|r rs]; cbn [map2]; constructor; auto.
        unfold joint_resps. rewrite En. specialize (Hmix x). revert Hmix. generalize (mix_resps (weighted n cf (ellh m x))).
        induction r as [|a r IHr]; intros w Hw; cbn [map2]; [constructor|]. destruct Hw as [|row w Hrow Hw]; constructor; auto.
        destruct row; [congruence|discriminate]. }
      assert (Hjl : length joint0 = length stats) by (unfold joint0; rewrite map2_length; lia).
      assert (Jne : joint0 <> []) by (destruct joint0; [destruct stats; [congruence|discriminate]|discriminate]).
      assert (EC : map (map ncat_stats) (map (map (map f)) joint0) = map (map (map f)) (map (map cat_stats) joint0)).
      { rewrite !map_map. apply map_ext_in. intros j Hjin. assert (Hj' := proj1 (Forall_forall _ _) Hj j Hjin). rewrite !map_map.
        apply map_ext_in. intros row Hrow. apply ncat_hom. exact (proj1 (Forall_forall _ _) Hj' row Hrow). }
      rewrite EC.
      assert (E1 : map (@concat nr) (map (map (map f)) joint0) = map (map f) (map (@concat R) joint0)).
      { rewrite !map_map. apply map_ext. intros j. symmetry. apply concat_map. }
      rewrite E1, IH; auto.
      + rewrite <- ndupdate_hom. f_equal. cbn [nlift map fst snd]. apply (f_equal (fun v => [(p, v)])).
        symmetry. etransitivity; [apply map_map|]. symmetry. apply map_ext. intros i. rewrite <- ncolsum_hom.
        * f_equal. rewrite !map_map. apply map_ext. intros j. change (@nil nr) with (map f []). apply map_nth.
        * destruct joint0; [congruence|discriminate].
      + now rewrite map_length.
      + apply Forall_map. unfold joint0. cbn [size] in Hr. apply Forall_forall. intros j Hjin.
        assert (G : forall x r, length r = length cf -> length (concat (joint_resps cf m x r)) = size m).
        { intros x r El. unfold joint_resps. rewrite En, Hs.
          assert (Lw : length (mix_resps (weighted n cf (ellh m x))) = length cf).
          { unfold mix_resps, weighted. rewrite map_length, map2_length, blocks_length, log_weights_length. lia. }
          assert (Fw : Forall (fun row => length row = n) (mix_resps (weighted n cf (ellh m x)))).
          { unfold mix_resps, weighted. apply Forall_map. apply Forall_forall. intros w Hin. rewrite map_length.
            assert (Fb : Forall (fun b : list R => length b = n) (blocks (length cf) n (ellh m x))).
            { unfold blocks. apply Forall_forall. intros b Hb. apply in_map_iff in Hb. destruct Hb as (i & <- & Hi). apply in_seq in Hi.
              rewrite firstn_length, skipn_length, ellh_length, Hs. nia. }
            assert (Fl : Forall (fun b : list R => length b = n) (log_weights n cf)).
            { unfold log_weights, transpose. apply Forall_forall. intros b Hb. apply in_map_iff in Hb. destruct Hb as (i & <- & Hi).
              unfold eye. now rewrite !map_length, seq_length. }
            clear - Hin Fb Fl. revert Hin Fl. generalize (log_weights n cf). induction Fb as [|b bs Hb Fb IHb]; intros [|c cs] Hin Fl; try contradiction.
            inversion Fl; subst. destruct Hin as [<-|Hin]; [|eapply IHb; eauto]. rewrite vadd_length; congruence. }
          revert El Lw Fw. generalize (mix_resps (weighted n cf (ellh m x))). clear. revert r. generalize cf. clear.
          induction cf as [|c cf IH]; intros [|a r] [|w W] El Lw Fw; cbn in El, Lw; try discriminate; [reflexivity|].
          inversion Fw; subst. cbn [map2 concat length]. rewrite app_length, (IH r W) by (auto; lia). rewrite vscale_length. lia. }
        clear - Hjin Hr G. revert resps Hjin Hr. induction stats as [|x xs IHx]; intros [|r rs] Hin Hr; try contradiction.
        inversion Hr; subst. destruct Hin as [<-|Hin]; [now apply G|now apply (IHx rs)].
  Qed.
End Hom.

(** ** Numbers, and NaN everywhere *)
Definition nan1 (x : R) : nr := None.

Lemma some_add x y : nadd (Some x) (Some y) = Some (x + y). Proof. reflexivity. Qed.
Lemma some_mul x y : nmul (Some x) (Some y) = Some (x * y). Proof. reflexivity. Qed.

Lemma nsum_some : forall l, nsum (map Some l) = Some (rsum l).
Proof. induction l as [|a l IH]; [reflexivity|]. change (nadd (Some a) (nsum (map Some l)) = Some (a + rsum l)). now rewrite IH. Qed.

Lemma nsum_none : forall l, In None l -> nsum l = None.
Proof.
  induction l as [|a l IH]; intros H; [destruct H|]. change (nadd a (nsum l) = None).
  destruct H as [->|H]; [reflexivity|]. rewrite IH by exact H. destruct a; reflexivity.
Qed.

Lemma nadd_none_r a : nadd a None = None. Proof. destruct a; reflexivity. Qed.
Lemma nmul_none_r a : nmul a None = None. Proof. destruct a; reflexivity. Qed.
Lemma nsub_none_l a : nsub None a = None. Proof. reflexivity. Qed.

Lemma map_const {A B} (b : B) : forall l : list A, map (fun _ => b) l = repeat b (length l).
Proof. induction l; cbn; congruence. Qed.

(** ** Re-ordering *)
Lemma nadd_at_some : forall l k v, nadd_at k (Some v) (map Some l) = map Some (add_at k v l).
Proof. induction l as [|a l IH]; intros [|k] v; cbn; auto. f_equal. apply IH. Qed.

Lemma nscatter_some K order r : nscatter K order (map Some r) = map Some (scatter K order r).
Proof.
  unfold nscatter, scatter. assert (E : nzeros K = map Some (vzeros K)) by (unfold nzeros, vzeros; clear; induction K; cbn; congruence).
  rewrite E. generalize (vzeros K). revert r. induction order as [|o order IH]; intros [|v r] acc; cbn; auto.
  rewrite nadd_at_some. apply IH.
Qed.

Lemma nadd_at_length : forall l k v, length (nadd_at k v l) = length l.
Proof. induction l as [|a l IH]; intros [|k] v; cbn; auto. Qed.

Lemma nadd_at_none : forall l k, (k < length l)%nat -> nth k (nadd_at k None l) (Some 0) = None.
Proof. induction l as [|a l IH]; intros [|k] H; cbn in *; try lia; [apply nadd_none_r|]. apply IH. lia. Qed.

Lemma nadd_at_keep : forall l k v j, nth j l (Some 0) = None -> nth j (nadd_at k v l) (Some 0) = None.
Proof. induction l as [|a l IH]; intros [|k] v [|j] H; cbn in *; auto. now subst a. Qed.

Lemma scatter_fold_length : forall ov acc, length (fold_left (fun acc ov => nadd_at (fst ov) (snd ov) acc) ov acc) = length acc.
Proof. induction ov as [|x ov IH]; intros acc; [reflexivity|]. cbn. rewrite IH. apply nadd_at_length. Qed.

Lemma scatter_fold_keep : forall (ov : list (nat * nr)) acc j, nth j acc (Some 0) = None ->
  nth j (fold_left (fun acc ov => nadd_at (fst ov) (snd ov) acc) ov acc) (Some 0) = None.
Proof. induction ov as [|x ov IH]; intros acc j H; [exact H|]. cbn. apply IH. now apply nadd_at_keep. Qed.

Lemma scatter_fold_none : forall (order : list nat) acc j, In j order -> (j < length acc)%nat ->
  nth j (fold_left (fun acc ov => nadd_at (fst ov) (snd ov) acc) (combine order (repeat (None : nr) (length order))) acc) (Some 0) = None.
Proof.
  induction order as [|o order IH]; intros acc j H Hj; [destruct H|]. cbn. destruct H as [->|H].
  - apply scatter_fold_keep. now apply nadd_at_none.
  - apply IH; [exact H|]. now rewrite nadd_at_length.
Qed.

Lemma nscatter_nan K order : (forall k, (k < K)%nat -> In k order) -> nscatter K order (repeat None (length order)) = repeat None K.
Proof.
  intros Hc. unfold nscatter. assert (L : length (nzeros K) = K) by apply repeat_length.
  apply (nth_ext _ _ (Some 0) (Some 0)).
  - rewrite scatter_fold_length, L. now rewrite repeat_length.
  - intros j Hj. rewrite scatter_fold_length, L in Hj. rewrite scatter_fold_none by (rewrite ?L; auto).
    symmetry. apply (repeat_spec K None). apply nth_In. now rewrite repeat_length.
Qed.

Lemma add_at_length : forall l k v, length (add_at k v l) = length l.
Proof. induction l as [|a l IH]; intros [|k] v; cbn; auto. Qed.

Lemma scatter_length K order r : length (scatter K order r) = K.
Proof.
  unfold scatter. assert (G : forall ov acc, length (fold_left (fun acc (ov : nat * R) => add_at (fst ov) (snd ov) acc) ov acc) = length acc).
  { induction ov as [|x ov IH]; intros acc; [reflexivity|]. cbn. rewrite IH. apply add_at_length. }
  rewrite G. apply vzeros_length.
Qed.

(** ** Posteriors *)
Lemma no_inf g a b j : (j < cg_n g)%nat -> state_post g a b j <> PInf.
Proof.
  intros Hj. unfold state_post, lognorm, lse, exp_sub.
  destruct (forallb is_ninf (map (fun j => ladd (a j) (b j)) (seq 0 (cg_n g)))) eqn:E; destruct (ladd (a j) (b j)) eqn:Ej; try discriminate.
  exfalso. assert (F := proj1 (forallb_forall _ _) E (ladd (a j) (b j))). rewrite Ej in F. discriminate F.
  rewrite <- Ej. apply (in_map (fun j => ladd (a j) (b j))). apply in_seq. lia.
Qed.

Lemma trans_numbers g rows xi i j : In xi (trans_posteriors g rows) -> (i < cg_n g)%nat -> (j < cg_n g)%nat -> nval (xi i j) = Some (num_val (xi i j)).
Proof.
  intros H Hi Hj. unfold trans_posteriors in H. apply in_map_iff in H. destruct H as ((a & l & b) & <- & _). cbn [fst snd].
  unfold trans_post, lse. destruct (forallb is_ninf _) eqn:E.
  - assert (En : log_xi g a l b i j = NInf).
    { assert (F := proj1 (forallb_forall _ _) E (log_xi g a l b i j)). destruct (log_xi g a l b i j) eqn:Ex; [reflexivity|].
      discriminate F. rewrite <- Ex. apply in_map_iff. exists (i, j). split; [reflexivity|]. unfold pairs. apply in_flat_map. exists i.
      split; [apply in_seq; lia|]. apply in_map. apply in_seq. lia. }
    rewrite En. reflexivity.
  - destruct (log_xi g a l b i j); reflexivity.
Qed.

Lemma has_or_none g T : has_path g T \/ no_path g T.
Proof.
  unfold has_path, no_path. destruct (Forall_Exists_dec (fun p => prior_prob g T p = 0) (fun p => Req_EM_T _ _) (paths (cg_n g) T)) as [F|E].
  - right. intros p Hp. exact (proj1 (Forall_forall _ _) F p Hp).
  - left. apply Exists_exists in E. destruct E as (p & Hp & E). exists p. split; [exact Hp|].
    assert (N : 0 <= prior_prob g T p).
    { unfold prior_prob. rewrite <- ex_path_score. apply ex_nonneg. }
    lra.
Qed.

Lemma finite_rows llhs : forall (r : row) j, In r (as_rows llhs) -> r j <> NInf.
Proof. intros r j Hr. unfold as_rows in Hr. apply in_map_iff in Hr. destruct Hr as (y & <- & _). discriminate. Qed.

Lemma no_path_evidence g llhs : no_path g (length llhs) -> evidence g (as_rows llhs) = 0.
Proof.
  intros H. unfold evidence. assert (L : length (as_rows llhs) = length llhs) by apply map_length. rewrite L.
  apply sumf_zero. intros p Hp. specialize (H p Hp). unfold prior_prob in H. rewrite <- ex_path_score in H |- *.
  apply ex_zero_iff in H. destruct (path_score g (as_rows llhs) p) eqn:E; [reflexivity|]. exfalso.
  assert (N : path_score g (as_rows llhs) p <> NInf) by congruence.
  apply (path_rows g (as_rows llhs) (repeat (fun _ => Fin 0) (length llhs))) in N; [contradiction|now rewrite L, repeat_length|].
  intros r0 j Hr. apply repeat_spec in Hr. now subst r0.
Qed.

Lemma has_path_evidence g llhs : has_path g (length llhs) -> 0 < evidence g (as_rows llhs).
Proof.
  intros (p & Hp & H). unfold evidence. assert (L : length (as_rows llhs) = length llhs) by apply map_length. rewrite L.
  apply (sumf_pos _ _ p); [|exact Hp|].
  - intros q _. rewrite <- ex_path_score. apply ex_nonneg.
  - unfold prior_prob in H. rewrite <- ex_path_score in H |- *. apply fin_ex. apply fin_ex in H.
    apply (path_rows g (repeat (fun _ => Fin 0) (length llhs))); [now rewrite L, repeat_length|apply finite_rows|exact H].
Qed.

(** ** One utterance *)
Section Utt.
  Variables (amax : nat -> (nat -> lp) -> nat) (scale : R) (m : mset) (d : nat) (g : cgraph) (order : list nat) (own : bool) (stats : mat).
  Hypothesis Hwf : wf m.
  Hypothesis Hnd : NoDup (params m).
  Hypothesis Hac : accepts d m.
  Hypothesis Hst : Forall (fun x => length x = d) stats.
  Hypothesis Hne : stats <> [].
  Hypothesis Ho : forall o, In o order -> (o < size m)%nat.
  Hypothesis Hn : length order = cg_n g.

  Lemma soft_parts : exists llhs posts v c, pc_llhs m order scale stats = Ok llhs /\ length llhs = length stats /\
    posteriors g (as_rows llhs) = Ok (posts, v) /\ length posts = length stats /\
    hmm_ellh amax m g order own Soft scale stats = Ok (map2 (frame_value (cg_n g)) llhs posts, c) /\
    c = {| c_resps := posts; c_trans := if own then Some (trans_posteriors g (as_rows llhs)) else None; c_scale := scale |}.
  Proof using Hne Ho.
    destruct (pc_llhs m order scale stats) as [llhs|e] eqn:E; [|rewrite pc_llhs_ok in E by auto; discriminate].
    assert (L : length llhs = length stats).
    { rewrite pc_llhs_ok in E by auto. injection E as <-. apply map_length. }
    assert (Hr : as_rows llhs <> []).
    { intros Hx. apply map_eq_nil in Hx. rewrite Hx in L. apply Hne. symmetry in L. now apply length_zero_iff_nil in L. }
    destruct (posteriors_ok g (as_rows llhs) Hr) as (posts & lnm & Ep & Lp).
    exists llhs, posts, lnm. eexists. split; [reflexivity|]. split; [exact L|]. split; [exact Ep|].
    assert (Lr : length (as_rows llhs) = length llhs) by apply map_length.
    split; [congruence|]. split; [|reflexivity]. unfold hmm_ellh. rewrite E. cbn [bindr inference]. rewrite Ep. reflexivity.
  Qed.

  (** A number of frames without a path: NaN everywhere. *)
  Lemma nresps_nan llhs posts v c : posteriors g (as_rows llhs) = Ok (posts, v) -> length posts = length llhs -> c_resps c = posts ->
    no_path g (length llhs) -> nresps (cg_n g) c = map (fun _ => repeat None (cg_n g)) llhs.
  Proof.
    intros Ep Lp Ec Hp. unfold nresps. rewrite Ec. assert (Lr : length (as_rows llhs) = length llhs) by apply map_length.
    apply (nth_ext _ _ [] []); [now rewrite !map_length|]. rewrite map_length. intros t Ht.
    rewrite (map_nth_lt _ _ _ (fun _ => NaN)) by exact Ht. rewrite (map_nth_lt _ _ _ []) by lia.
    rewrite <- (seq_length (cg_n g) 0) at 2. rewrite <- map_const. apply map_ext_in. intros j Hj. apply in_seq in Hj.
    rewrite (posteriors_impossible g (as_rows llhs) posts v t j); auto; [now apply no_path_evidence|lia|lia].
  Qed.

  Lemma nhmm_nan c K : (forall k, (k < size m)%nat -> In k order) -> K = cg_n g -> nresps (cg_n g) c = map (fun _ => repeat None K) stats ->
    nhmm_accumulate m (cg_n g) order c stats = nlift nan1 (accumulate m stats (map (fun _ => vzeros (size m)) stats)).
  Proof using Hwf Hne Hn.
    intros Hc -> E. unfold nhmm_accumulate. rewrite E, !map_map.
    assert (Er : nscatter (size m) order (map (nmul (Some (c_scale c))) (repeat None (cg_n g))) = map nan1 (vzeros (size m))).
    { rewrite map_rep, nmul_none_r, <- Hn, nscatter_nan by exact Hc. unfold vzeros. now rewrite map_rep. }
    rewrite (map_ext _ (fun _ => map nan1 (vzeros (size m)))) by (intros; exact Er).
    rewrite <- (naccumulate_hom nan1); auto.
    - now rewrite map_map.
    - now rewrite map_length.
    - apply Forall_map. apply Forall_forall. intros. apply vzeros_length.
  Qed.

  Lemma acc_shape resps p r k : length resps = length stats -> Forall (fun x => length x = size m) resps -> shape m p = Some (r, k) ->
    exists M, dget Nat.eq_dec (accumulate m stats resps) p = Some M /\ length (concat M) = (r * k)%nat.
  Proof using Hwf Hnd Hac Hst.
    intros L F Hs. destruct (accumulate_denote m d stats resps p r k) as (M & E & LM & HM); auto.
    exists M. split; [exact E|]. rewrite <- LM in HM |- *.
    assert (H1 : forall j, (j < length M)%nat -> length (nth j M []) = k) by (intros j Hj; exact (proj1 (HM j Hj))).
    clear - H1. induction M as [|a M IH]; [reflexivity|].
    cbn [concat length]. rewrite app_length, IH.
    - specialize (H1 0%nat). cbn in H1. rewrite H1 by lia. lia.
    - intros j Hj. apply (H1 (S j)). cbn. lia.
  Qed.

  Lemma dget_nflat (f : R -> nr) (D : sdict) p M tl : dget Nat.eq_dec D p = Some M ->
    dget Nat.eq_dec (nflat (nlift f D) ++ tl) p = Some (map f (concat M)).
  Proof.
    unfold nflat, nlift. induction D as [|(q, v) D IH]; intros E; [discriminate|]. cbn in E |- *. destruct (Nat.eq_dec p q); [|now apply IH].
    injection E as ->. now rewrite concat_map.
  Qed.

  Lemma dget_nflat_miss (f : R -> nr) (D : sdict) p v : dget Nat.eq_dec D p = None ->
    dget Nat.eq_dec (nflat (nlift f D) ++ [(p, v)]) p = Some v.
  Proof.
    unfold nflat, nlift. induction D as [|(q, w) D IH]; intros E.
    - cbn. destruct (Nat.eq_dec p p); [reflexivity|congruence].
    - cbn in E |- *. destruct (Nat.eq_dec p q); [discriminate|now apply IH].
  Qed.

  Lemma dget_keys (D : sdict) p (stats' resps : mat) : D = accumulate m stats' resps -> ~ In p (params m) -> dget Nat.eq_dec D p = None.
  Proof. intros -> H. destruct (dget Nat.eq_dec (accumulate m stats' resps) p) eqn:E; [|reflexivity]. exfalso. apply H. eapply accumulate_keys. rewrite E. discriminate. Qed.

  (** A number of frames with a path: numbers everywhere. *)
  Lemma nums_some n (posts : list (nat -> num)) rs : all_some (map (nums n) posts) = Some rs ->
    map (fun p => map (fun j => nval (p j)) (seq 0 n)) posts = map (map Some) rs /\ Forall (fun r => length r = n) rs /\ length rs = length posts.
  Proof.
    revert rs. induction posts as [|p posts IH]; intros rs E; cbn in E.
    - injection E as <-. repeat split; constructor.
    - destruct (nums n p) as [r|] eqn:Er; [|discriminate]. destruct (all_some (map (nums n) posts)) as [rs'|]; [|discriminate].
      injection E as <-. destruct (IH rs' eq_refl) as (A & B & C). cbn [map length]. rewrite A, C. split; [|split; [constructor; [|exact B]|reflexivity]].
      + f_equal. unfold nums in Er. destruct (forallb num_ok (map p (seq 0 n))) eqn:F; [|discriminate]. injection Er as <-.
        rewrite !map_map. apply map_ext_in. intros j Hj. assert (Fj := proj1 (forallb_forall _ _) F (p j) (in_map p _ _ Hj)).
        destruct (p j); cbn in Fj |- *; congruence.
      + unfold nums in Er. destruct (forallb num_ok (map p (seq 0 n))); [|discriminate]. injection Er as <-. now rewrite !map_length, seq_length.
  Qed.

  Lemma nhmm_some n c rs : length (c_resps c) = length stats -> all_some (map (nums n) (c_resps c)) = Some rs ->
    nhmm_accumulate m n order c stats = nlift Some (dyn_accumulate m order stats (map (vscale (c_scale c)) rs)).
  Proof using Hwf Hne.
    intros L E. destruct (nums_some n _ _ E) as (A & B & C). unfold nhmm_accumulate, nresps. rewrite A. unfold dyn_accumulate.
    rewrite <- (naccumulate_hom Some); auto.
    - f_equal. rewrite !map_map. apply map_ext. intros r. rewrite <- nscatter_some. f_equal. unfold vscale. now rewrite !map_map.
    - rewrite !map_length. congruence.
    - apply Forall_map, Forall_map. apply Forall_forall. intros r _. apply scatter_length.
  Qed.
End Utt.
