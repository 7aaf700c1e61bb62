(** Proofs about the optimisation models. *)
From Coq Require Import Reals List Arith Bool Lia Lra Permutation ZArith.
From Verif Require Import Prelude Vec Edit_Model Dec_Model Dec_Proofs Opt_Model Opt_Spec.
Import ListNotations.
Local Open Scope R_scope.

(** ** vectors *)
Lemma vadd_comm u v : vadd u v = vadd v u.
Proof. unfold vadd. revert v; induction u; intros [|]; simpl; auto. f_equal; [lra|apply IHu]. Qed.

Lemma vadd_assoc u v w : vadd u (vadd v w) = vadd (vadd u v) w.
Proof. unfold vadd. revert v w; induction u; intros [|] [|]; simpl; auto. f_equal; [lra|apply IHu]. Qed.

(** ** sets *)
Lemma inb_In x l : inb x l = true <-> In x l.
Proof.
  unfold inb. rewrite existsb_exists. split.
  - intros (y & H & E). apply Nat.eqb_eq in E. now subst.
  - intros H. exists x. now rewrite Nat.eqb_refl.
Qed.

Lemma inb_false x l : inb x l = false <-> ~ In x l.
Proof. rewrite <- inb_In. destruct (inb x l); split; congruence. Qed.

(** ** dictionaries *)
Lemma fold_dset_dget {V} (f : nat -> V) ks d0 k :
  dget Nat.eq_dec (fold_left (fun d k => dset d k (f k)) ks d0) k =
  if in_dec Nat.eq_dec k ks then Some (f k) else dget Nat.eq_dec d0 k.
Proof.
  revert d0; induction ks as [|a ks IH]; intros d0; simpl; [reflexivity|].
  rewrite IH, dget_dset.
  destruct (Nat.eq_dec k a) as [->|E].
  - destruct (in_dec Nat.eq_dec a ks); destruct (Nat.eq_dec a a); try congruence; reflexivity.
  - destruct (Nat.eq_dec a k); [congruence|].
    destruct (in_dec Nat.eq_dec k ks); auto.
Qed.

Definition opt_add (a b : option (list R)) : option (list R) :=
  match a, b with
  | Some x, Some y => Some (vadd x y)
  | Some x, None => Some x
  | None, y => y
  end.

Lemma opt_add_comm a b : opt_add a b = opt_add b a.
Proof. destruct a, b; simpl; auto. now rewrite vadd_comm. Qed.

Lemma opt_add_assoc a b c : opt_add a (opt_add b c) = opt_add (opt_add a b) c.
Proof. destruct a, b, c; simpl; auto. now rewrite vadd_assoc. Qed.

Lemma add_acc_stats_get enum a1 a2 k : is_enum enum ->
  dget_acc (add_acc_stats enum a1 a2) k = opt_add (dget_acc a1 k) (dget_acc a2 k).
Proof.
  intros He. unfold add_acc_stats, dget_acc. cbv zeta.
  rewrite !fold_dset_dget.
  assert (Hk : forall a : accs, In k (map fst a) <-> exists v, dget Nat.eq_dec a k = Some v)
    by (intros; apply dget_some_in).
  assert (Hin : forall l, In k (enum l) <-> In k l).
  { intros l. split; apply Permutation_in; [apply He|apply Permutation_sym, He]. }
  pose proof (Hk a1) as H1. pose proof (Hk a2) as H2.
  assert (Hd : forall l1 l2, In k (kdiff l1 l2) <-> In k l1 /\ ~ In k l2).
  { intros. unfold kdiff. rewrite filter_In, negb_true_iff, inb_false. reflexivity. }
  assert (Hi : forall l1 l2, In k (kinter l1 l2) <-> In k l1 /\ In k l2).
  { intros. unfold kinter. rewrite filter_In, inb_In. reflexivity. }
  destruct (in_dec Nat.eq_dec k (enum (kdiff (map fst a2) (map fst a1)))) as [i|i];
    rewrite Hin, Hd in i.
  { destruct (dget Nat.eq_dec a1 k) as [x|] eqn:E1.
    - exfalso. apply (proj2 i), H1. eauto.
    - destruct (dget Nat.eq_dec a2 k) as [y|] eqn:E2; [reflexivity|].
      exfalso. destruct (proj1 H2 (proj1 i)); discriminate. }
  destruct (in_dec Nat.eq_dec k (enum (kdiff (map fst a1) (map fst a2)))) as [j|j];
    rewrite Hin, Hd in j.
  { destruct (dget Nat.eq_dec a2 k) as [x|] eqn:E1.
    - exfalso. apply (proj2 j), H2. eauto.
    - destruct (dget Nat.eq_dec a1 k) as [y|] eqn:E2; [reflexivity|].
      exfalso. destruct (proj1 H1 (proj1 j)); discriminate. }
  destruct (in_dec Nat.eq_dec k (enum (kinter (map fst a1) (map fst a2)))) as [l|l];
    rewrite Hin, Hi in l.
  { destruct (proj1 H1 (proj1 l)) as [x ->], (proj1 H2 (proj2 l)) as [y ->]. reflexivity. }
  simpl. destruct (dget Nat.eq_dec a1 k) eqn:E1, (dget Nat.eq_dec a2 k) eqn:E2; auto; exfalso.
  - apply l. split; [apply H1|apply H2]; eauto.
  - apply j. split; [apply H1; eauto|]. intros Hc. apply H2 in Hc. destruct Hc; discriminate.
  - apply i. split; [apply H2; eauto|]. intros Hc. apply H1 in Hc. destruct Hc; discriminate.
Qed.

Lemma vplus_comm a b : vplus a b = vplus b a.
Proof. destruct a, b; simpl; f_equal; lra. Qed.

Lemma vplus_assoc a b c : vplus a (vplus b c) = vplus (vplus a b) c.
Proof. destruct a, b, c; simpl; f_equal; lra. Qed.

Lemma set_union_In s1 s2 k : In k (set_union s1 s2) <-> In k s1 \/ In k s2.
Proof.
  unfold set_union, kdiff. rewrite in_app_iff, filter_In, negb_true_iff, inb_false.
  split; [tauto|]. intros [H|H]; [tauto|].
  destruct (in_dec Nat.eq_dec k s1); tauto.
Qed.

Lemma set_union_NoDup s1 s2 : NoDup s1 -> NoDup s2 -> NoDup (set_union s1 s2).
Proof.
  intros H1 H2. unfold set_union.
  assert (H3 : NoDup (kdiff s2 s1)) by now apply NoDup_filter.
  assert (H4 : forall x, In x (kdiff s2 s1) -> ~ In x s1).
  { intros x Hx. unfold kdiff in Hx. apply filter_In in Hx.
    now rewrite negb_true_iff, inb_false in Hx. }
  induction H1 as [|a s1' Ha H1 IH]; simpl; [assumption|].
  revert H3 H4. generalize (kdiff s2 (a :: s1')). clear IH.
  intros l H3 H4. constructor.
  - rewrite in_app_iff. intros [Hc|Hc]; [contradiction|]. apply (H4 a Hc). now left.
  - revert H1 H4. clear Ha. induction s1' as [|b s IH2]; simpl; intros H1 H4; [assumption|].
    inversion_clear H1. constructor.
    + rewrite in_app_iff. intros [Hc|Hc]; [contradiction|]. apply (H4 b Hc). right; now left.
    + apply IH2; auto. intros x Hx [->|Hc]; apply (H4 x Hx); [now left|right; now right].
Qed.

(** ** sums of objectives *)
Definition same_ds (es : list elbo) : Prop :=
  match es with [] => True | e :: t => Forall (fun x => e_ds x = e_ds e) t end.

(** Content of a sum, as an unordered collection. *)
Definition osum (k : nat) (es : list elbo) : option (list R) :=
  fold_right (fun e a => opt_add (dget_acc (e_acc e) k) a) None es.

Definition oval (es : list elbo) : option value :=
  fold_right (fun e a => match a with None => Some (e_value e)
                         | Some v => Some (vplus (e_value e) v) end) None es.

Lemma osum_app k l1 l2 : osum k (l1 ++ l2) = opt_add (osum k l1) (osum k l2).
Proof.
  induction l1; simpl; [reflexivity|]. rewrite IHl1, opt_add_assoc. reflexivity.
Qed.

Lemma osum_perm k l1 l2 : Permutation l1 l2 -> osum k l1 = osum k l2.
Proof.
  induction 1; simpl; auto; try congruence.
  rewrite !opt_add_assoc. f_equal. apply opt_add_comm.
Qed.

Lemma oval_app l1 l2 a b : oval l1 = Some a -> oval l2 = Some b ->
  oval (l1 ++ l2) = Some (vplus a b).
Proof.
  revert a; induction l1 as [|e l1 IH]; simpl; intros a H1 H2; [discriminate|].
  destruct (oval l1) as [c|] eqn:E.
  - rewrite (IH c eq_refl H2). inversion H1. now rewrite vplus_assoc.
  - assert (l1 = []).
    { destruct l1; auto. simpl in E. destruct (oval l1); discriminate. }
    subst. simpl. rewrite H2. inversion H1. reflexivity.
Qed.

Lemma oval_perm l1 l2 : Permutation l1 l2 -> oval l1 = oval l2.
Proof.
  induction 1; simpl; auto; try congruence.
  - now rewrite IHPermutation.
  - destruct (oval l); rewrite ?vplus_assoc; f_equal; [f_equal|]; apply vplus_comm.
Qed.

Lemma leaves_nonempty t : leaves t <> [].
Proof. induction t; simpl; [discriminate|]. destruct (leaves t1); [contradiction|discriminate]. Qed.

Lemma oval_some es : es <> [] -> exists v, oval es = Some v.
Proof. destruct es as [|e es]; [congruence|]. simpl. destruct (oval es); eauto. Qed.

Definition sum_content (es : list elbo) (e : elbo) : Prop :=
  oval es = Some (e_value e) /\
  (forall k, dget_acc (e_acc e) k = osum k es) /\
  (forall k, In k (e_params e) <-> exists x, In x es /\ In k (e_params x)) /\
  e_mb e = list_sum (map e_mb es) /\
  Forall (fun x => e_ds x = e_ds e) es.

Lemma elbo_add_content enum l1 l2 a b e : is_enum enum ->
  sum_content l1 a -> sum_content l2 b -> elbo_add enum a b = Ok e ->
  sum_content (l1 ++ l2) e.
Proof.
  intros He (A1 & A2 & A3 & A4 & A5) (B1 & B2 & B3 & B4 & B5) H.
  unfold elbo_add in H. destruct (Nat.eqb_spec (e_ds a) (e_ds b)) as [E|]; [|discriminate].
  injection H as <-. split; [|split; [|split; [|split]]]; simpl.
  - now apply oval_app.
  - intros k. rewrite add_acc_stats_get, osum_app, A2, B2 by auto. reflexivity.
  - intros k. rewrite set_union_In, A3, B3. split.
    + intros [(x & Hx & Hk)|(x & Hx & Hk)]; exists x; rewrite in_app_iff; auto.
    + intros (x & Hx & Hk). apply in_app_iff in Hx. destruct Hx; [left|right]; eauto.
  - rewrite map_app, list_sum_app. congruence.
  - apply Forall_app. split; [assumption|]. rewrite E. assumption.
Qed.

Lemma eval_ok_content enum t e : is_enum enum -> eval enum t = Ok e ->
  sum_content (leaves t) e.
Proof.
  intros He. revert e; induction t as [e0|l IHl r IHr]; simpl; intros e H.
  - injection H as <-. split; [reflexivity|split; [|split; [|split]]]; simpl.
    + intros k. unfold opt_add. destruct (dget_acc (e_acc e0) k); reflexivity.
    + intros k. split; [intros; exists e0; auto|]. intros (x & [->|[]] & Hk). exact Hk.
    + lia.
    + constructor; auto.
  - destruct (eval enum l) as [a|] eqn:Ea; [|discriminate].
    destruct (eval enum r) as [b|] eqn:Eb; [|discriminate]. simpl in H.
    apply (elbo_add_content enum _ _ a b); auto.
Qed.

Lemma eval_ok_iff enum t : is_enum enum ->
  (exists e, eval enum t = Ok e) <->
  (forall x y, In x (leaves t) -> In y (leaves t) -> e_ds x = e_ds y).
Proof.
  intros He. split.
  - intros [e H] x y Hx Hy. apply eval_ok_content in H; auto.
    destruct H as (_ & _ & _ & _ & H). rewrite Forall_forall in H.
    now rewrite (H x Hx), (H y Hy).
  - induction t as [e0|l IHl r IHr]; simpl; intros H; [eauto|].
    destruct IHl as [a Ha]; [intros; apply H; apply in_app_iff; auto|].
    destruct IHr as [b Hb]; [intros; apply H; apply in_app_iff; auto|].
    rewrite Ha, Hb. simpl. unfold elbo_add.
    pose proof (eval_ok_content enum l a He Ha) as (_ & _ & _ & _ & F1).
    pose proof (eval_ok_content enum r b He Hb) as (_ & _ & _ & _ & F2).
    destruct (leaves l) as [|x l1] eqn:E1; [now apply leaves_nonempty in E1|].
    destruct (leaves r) as [|y r1] eqn:E2; [now apply leaves_nonempty in E2|].
    inversion_clear F1 as [|? ? Hx _]. inversion_clear F2 as [|? ? Hy _].
    assert (Hxy : e_ds x = e_ds y) by (apply H; rewrite in_app_iff; simpl; auto).
    rewrite <- Hx, <- Hy, Hxy, Nat.eqb_refl. eauto.
Qed.

Lemma eval_err enum t x : eval enum t = Err x -> x = ValueError.
Proof.
  revert x; induction t as [e0|l IHl r IHr]; simpl; intros x H; [discriminate|].
  destruct (eval enum l) as [a|]; [|injection H as <-; now apply IHl].
  destruct (eval enum r) as [b|]; [|injection H as <-; now apply IHr].
  simpl in H. unfold elbo_add in H. destruct (Nat.eqb _ _); congruence.
Qed.

Lemma sum_content_obs l1 l2 e1 e2 : Permutation l1 l2 -> l1 <> [] ->
  sum_content l1 e1 -> sum_content l2 e2 -> obs_eq e1 e2.
Proof.
  intros P Hne (A1 & A2 & A3 & A4 & A5) (B1 & B2 & B3 & B4 & B5).
  split; [|split; [|split; [|split]]].
  - rewrite (oval_perm _ _ P) in A1. congruence.
  - intros k. rewrite A2, B2. now apply osum_perm.
  - intros k. rewrite A3, B3. split; intros (x & Hx & Hk); exists x; split; auto.
    + now apply (Permutation_in x P).
    + now apply (Permutation_in x (Permutation_sym P)).
  - rewrite A4, B4. clear -P. induction P; simpl; lia.
  - destruct l1 as [|x l1]; [congruence|]. rewrite Forall_forall in A5, B5.
    rewrite <- (A5 x) by now left. apply B5. apply (Permutation_in x P). now left.
Qed.

Lemma eval_perm enum1 enum2 t1 t2 : is_enum enum1 -> is_enum enum2 ->
  Permutation (leaves t1) (leaves t2) -> obs_res (eval enum1 t1) (eval enum2 t2).
Proof.
  intros E1 E2 P.
  assert (P' := Permutation_sym P).
  destruct (eval enum1 t1) as [a|x] eqn:H1; destruct (eval enum2 t2) as [b|y] eqn:H2; simpl.
  - apply (sum_content_obs (leaves t1) (leaves t2)); auto using leaves_nonempty.
    + exact (eval_ok_content enum1 t1 a E1 H1).
    + exact (eval_ok_content enum2 t2 b E2 H2).
  - assert (exists e, eval enum2 t2 = Ok e) as [e He]; [|congruence].
    apply eval_ok_iff; auto. intros u v Hu Hv.
    assert (exists e, eval enum1 t1 = Ok e) as He1 by eauto.
    rewrite eval_ok_iff in He1 by auto. apply He1; eapply Permutation_in; eauto.
  - assert (exists e, eval enum1 t1 = Ok e) as [e He]; [|congruence].
    apply eval_ok_iff; auto. intros u v Hu Hv.
    assert (exists e, eval enum2 t2 = Ok e) as He1 by eauto.
    rewrite eval_ok_iff in He1 by auto. apply He1; eapply Permutation_in; eauto.
  - apply eval_err in H1, H2. congruence.
Qed.

(** ** backward *)
Lemma backward_loop enum scale acc ps h k : NoDup ps ->
  is_enum enum ->
  fold_left (backward_one scale acc) (enum ps) h k =
  if in_dec Nat.eq_dec k ps then
    match dget_acc acc k with
    | Some s => store_stats (h k) (vscale scale s)
    | None => h k
    end
  else h k.
Proof.
  intros Hnd He.
  assert (Hnd' : NoDup (enum ps)) by (apply (Permutation_NoDup (Permutation_sym (He ps)) Hnd)).
  assert (Hin : In k (enum ps) <-> In k ps).
  { split; apply Permutation_in; [apply He|apply Permutation_sym, He]. }
  assert (G : forall l h0, NoDup l ->
    fold_left (backward_one scale acc) l h0 k =
    if in_dec Nat.eq_dec k l then
      match dget_acc acc k with
      | Some s => store_stats (h0 k) (vscale scale s)
      | None => h0 k
      end
    else h0 k).
  { clear. induction l as [|a l IH]; intros h0 Hn; simpl; [reflexivity|].
    inversion_clear Hn as [|? ? Ha Hn']. rewrite IH by auto.
    unfold backward_one at 1 2 3.
    destruct (Nat.eq_dec a k) as [->|E].
    - destruct (in_dec Nat.eq_dec k l); [contradiction|].
      unfold backward_one. destruct (dget_acc acc k); [|reflexivity].
      unfold hset. destruct (Nat.eq_dec k k); [reflexivity|congruence].
    - assert (Hs : backward_one scale acc h0 a k = h0 k).
      { unfold backward_one. destruct (dget_acc acc a); [|reflexivity].
        unfold hset. destruct (Nat.eq_dec k a); [congruence|reflexivity]. }
      unfold backward_one in Hs.
      destruct (in_dec Nat.eq_dec k l); rewrite ?Hs; reflexivity. }
  rewrite G by auto.
  destruct (in_dec Nat.eq_dec k (enum ps)), (in_dec Nat.eq_dec k ps); tauto.
Qed.

Lemma backward_spec enum std e h h' k : is_enum enum -> NoDup (e_params e) ->
  backward enum std e h = Ok h' ->
  h' k = if in_dec Nat.eq_dec k (e_params e) then
           match dget_acc (e_acc e) k with
           | Some s => set_stats (h k) (vscale (INR (e_ds e) / INR (e_mb e)) s)
           | None => h k
           end
         else h k.
Proof.
  intros He Hn H. unfold backward in H.
  assert (H' : (if Nat.eqb (e_mb e) 0 then Err ZeroDivisionError
      else Ok (fold_left (backward_one (INR (e_ds e) / INR (e_mb e)) (e_acc e))
                         (enum (e_params e)) h)) = Ok h').
  { destruct std, (e_value e); auto; discriminate. }
  destruct (Nat.eqb (e_mb e) 0); [discriminate|]. injection H' as <-.
  now rewrite backward_loop.
Qed.

Definition hres_eq (r1 r2 : result heap) : Prop :=
  match r1, r2 with
  | Ok a, Ok b => heap_eq a b
  | Err a, Err b => a = b
  | _, _ => False
  end.

Lemma backward_obs enum1 enum2 std e1 e2 h1 h2 : is_enum enum1 -> is_enum enum2 ->
  NoDup (e_params e1) -> NoDup (e_params e2) -> obs_eq e1 e2 -> heap_eq h1 h2 ->
  hres_eq (backward enum1 std e1 h1) (backward enum2 std e2 h2).
Proof.
  intros E1 E2 N1 N2 (O1 & O2 & O3 & O4 & O5) Hh.
  assert (B1 := fun h' k => backward_spec enum1 std e1 h1 h' k E1 N1).
  assert (B2 := fun h' k => backward_spec enum2 std e2 h2 h' k E2 N2).
  unfold backward in *. rewrite <- O1, <- O4 in *.
  destruct std, (e_value e1); simpl; auto; destruct (Nat.eqb (e_mb e1) 0); simpl; auto;
    intros k; rewrite (B1 _ k eq_refl), (B2 _ k eq_refl);
    rewrite O2, O5, Hh;
    destruct (in_dec Nat.eq_dec k (e_params e1)), (in_dec Nat.eq_dec k (e_params e2)); auto;
    exfalso; rewrite O3 in *; tauto.
Qed.

Lemma eval_NoDup enum t e : (forall x, In x (leaves t) -> NoDup (e_params x)) ->
  eval enum t = Ok e -> NoDup (e_params e).
Proof.
  revert e; induction t as [e0|l IHl r IHr]; simpl; intros e Hx H.
  - injection H as <-. apply Hx. now left.
  - destruct (eval enum l) as [a|]; [|discriminate].
    destruct (eval enum r) as [b|]; [|discriminate]. simpl in H.
    unfold elbo_add in H. destruct (Nat.eqb _ _); [|discriminate]. injection H as <-. simpl.
    apply set_union_NoDup; [apply IHl|apply IHr]; auto; intros; apply Hx, in_app_iff; auto.
Qed.

(** components of a sum *)
Lemma osum_sized k n es : Forall (sized k n) es ->
  match osum k es with
  | Some v => length v = n /\
      (forall i, (i < n)%nat -> nth i v 0 = sumf (comp i k) es) /\ Exists (has k) es
  | None => Forall (fun e => ~ has k e) es
  end.
Proof.
  induction 1 as [|e es He Hes IH]; simpl; [constructor|].
  destruct (dget_acc (e_acc e) k) as [x|] eqn:Ex; simpl.
  - assert (Hx : length x = n) by now apply He.
    destruct (osum k es) as [v|].
    + destruct IH as (L & N & Hex). split; [rewrite vadd_length; congruence|].
      split; [|left; exists x; exact Ex].
      intros i Hi. rewrite vadd_nth, sumf_cons, N by lia. unfold comp at 2. now rewrite Ex.
    + split; [auto|]. split; [|left; exists x; exact Ex].
      intros i Hi. rewrite sumf_cons. unfold comp at 1. rewrite Ex, sumf_zero; [lra|].
      intros y Hy. rewrite Forall_forall in IH. unfold comp.
      destruct (dget_acc (e_acc y) k) as [w|] eqn:Ew; [|reflexivity].
      exfalso. apply (IH y Hy). exists w. exact Ew.
  - destruct (osum k es) as [v|].
    + destruct IH as (L & N & Hex). split; [auto|]. split; [|now right].
      intros i Hi. rewrite sumf_cons, N by auto. unfold comp at 2. rewrite Ex. lra.
    + constructor; auto. intros [v Hv]. congruence.
Qed.

(** ** natural gradient *)
Lemma new_nparams_length l p :
  length (p_prior p) = length (p_post p) -> length (p_stats p) = length (p_post p) ->
  length (new_nparams l p) = length (p_post p).
Proof.
  intros H1 H2. unfold new_nparams.
  assert (E1 : length (vadd (p_prior p) (p_stats p)) = length (p_post p))
    by (rewrite vadd_length; congruence).
  assert (E2 : length (vsub (vadd (p_prior p) (p_stats p)) (p_post p)) = length (p_post p))
    by (rewrite vsub_length; congruence).
  apply vadd_length. now rewrite vscale_length.
Qed.

Lemma new_nparams_nth l p i :
  length (p_prior p) = length (p_post p) -> length (p_stats p) = length (p_post p) ->
  (i < length (p_post p))%nat ->
  nth i (new_nparams l p) 0 =
  (1 - l) * nth i (p_post p) 0 + l * (nth i (p_prior p) 0 + nth i (p_stats p) 0).
Proof.
  intros H1 H2 Hi. unfold new_nparams.
  assert (E1 : length (vadd (p_prior p) (p_stats p)) = length (p_post p))
    by (rewrite vadd_length; congruence).
  assert (E2 : length (vsub (vadd (p_prior p) (p_stats p)) (p_post p)) = length (p_post p))
    by (rewrite vsub_length; congruence).
  rewrite vadd_nth, vscale_nth, vsub_nth, vadd_nth by (rewrite ?vscale_length; lia). ring.
Qed.

Lemma ngu_iter_fields l n p :
  p_prior (iter n (ngu l) p) = p_prior p /\ p_stats (iter n (ngu l) p) = p_stats p /\
  p_cbs (iter n (ngu l) p) = p_cbs p.
Proof. induction n as [|n (A & B & C)]; simpl; auto. Qed.

Lemma ngu_iter l n p :
  length (p_prior p) = length (p_post p) -> length (p_stats p) = length (p_post p) ->
  length (p_post (iter n (ngu l) p)) = length (p_post p) /\
  forall i, (i < length (p_post p))%nat ->
    nth i (p_post (iter n (ngu l) p)) 0 - (nth i (p_prior p) 0 + nth i (p_stats p) 0) =
    (1 - l) ^ n * (nth i (p_post p) 0 - (nth i (p_prior p) 0 + nth i (p_stats p) 0)).
Proof.
  intros H1 H2. induction n as [|n [IH1 IH2]]; [split; [reflexivity|intros; simpl; ring]|].
  destruct (ngu_iter_fields l n p) as (F1 & F2 & _).
  set (q := iter n (ngu l) p) in *. cbn [iter]. fold q.
  split.
  - unfold ngu, set_post. cbn [p_post]. rewrite new_nparams_length; congruence.
  - intros i Hi. unfold ngu, set_post. cbn [p_post].
    rewrite new_nparams_nth by (rewrite ?F1, ?F2; congruence || lia).
    rewrite F1, F2. specialize (IH2 i Hi).
    replace ((1 - l) ^ S n) with ((1 - l) * (1 - l) ^ n) by reflexivity.
    rewrite Rmult_assoc, <- IH2. ring.
Qed.

(** ** observers *)
Lemma dispatch_trace eff ord before p ev :
  (forall c q, p_post (eff c q) = p_post q) ->
  (forall c q, p_cbs (eff c q) = p_cbs q) ->
  let r := dispatch eff ord before (p, ev) in
  snd r = ev ++ map (fun c => (fst c, p_post p))
                    (filter (fun c => Bool.eqb (snd c) before) (ord (p_cbs p))) /\
  p_post (fst r) = p_post p /\ p_cbs (fst r) = p_cbs p.
Proof.
  intros He Hc. unfold dispatch. cbn [fst].
  generalize (ord (p_cbs p)) at 1 2 3 4. intros l. simpl.
  revert p ev. induction l as [|c l IH]; intros p ev; simpl; [now rewrite app_nil_r|].
  unfold dispatch_one at 2 4 6. cbn [fst snd].
  destruct (Bool.eqb (snd c) before).
  - destruct (IH (eff (fst c) p) (ev ++ [(fst c, p_post p)])) as (A & B & C).
    rewrite A, B, C, He, Hc. split; [|auto]. simpl. now rewrite <- app_assoc.
  - apply IH.
Qed.

(** ** optimiser *)
Lemma upd_fold_log l g hl : snd (fold_left (upd_param l) g hl) = snd hl ++ g.
Proof.
  revert hl; induction g as [|k g IH]; intros hl; simpl; [now rewrite app_nil_r|].
  rewrite IH. simpl. now rewrite <- app_assoc.
Qed.

Lemma iter_succ_r {A} n (f : A -> A) x : iter n f (f x) = f (iter n f x).
Proof. induction n; simpl; congruence. Qed.

Lemma upd_fold_heap l g hl k :
  fst (fold_left (upd_param l) g hl) k =
  iter (count_occ Nat.eq_dec g k) (ngu l) (fst hl k).
Proof.
  revert hl; induction g as [|a g IH]; intros hl; simpl; [reflexivity|].
  rewrite IH. simpl. unfold hset.
  destruct (Nat.eq_dec k a) as [->|E].
  - destruct (Nat.eq_dec a a); [|congruence]. simpl. apply iter_succ_r.
  - destruct (Nat.eq_dec a k); [congruence|reflexivity].
Qed.

Definition cur_group (o : optim) : list nat :=
  nth (o_count o mod length (o_groups o)) (o_groups o) [].

Lemma nth_mod_nil (c : nat) : nth (c mod length (@nil (list nat))) [] ([] : list nat) = [].
Proof. destruct (c mod _); reflexivity. Qed.

Lemma step_log o h log :
  snd (step (o, h, log)) = log ++ cur_group o.
Proof.
  unfold step, cur_group. destruct (o_groups o) as [|g gs].
  - cbn [snd]. rewrite nth_mod_nil. now rewrite app_nil_r.
  - cbn [snd]. apply upd_fold_log.
Qed.

Lemma step_heap o h log k :
  snd (fst (step (o, h, log))) k =
  iter (count_occ Nat.eq_dec (cur_group o) k) (ngu (o_lrate o)) (h k).
Proof.
  unfold step, cur_group. destruct (o_groups o) as [|g gs].
  - cbn [fst snd]. rewrite nth_mod_nil. reflexivity.
  - cbn [fst snd]. apply (upd_fold_heap _ _ (h, log)).
Qed.

Lemma step_optim o h log :
  fst (fst (step (o, h, log))) =
  {| o_groups := o_groups o; o_lrate := o_lrate o; o_count := S (o_count o) |}.
Proof. unfold step. destruct (o_groups o); reflexivity. Qed.

Lemma run_log ops o h log :
  let s := run_ops ops (o, h, log) in
  snd s = log ++ concat (map (fun k => nth (k mod length (o_groups o)) (o_groups o) [])
                             (seq (o_count o) (nsteps ops))) /\
  o_groups (fst (fst s)) = o_groups o /\
  o_count (fst (fst s)) = (o_count o + nsteps ops)%nat.
Proof.
  revert o h log; induction ops as [|a ops IH]; intros o h log; cbv zeta.
  - change (nsteps []) with 0%nat. simpl. rewrite app_nil_r, Nat.add_0_r. auto.
  - unfold run_ops. cbn [fold_left]. fold (run_ops ops (do_op (o, h, log) a)).
    destruct a.
    + change (do_op (o, h, log) OStep) with (step (o, h, log)).
      pose proof (step_log o h log) as L. pose proof (step_optim o h log) as O.
      destruct (step (o, h, log)) as [[o' h'] log']. cbn [fst snd] in L, O. subst o' log'.
      destruct (IH {| o_groups := o_groups o; o_lrate := o_lrate o; o_count := S (o_count o) |}
                  h' (log ++ cur_group o)) as (A & B & C).
      cbn [o_groups o_count] in A, B, C. rewrite A, B, C.
      change (nsteps (OStep :: ops)) with (S (nsteps ops)).
      cbn [seq map concat]. rewrite <- app_assoc. split; [reflexivity|split; [reflexivity|lia]].
    + apply (IH o (init_step o h) log).
    + apply (IH o (hset h k (store_stats (h k) s)) log).
    + apply (IH {| o_groups := o_groups o; o_lrate := r; o_count := o_count o |} h log).
    + apply (IH (load_state_dict (new_optim (o_groups o) 1) (state_dict o)) h log).
Qed.

(** counting residues *)
Lemma count_mod (f : nat -> list nat) G k g :
  (g < G)%nat -> (forall i, (i < G)%nat -> count_occ Nat.eq_dec (f i) k = if Nat.eq_dec i g then 1 else 0)%nat ->
  forall n, count_occ Nat.eq_dec (concat (map (fun i => f (i mod G)) (seq 0 n))) k
            = ((n + G - 1 - g) / G)%nat.
Proof.
  intros Hg Hf n. induction n as [|n IH].
  - simpl. symmetry. apply Nat.div_small. lia.
  - rewrite seq_S, map_app, concat_app, count_occ_app, IH. simpl.
    rewrite app_nil_r, Hf by (apply Nat.mod_upper_bound; lia).
    assert (HG : G <> 0%nat) by lia.
    replace (n + G - 1 - g)%nat with (n + (G - 1 - g))%nat by lia.
    replace (n + G - 0 - g)%nat with (S (n + (G - 1 - g)))%nat by lia.
    pose proof (Nat.div_mod n G HG) as D. pose proof (Nat.mod_upper_bound n G HG) as M.
    set (q := (n / G)%nat) in *. set (r := (n mod G)%nat) in *.
    replace (n - 0)%nat with n by lia.
    destruct (Nat.eq_dec r g) as [E|E].
    + replace (n + (G - 1 - g))%nat with ((G - 1) + q * G)%nat by lia.
      replace (S (G - 1 + q * G))%nat with ((q + 1) * G)%nat by lia.
      rewrite (Nat.div_mul (q + 1) G), (Nat.div_add (G - 1) q G), (Nat.div_small (G - 1) G) by lia. lia.
    + destruct (le_lt_dec r g) as [L|L].
      * replace (n + (G - 1 - g))%nat with ((r + (G - 1 - g)) + q * G)%nat by lia.
        replace (S (r + (G - 1 - g) + q * G))%nat with (S (r + (G - 1 - g)) + q * G)%nat by lia.
        rewrite !Nat.div_add, !Nat.div_small by lia. lia.
      * replace (n + (G - 1 - g))%nat with ((r - 1 - g) + (q + 1) * G)%nat by lia.
        replace (S (r - 1 - g + (q + 1) * G))%nat with (r - g + (q + 1) * G)%nat by lia.
        rewrite !Nat.div_add, !Nat.div_small by lia. lia.
Qed.

Lemma init_step_spec o h k :
  init_step o h k = if in_dec Nat.eq_dec k (concat (o_groups o)) then zero_stats (h k) else h k.
Proof.
  assert (Z : forall p, zero_stats (zero_stats p) = zero_stats p).
  { intros p. unfold zero_stats, set_stats. simpl. now rewrite vzeros_length. }
  assert (G : forall g h0, fold_left (fun h2 k => hset h2 k (zero_stats (h2 k))) g h0 k =
    if in_dec Nat.eq_dec k g then zero_stats (h0 k) else h0 k).
  { induction g as [|a g IH]; intros h0; simpl; [reflexivity|]. rewrite IH. unfold hset.
    destruct (Nat.eq_dec k a) as [->|E].
    - destruct (Nat.eq_dec a a); [|congruence].
      destruct (in_dec Nat.eq_dec a g); [now rewrite Z|reflexivity].
    - destruct (Nat.eq_dec a k); [congruence|].
      destruct (in_dec Nat.eq_dec k g); reflexivity. }
  unfold init_step. generalize (o_groups o). intros gs. revert h.
  induction gs as [|g gs IH]; intros h; simpl; [reflexivity|].
  rewrite IH, G.
  destruct (in_dec Nat.eq_dec k (concat gs)) as [i|i], (in_dec Nat.eq_dec k g) as [j|j];
    destruct (in_dec Nat.eq_dec k (g ++ concat gs)) as [l|l]; rewrite ?Z; auto;
    rewrite in_app_iff in l; tauto.
Qed.
