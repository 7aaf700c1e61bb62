(** Proofs about the mean field factorisation. *)
From Coq Require Import List Arith Bool Lia Permutation.
From Verif Require Import Prelude MF_Model MF_Spec.
Import ListNotations.

Section Ind.
  Variable P : model -> Prop.
  Hypothesis Hp : forall ps, P (MParams ps).
  Hypothesis Hh : forall ps, P (MHidden ps).
  Hypothesis Hj : forall ms, Forall P ms -> P (MJoint ms).
  Hypothesis Hs : forall m, P m -> P (MPass m).
  Hypothesis Hm : forall m c, P m -> P c -> P (MMerge m c).
  Hypothesis Hc : forall ms, Forall P ms -> P (MConcat ms).
  Fixpoint model_ind' (m : model) : P m :=
    match m with
    | MParams ps => Hp ps
    | MHidden ps => Hh ps
    | MJoint ms => Hj ms ((fix go l : Forall P l :=
        match l with [] => Forall_nil _ | x :: t => Forall_cons _ (model_ind' x) (go t) end) ms)
    | MPass m' => Hs m' (model_ind' m')
    | MMerge m' c => Hm m' c (model_ind' m') (model_ind' c)
    | MConcat ms => Hc ms ((fix go l : Forall P l :=
        match l with [] => Forall_nil _ | x :: t => Forall_cons _ (model_ind' x) (go t) end) ms)
    end.
End Ind.

(** The two inner loops, named. *)
Fixpoint joint_go (acc : list nat) (l : list model) : result (list nat) :=
  match l with
  | [] => Ok acc
  | x :: t => bindr (mff x) (fun gs => bindr (joint_step acc gs) (fun acc' => joint_go acc' t))
  end.

Fixpoint concat_go (l : list model) : result (list (list nat)) :=
  match l with
  | [] => Ok []
  | x :: t => bindr (mff x) (fun gs => bindr (concat_go t) (fun r => Ok (gs ++ r)))
  end.

Lemma mff_joint ms : mff (MJoint ms) = bindr (joint_go [] ms) (fun g => Ok [g]).
Proof. reflexivity. Qed.

Lemma mff_concat ms : mff (MConcat ms) = concat_go ms.
Proof. reflexivity. Qed.

(** ** The padded zip *)
Lemma combine_app_nil (f : list nat * list nat -> list nat) : forall l1 l2 : list (list nat), length l1 = length l2 ->
  forall i, i < length l1 -> nth i (map f (combine l1 l2)) [] = f (nth i l1 [], nth i l2 []).
Proof.
  intros l1 l2 H i Hi. rewrite nth_indep with (d' := f ([], [])).
  - rewrite map_nth, combine_nth; auto.
  - rewrite map_length, combine_length. lia.
Qed.

Lemma pad_merge_length l1 l2 : length (pad_merge l1 l2) = Nat.max (length l1) (length l2).
Proof.
  unfold pad_merge. destruct (Nat.ltb_spec (length l2) (length l1));
    rewrite map_length, combine_length, app_length, repeat_length; lia.
Qed.

Lemma nth_app_repeat_nil (l : list (list nat)) k i : nth i (l ++ repeat [] k) [] = nth i l [].
Proof.
  destruct (Nat.lt_ge_cases i (length l)).
  - now rewrite app_nth1.
  - rewrite app_nth2, (nth_overflow l) by lia.
    destruct (Nat.lt_ge_cases (i - length l) k).
    + apply (repeat_spec k). apply nth_In. now rewrite repeat_length.
    + apply nth_overflow. rewrite repeat_length. lia.
Qed.

Lemma pad_merge_nth l1 l2 i : nth i (pad_merge l1 l2) [] = nth i l1 [] ++ nth i l2 [].
Proof.
  destruct (Nat.lt_ge_cases i (Nat.max (length l1) (length l2))) as [Hi|Hi].
  - unfold pad_merge. destruct (Nat.ltb_spec (length l2) (length l1)).
    + rewrite combine_app_nil.
      * cbn [fst snd]. now rewrite nth_app_repeat_nil.
      * rewrite app_length, repeat_length. lia.
      * lia.
    + rewrite combine_app_nil.
      * cbn [fst snd]. now rewrite nth_app_repeat_nil.
      * rewrite app_length, repeat_length. lia.
      * rewrite app_length, repeat_length. lia.
  - rewrite !nth_overflow by (rewrite ?pad_merge_length; lia). reflexivity.
Qed.

Lemma concat_repeat_nil k : concat (repeat (@nil nat) k) = [].
Proof. induction k; simpl; auto. Qed.

Lemma concat_zip : forall a b : list (list nat), length a = length b ->
  Permutation (concat (map (fun uv => fst uv ++ snd uv) (combine a b))) (concat a ++ concat b).
Proof.
  induction a as [|x a IH]; intros [|y b] H; try discriminate; [constructor|].
  cbn [combine map concat fst snd]. rewrite (IH b) by (simpl in H; lia).
  rewrite <- !app_assoc. apply Permutation_app_head.
  rewrite !app_assoc. apply Permutation_app_tail. apply Permutation_app_comm.
Qed.

Lemma pad_merge_perm l1 l2 : Permutation (concat (pad_merge l1 l2)) (concat l1 ++ concat l2).
Proof.
  unfold pad_merge. destruct (Nat.ltb_spec (length l2) (length l1)).
  - rewrite concat_zip by (rewrite app_length, repeat_length; lia).
    now rewrite concat_app, concat_repeat_nil, app_nil_r.
  - rewrite concat_zip by (rewrite app_length, repeat_length; lia).
    now rewrite concat_app, concat_repeat_nil, app_nil_r.
Qed.

(** ** All models *)
Definition good (m : model) (gs : list (list nat)) : Prop :=
  length gs = ngroups m /\
  Permutation (concat gs) (params m) /\
  forall p i, In p (nth i gs []) <-> located p i m.

Lemma nth_sing {A} (d g : A) i : nth i [g] d = if i =? 0 then g else d.
Proof. destruct i as [|[|i]]; reflexivity. Qed.

Lemma joint_ok : forall ms acc,
  Forall (fun m => valid m = true -> exists gs, mff m = Ok gs /\ good m gs) ms ->
  forallb (fun x => valid x && (ngroups x =? 1)) ms = true ->
  exists g, joint_go acc ms = Ok (acc ++ g) /\ Permutation g (flat_map params ms) /\
    forall p, In p g <-> exists x, In x ms /\ located p 0 x.
Proof.
  induction ms as [|x ms IH]; intros acc HF Hv.
  - exists []. rewrite app_nil_r. split; [reflexivity|]. split; [constructor|].
    intros p; split; [intros []|intros (x & [] & _)].
  - inversion HF as [|? ? Hx HF']; subst. cbn [forallb] in Hv.
    apply andb_prop in Hv as [Hv1 Hv]. apply andb_prop in Hv1 as [Hv1 Hn].
    apply Nat.eqb_eq in Hn. destruct (Hx Hv1) as (gs & Hg & Hl & Hp & Hloc).
    rewrite Hn in Hl. destruct gs as [|g [|]]; try discriminate.
    destruct (IH (acc ++ g) HF' Hv) as (g' & H1 & H2 & H3).
    exists (g ++ g'). cbn [joint_go]. rewrite Hg. cbn [bindr joint_step length Nat.ltb Nat.leb].
    rewrite H1, app_assoc. split; [reflexivity|]. split.
    + cbn [flat_map]. apply Permutation_app; [|exact H2].
      cbn [concat] in Hp. now rewrite app_nil_r in Hp.
    + intros p. rewrite in_app_iff, H3. specialize (Hloc p 0). cbn [nth] in Hloc.
      rewrite Hloc. split.
      * intros [H|(y & H & H')]; [exists x|exists y]; firstorder.
      * intros (y & [->|H] & H'); [now left|right; now exists y].
Qed.

Lemma joint_err : forall ms acc,
  Forall (fun m => valid m = true -> exists gs, mff m = Ok gs /\ good m gs) ms ->
  Forall (fun m => valid m = false -> mff m = Err ValueError \/ mff m = Err IndexError) ms ->
  forallb (fun x => valid x && (ngroups x =? 1)) ms = false ->
  joint_go acc ms = Err ValueError \/ joint_go acc ms = Err IndexError.
Proof.
  induction ms as [|x ms IH]; intros acc HF HE Hv; [discriminate|].
  inversion HF as [|? ? Hx HF']; subst. inversion HE as [|? ? He HE']; subst.
  cbn [forallb] in Hv. cbn [joint_go].
  destruct (valid x) eqn:Evx.
  - destruct (Hx eq_refl) as (gs & -> & Hl & _). cbn [bindr].
    destruct (Nat.eqb_spec (ngroups x) 1) as [E|E].
    + rewrite E in Hl. destruct gs as [|g [|]]; try discriminate.
      cbn [joint_step length Nat.ltb Nat.leb bindr]. apply IH; auto.
    + unfold joint_step. destruct (Nat.ltb_spec 1 (length gs)); [now left|].
      destruct gs; [now right|]. simpl in *. lia.
  - destruct (He eq_refl) as [-> | ->]; [left|right]; reflexivity.
Qed.

Lemma concat_ok : forall ms,
  Forall (fun m => valid m = true -> exists gs, mff m = Ok gs /\ good m gs) ms ->
  forallb valid ms = true ->
  exists gs, concat_go ms = Ok gs /\ length gs = list_sum (map ngroups ms) /\
    Permutation (concat gs) (flat_map params ms) /\
    forall p i, In p (nth i gs []) <->
      exists j pre x post, ms = pre ++ x :: post /\ i = list_sum (map ngroups pre) + j /\ located p j x.
Proof.
  induction ms as [|x ms IH]; intros HF Hv.
  - exists []. do 3 (split; [try reflexivity; constructor|]). intros p i. split.
    + destruct i; intros [].
    + intros (j & pre & x & post & H & _). destruct pre; discriminate.
  - inversion HF as [|? ? Hx HF']; subst. cbn [forallb] in Hv.
    apply andb_prop in Hv as [Hv1 Hv]. destruct (Hx Hv1) as (gs & Hg & Hl & Hp & Hloc).
    destruct (IH HF' Hv) as (r & H1 & H2 & H3 & H4).
    exists (gs ++ r). cbn [concat_go]. rewrite Hg. cbn [bindr]. rewrite H1. cbn [bindr].
    split; [reflexivity|]. split; [|split].
    + rewrite app_length. simpl. lia.
    + rewrite concat_app. cbn [flat_map]. now apply Permutation_app.
    + intros p i. split.
      * intros H. destruct (Nat.lt_ge_cases i (length gs)) as [Hi|Hi].
        -- rewrite app_nth1 in H by auto. apply Hloc in H.
           exists i, [], x, ms. auto.
        -- rewrite app_nth2 in H by lia. apply H4 in H as (j & pre & y & post & E1 & E2 & E3).
           exists j, (x :: pre), y, post. split; [now rewrite E1|]. split; [|exact E3].
           simpl. lia.
      * intros (j & pre & y & post & E1 & E2 & E3). destruct pre as [|z pre].
        -- injection E1 as <- <-. simpl in E2. subst j. apply Hloc in E3.
           destruct (Nat.lt_ge_cases i (length gs)); [now rewrite app_nth1|].
           rewrite nth_overflow in E3 by lia. destruct E3.
        -- injection E1 as <- E1. simpl in E2. rewrite app_nth2 by lia. apply H4.
           exists j, pre, y, post. split; [exact E1|]. split; [lia|exact E3].
Qed.

Lemma concat_err : forall ms,
  Forall (fun m => valid m = true -> exists gs, mff m = Ok gs /\ good m gs) ms ->
  Forall (fun m => valid m = false -> mff m = Err ValueError \/ mff m = Err IndexError) ms ->
  forallb valid ms = false ->
  concat_go ms = Err ValueError \/ concat_go ms = Err IndexError.
Proof.
  induction ms as [|x ms IH]; intros HF HE Hv; [discriminate|].
  inversion HF as [|? ? Hx HF']; subst. inversion HE as [|? ? He HE']; subst.
  cbn [forallb] in Hv. cbn [concat_go]. destruct (valid x) eqn:Evx.
  - destruct (Hx eq_refl) as (gs & -> & _). cbn [bindr].
    destruct (IH HF' HE' Hv) as [-> | ->]; [left|right]; reflexivity.
  - destruct (He eq_refl) as [-> | ->]; [left|right]; reflexivity.
Qed.

Lemma mff_all : forall m,
  (valid m = true -> exists gs, mff m = Ok gs /\ good m gs) /\
  (valid m = false -> mff m = Err ValueError \/ mff m = Err IndexError).
Proof.
  induction m as [ps|ps|ms IH|m IH|m c IHm IHc|ms IH] using model_ind'.
  - split; [|discriminate]. intros _. exists [ps]. split; [reflexivity|]. split; [reflexivity|].
    split; [cbn; now rewrite app_nil_r|]. intros p i. rewrite nth_sing.
    destruct (Nat.eqb_spec i 0).
    + subst. split; [now constructor|now inversion 1].
    + split; [intros []|]. inversion 1; subst; lia.
  - split; [|discriminate]. intros _. exists []. split; [reflexivity|]. split; [reflexivity|].
    split; [constructor|]. intros p i. split; [destruct i; intros []|inversion 1].
  - split; intros Hv; rewrite mff_joint.
    + destruct (joint_ok ms []) as (g & H1 & H2 & H3).
      * eapply Forall_impl; [|exact IH]. now intros a [H _].
      * exact Hv.
      * rewrite H1. exists [g]. split; [reflexivity|]. split; [reflexivity|].
        split; [cbn; now rewrite app_nil_r|]. intros p i. rewrite nth_sing.
        destruct (Nat.eqb_spec i 0).
        -- subst. rewrite H3. split.
           ++ intros (x & Hx & Hl). econstructor; eassumption.
           ++ inversion 1; subst. eauto.
        -- split; [intros []|]. inversion 1; subst; lia.
    + destruct (joint_err ms []) as [-> | ->]; auto.
      * eapply Forall_impl; [|exact IH]. now intros a [H _].
      * eapply Forall_impl; [|exact IH]. now intros a [_ H].
  - destruct IH as [IH1 IH2]. split; intros Hv; cbn [mff].
    + destruct (IH1 Hv) as (gs & H & H1 & H2 & H3). exists gs. split; [exact H|].
      split; [exact H1|]. split; [exact H2|]. intros p i. rewrite H3.
      split; [now constructor|now inversion 1].
    + exact (IH2 Hv).
  - destruct IHm as [IHm1 IHm2], IHc as [IHc1 IHc2].
    split; intros Hv; cbn [mff valid] in *.
    + apply andb_prop in Hv as [Hv1 Hv2].
      destruct (IHm1 Hv1) as (l1 & -> & A1 & A2 & A3).
      destruct (IHc1 Hv2) as (l2 & -> & B1 & B2 & B3).
      exists (pad_merge l1 l2). split; [reflexivity|]. split; [|split].
      * rewrite pad_merge_length. cbn [ngroups]. congruence.
      * rewrite pad_merge_perm. cbn [params]. now apply Permutation_app.
      * intros p i. rewrite pad_merge_nth, in_app_iff, A3, B3.
        split; [intros [H|H]; now constructor|]. inversion 1; subst; auto.
    + destruct (valid m).
      * destruct (IHm1 eq_refl) as (l1 & -> & _). cbn [bindr].
        destruct (IHc2 Hv) as [-> | ->]; auto.
      * destruct (IHm2 eq_refl) as [-> | ->]; auto.
  - split; intros Hv; rewrite mff_concat.
    + destruct (concat_ok ms) as (gs & H1 & H2 & H3 & H4).
      * eapply Forall_impl; [|exact IH]. now intros a [H _].
      * exact Hv.
      * exists gs. split; [exact H1|]. split; [exact H2|]. split; [exact H3|].
        intros p i. rewrite H4. split.
        -- intros (j & pre & x & post & -> & -> & Hl). now constructor.
        -- inversion 1; subst. do 4 eexists. split; [reflexivity|]. split; [reflexivity|]. assumption.
    + apply concat_err; auto.
      * eapply Forall_impl; [|exact IH]. now intros a [H _].
      * eapply Forall_impl; [|exact IH]. now intros a [_ H].
Qed.

(** ** bayesian_parameters *)
Lemma yield_filter typ filt g : yield_params typ filt g = filter (fun p => typ p && filt p) g.
Proof.
  unfold yield_params. induction g as [|p g IH]; [reflexivity|].
  cbn [flat_map filter]. rewrite IH. destruct (typ p), (filt p); reflexivity.
Qed.

Lemma fold_app_concat {A} (f : list A -> list A) : forall gs acc,
  fold_left (fun out g => out ++ f g) gs acc = acc ++ concat (map f gs).
Proof.
  induction gs as [|g gs IH]; intros acc; [now rewrite app_nil_r|].
  cbn [fold_left map concat]. rewrite IH. now rewrite app_assoc.
Qed.

Lemma concat_filter {A} (f : A -> bool) : forall gs, concat (map (filter f) gs) = filter f (concat gs).
Proof.
  induction gs as [|g gs IH]; [reflexivity|]. cbn [map concat]. rewrite IH.
  symmetry. apply filter_app.
Qed.

Lemma fold_groups typ filt : forall gs acc,
  fold_left (fun out g =>
        let group := yield_params typ filt g in
        if 0 <? length group then out ++ [group] else out) gs acc =
  acc ++ filter (fun g => negb (length g =? 0)) (map (filter (fun p => typ p && filt p)) gs).
Proof.
  induction gs as [|g gs IH]; intros acc; [now rewrite app_nil_r|].
  cbn [fold_left]. rewrite IH. cbn [map filter]. cbv zeta. rewrite yield_filter.
  destruct (filter (fun p => typ p && filt p) g); cbn [length Nat.ltb Nat.leb Nat.eqb negb];
    [reflexivity|]. now rewrite <- app_assoc.
Qed.

Lemma concat_nonempty : forall gs : list (list nat),
  concat (filter (fun g => negb (length g =? 0)) gs) = concat gs.
Proof.
  induction gs as [|[|x g] gs IH]; [reflexivity| |]; cbn [filter length Nat.eqb negb concat]; rewrite IH; reflexivity.
Qed.

Lemma Permutation_filter {A} (f : A -> bool) (l1 l2 : list A) :
  Permutation l1 l2 -> Permutation (filter f l1) (filter f l2).
Proof.
  induction 1; simpl.
  - constructor.
  - destruct (f x); [now constructor|assumption].
  - destruct (f x), (f y); try constructor; apply Permutation_refl.
  - now transitivity (filter f l').
Qed.

(** ** replace_parameters *)
Section NInd.
  Variable P : node -> Prop.
  Hypothesis Hp : forall u, P (NParam u).
  Hypothesis Hm : forall b cs, Forall (fun c => P (snd c)) cs -> P (NMod b cs).
  Fixpoint node_ind' (n : node) : P n :=
    match n with
    | NParam u => Hp u
    | NMod b cs => Hm b cs ((fix go l : Forall (fun c => P (snd c)) l :=
        match l with [] => Forall_nil _ | x :: t => Forall_cons _ (node_ind' (snd x)) (go t) end) cs)
    end.
End NInd.

Fixpoint rep_go (rm : nat -> option nat) (memo : list nat) (l : list (nat * node)) : list (nat * node) :=
  match l with
  | [] => []
  | (name, child) :: t =>
      match child with
      | NParam u =>
          if in_dec Nat.eq_dec u memo then (name, NParam u) :: rep_go rm memo t
          else (name, match rm u with Some v => NParam v | None => NParam u end)
               :: rep_go rm (u :: memo) t
      | NMod true _ => (name, replace_params rm child) :: rep_go rm memo t
      | NMod false _ => (name, child) :: rep_go rm memo t
      end
  end.

Lemma replace_mod rm b cs : replace_params rm (NMod b cs) = NMod b (rep_go rm [] cs).
Proof.
  cbn [replace_params]. f_equal. generalize (@nil nat) as memo.
  induction cs as [|[name [u|[] cs']] cs IH]; intros memo; [reflexivity| | |];
    cbn [rep_go]; rewrite <- ?IH; [|reflexivity|reflexivity].
  destruct (in_dec Nat.eq_dec u memo); f_equal; apply IH.
Qed.

Definition own (cs : list (nat * node)) : list nat :=
  flat_map (fun c => match snd c with NParam u => [u] | _ => [] end) cs.

Lemma plain_mod b cs : plain (NMod b cs) <->
  b = true /\ NoDup (own cs) /\ Forall (fun c => plain (snd c)) cs.
Proof.
  cbn [plain]. assert (E : (fix go (l : list (nat * node)) : Prop :=
         match l with [] => True | c :: t => plain (snd c) /\ go t end) cs <->
         Forall (fun c => plain (snd c)) cs).
  { induction cs as [|c cs IH]; [split; auto|]. rewrite IH. split.
    - intros [H1 H2]. now constructor.
    - inversion 1; auto. }
  unfold own. tauto.
Qed.

Lemma replace_plain rm : forall n, plain n -> (exists b cs, n = NMod b cs) ->
  node_params (replace_params rm n) = map (renamed rm) (node_params n).
Proof.
  induction n as [u|b cs IH] using node_ind'; [intros _ (b & cs & H); discriminate|].
  intros Hp _. apply plain_mod in Hp as (-> & Hn & Hc). rewrite replace_mod. cbn [node_params].
  assert (G : forall memo, (forall u, In u memo -> ~ In u (own cs)) ->
    flat_map (fun c => node_params (snd c)) (rep_go rm memo cs) =
    map (renamed rm) (flat_map (fun c => node_params (snd c)) cs)).
  { revert IH Hn Hc. induction cs as [|[name child] cs IHc]; intros IH Hn Hc memo Hm; [reflexivity|].
    inversion IH as [|? ? I1 I2]; subst. inversion Hc as [|? ? C1 C2]; subst. cbn [snd] in *.
    cbn [rep_go]. destruct child as [u|b cs'].
    - cbn [own flat_map snd app] in Hn, Hm. fold (own cs) in Hn, Hm.
      inversion Hn as [|? ? N1 N2]; subst.
      destruct (in_dec Nat.eq_dec u memo) as [Hi|Hi]; [destruct (Hm u Hi); now left|].
      cbn [flat_map snd]. rewrite map_app. f_equal.
      + cbn [node_params map]. unfold renamed. destruct (rm u); reflexivity.
      + apply IHc; auto. intros v [<-|Hv]; [exact N1|]. intros Hin. apply (Hm v Hv). now right.
    - assert (Hb : b = true) by (apply plain_mod in C1; tauto). subst b.
      cbn [flat_map snd]. rewrite map_app. f_equal.
      + apply I1; eauto.
      + apply IHc; auto. }
  apply G. intros u [].
Qed.

Lemma replace_shape rm : forall n, shape (replace_params rm n) = shape n.
Proof.
  induction n as [u|b cs IH] using node_ind'; [reflexivity|].
  rewrite replace_mod. cbn [shape]. f_equal. generalize (@nil nat) as memo.
  induction cs as [|[name child] cs IHc]; intros memo; [reflexivity|].
  inversion IH as [|? ? I1 I2]; subst. cbn [rep_go snd] in *.
  destruct child as [u|[] cs'].
  - destruct (in_dec Nat.eq_dec u memo); cbn [map fst snd]; rewrite IHc by auto; [reflexivity|].
    destruct (rm u); reflexivity.
  - cbn [map fst snd]. now rewrite IHc, I1.
  - cbn [map fst snd]. now rewrite IHc.
Qed.
