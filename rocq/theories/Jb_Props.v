(** C193: the jobs of a recipe share the lines of a list. *)
From Coq Require Import String List Arith Bool Ascii Lia Sorted Permutation.
From Verif Require Import Prelude Nn_Model Fe_Model Ar_Model Ar_Props Jb_Model.
Import ListNotations.
Local Open Scope nat_scope.

Lemma str_eq_spec a b : str_eq a b = true <-> a = b.
Proof.
  revert b. induction a as [|x a IH]; intros [|y b]; cbn; split; intros H; try discriminate; auto.
  - apply andb_true_iff in H. destruct H as [H1 H2]. apply Ascii.eqb_eq in H1. apply IH in H2. now subst.
  - injection H as -> ->. rewrite Ascii.eqb_refl. now apply IH.
Qed.

(** ** Files *)
Lemma put_in d n v m w : NoDup (map fst d) ->
  In (m, w) (put d n v) <-> (m = n /\ w = v) \/ (m <> n /\ In (m, w) d).
Proof.
  induction d as [|[a b] d IH]; intros Hn; cbn [put].
  - split; [intros [H|[]]; injection H as <- <-; now left|]. intros [[-> ->]|[_ []]]. now left.
  - inversion Hn as [|? ? N1 N2]; subst. cbn [fst] in N1. specialize (IH N2).
    destruct (str_eq a n) eqn:E.
    + apply str_eq_spec in E. subst a. split.
      * intros [H|H]; [injection H as <- <-; now left|]. right. split; [|now right].
        intros ->. apply N1. now apply (in_map fst) in H.
      * intros [[-> ->]|[H1 [H2|H2]]]; [now left| |now right]. injection H2 as -> ->. congruence.
    + assert (a <> n) by (intros ->; rewrite (proj2 (str_eq_spec n n) eq_refl) in E; discriminate). split.
      * intros [H1|H1]; [injection H1 as <- <-; right; split; [auto|now left]|].
        apply IH in H1. destruct H1 as [H1|[H1 H2]]; [now left|right; split; [auto|now right]].
      * intros [H1|[H1 [H2|H2]]]; [right; apply IH; now left|now left|right; apply IH; now right].
Qed.

Lemma put_names d n v : map fst (put d n v) = map fst d \/ (~ In n (map fst d) /\ map fst (put d n v) = map fst d ++ [n]).
Proof.
  induction d as [|[a b] d IH]; cbn [put].
  - right. split; [intros []|reflexivity].
  - destruct (str_eq a n) eqn:E; [left; reflexivity|]. cbn [map fst].
    assert (a <> n) by (intros ->; rewrite (proj2 (str_eq_spec n n) eq_refl) in E; discriminate).
    destruct IH as [IH|[IH1 IH2]]; [left; now rewrite IH|right]. split; [|rewrite IH2; reflexivity].
    intros [H1|H1]; [congruence|tauto].
Qed.

Lemma put_nodup d n v : NoDup (map fst d) -> NoDup (map fst (put d n v)).
Proof.
  intros H. destruct (put_names d n v) as [->|[H1 ->]]; [exact H|].
  apply (Permutation_NoDup (l := n :: map fst d)); [apply Permutation_cons_append|now constructor].
Qed.

Lemma filter_one {A B} (d : list (A * B)) (p : A -> bool) n v : NoDup (map fst d) -> In (n, v) d ->
  (forall m w, In (m, w) d -> p m = true <-> m = n) -> filter (fun f => p (fst f)) d = [(n, v)].
Proof.
  induction d as [|[a b] d IH]; intros Hn Hin Hp; [destruct Hin|]. inversion Hn as [|? ? N1 N2]; subst. cbn [fst] in N1.
  assert (Z : p a = true <-> a = n) by (apply (Hp a b); now left). cbn [filter fst].
  destruct Hin as [H|H].
  - injection H as -> ->. destruct (p n); [|exfalso; now assert (false = true) by now apply Z]. f_equal.
    clear IH Z Hn N2. assert (G : forall m w, In (m, w) d -> p m = false).
    { intros m w H. destruct (p m) eqn:E; [|reflexivity]. apply (Hp m w) in E; [|now right]. subst m.
      exfalso. apply N1. now apply (in_map fst) in H. }
    clear - G. induction d as [|[a b] d IH]; [reflexivity|]. cbn [filter fst]. rewrite (G a b) by (now left).
    apply IH. intros m w H. apply (G m w). now right.
  - destruct (p a) eqn:E.
    + exfalso. apply N1. rewrite (proj1 Z eq_refl). now apply (in_map fst) in H.
    + apply IH; auto. intros m w H1. apply (Hp m w). now right.
Qed.

(** ** Names *)
Lemma dec_value_app0 k s : dec_value (repeat "0"%char k ++ s) = dec_value s.
Proof. unfold dec_value. rewrite fold_left_app. f_equal. induction k as [|k IH]; [reflexivity|]. cbn. exact IH. Qed.

Lemma xname_inj N i j : xname N i = xname N j -> i = j.
Proof.
  unfold xname, pad. intros H. injection H as H. apply (f_equal dec_value) in H.
  now rewrite !dec_value_app0, !dec_value_dec in H.
Qed.

Lemma zeros_then_spec s t : zeros_then s t = true <-> exists k, s = repeat "0"%char k ++ t.
Proof.
  induction s as [|c s IH]; cbn [zeros_then].
  - rewrite orb_false_r, str_eq_spec. split; [intros <-; exists 0; reflexivity|].
    intros ([|k] & H); [exact H|discriminate].
  - rewrite orb_true_iff, str_eq_spec, andb_true_iff, Ascii.eqb_eq, IH. split.
    + intros [<-|[-> (k & ->)]]; [exists 0; reflexivity|exists (S k); reflexivity].
    + intros ([|k] & H); [left; exact H|right]. cbn in H. injection H as -> ->. split; [auto|now exists k].
Qed.

Lemma matches_spec id name : matches id name = true <-> exists k, name = "x"%char :: repeat "0"%char k ++ dec id.
Proof.
  unfold matches. destruct name as [|c s].
  - split; [discriminate|intros (k & H); discriminate].
  - rewrite andb_true_iff, Ascii.eqb_eq, zeros_then_spec. split.
    + intros [-> (k & ->)]. now exists k.
    + intros (k & H). injection H as -> ->. split; [auto|now exists k].
Qed.

Lemma matches_xname N id i : matches id (xname N i) = true <-> i = id.
Proof.
  rewrite matches_spec. split.
  - intros (k & H). unfold xname, pad in H. injection H as H. apply (f_equal dec_value) in H.
    now rewrite !dec_value_app0, !dec_value_dec in H.
  - intros ->. unfold xname, pad. now eexists.
Qed.

(** ** Chunks *)
Section Chunks.
  Context {A : Type} (key : A -> nat).
  Let le_key (x y : A) : Prop := key x <= key y.

  Lemma sorted_cut l a : StronglySorted le_key l -> Forall (fun x => a <= key x) l ->
    filter (fun x => key x =? a) l ++ filter (fun x => negb (key x =? a)) l = l.
  Proof.
    intros HS HF. induction HS as [|x l HS IH HX]; [reflexivity|]. inversion HF as [|? ? F1 F2]; subst.
    cbn [filter]. destruct (Nat.eqb_spec (key x) a) as [E|E]; cbn [negb app]; [now rewrite IH|].
    assert (Hgt : Forall (fun y => key y <> a) l).
    { eapply Forall_impl; [|exact HX]. unfold le_key. intros y Hy. lia. }
    clear - Hgt. assert (G1 : filter (fun y => key y =? a) l = []).
    { induction Hgt as [|y l Hy H IH]; [reflexivity|]. cbn [filter]. apply Nat.eqb_neq in Hy. now rewrite Hy. }
    assert (G2 : filter (fun y => negb (key y =? a)) l = l).
    { induction Hgt as [|y l Hy H IH]; [reflexivity|]. cbn [filter] in *. apply Nat.eqb_neq in Hy.
      rewrite Hy in *. cbn [negb]. f_equal. auto. }
    now rewrite G1, G2.
  Qed.

  Lemma sorted_filter p l : StronglySorted le_key l -> StronglySorted le_key (filter p l).
  Proof.
    intros H. induction H as [|x l HS IH HX]; [constructor|]. cbn [filter]. destruct (p x); [|exact IH].
    constructor; [exact IH|]. apply Forall_forall. intros y Hy. apply filter_In in Hy. rewrite Forall_forall in HX. now apply HX.
  Qed.

  Lemma chunks_concat n : forall a l, StronglySorted le_key l -> Forall (fun x => a <= key x < a + n) l ->
    concat (map (fun k => filter (fun x => key x =? k) l) (seq a n)) = l.
  Proof.
    induction n as [|n IH]; intros a l HS HF.
    - destruct l as [|x l]; [reflexivity|]. inversion HF; subst. lia.
    - cbn [seq map concat].
      transitivity (filter (fun x => key x =? a) l ++ filter (fun x => negb (key x =? a)) l);
        [|apply sorted_cut; [exact HS|]; eapply Forall_impl; [|exact HF]; cbn; intros; lia].
      f_equal. rewrite <- (IH (S a) (filter (fun x => negb (key x =? a)) l)).
      + f_equal. apply map_ext_in. intros k Hk. apply in_seq in Hk.
        clear - Hk. induction l as [|x l IHl]; [reflexivity|]. cbn [filter].
        destruct (Nat.eqb_spec (key x) k) as [E|E], (Nat.eqb_spec (key x) a) as [E'|E']; cbn [negb filter]; try lia; auto.
        * destruct (Nat.eqb_spec (key x) k); [now rewrite IHl|lia].
        * destruct (Nat.eqb_spec (key x) k); [lia|exact IHl].
      + now apply sorted_filter.
      + apply Forall_forall. intros x Hx. apply filter_In in Hx. destruct Hx as [Hx Hne]. rewrite Forall_forall in HF.
        specialize (HF x Hx). apply negb_true_iff, Nat.eqb_neq in Hne. lia.
  Qed.
End Chunks.

Lemma offsets_ge lines o : Forall (fun ol => o <= fst ol) (combine (offsets o lines) lines).
Proof.
  revert o. induction lines as [|l lines IH]; intros o; cbn [offsets combine]; constructor; [cbn; lia|].
  eapply Forall_impl; [|apply IH]. cbn. intros; lia.
Qed.

Lemma offsets_sorted cut lines o : (forall a b, a <= b -> cut a <= cut b) ->
  StronglySorted (fun x y : nat * str => cut (fst x) <= cut (fst y)) (combine (offsets o lines) lines).
Proof.
  intros Hc. revert o. induction lines as [|l lines IH]; intros o; cbn [offsets combine]; constructor; [apply IH|].
  eapply Forall_impl; [|apply offsets_ge]. cbn. intros x Hx. apply Hc. lia.
Qed.

Lemma combine_snd lines o : map snd (combine (offsets o lines) lines) = lines.
Proof. revert o. induction lines as [|l lines IH]; intros o; [reflexivity|]. cbn. now rewrite IH. Qed.

Lemma chunks_lines cut N lines : (forall a b, a <= b -> cut a <= cut b) -> (forall a, cut a < N) ->
  concat (map (chunk cut lines) (seq 0 N)) = lines.
Proof.
  intros Hm Hb. rewrite <- (combine_snd lines 0) at 2.
  rewrite <- (chunks_concat (fun ol : nat * str => cut (fst ol)) N 0 (combine (offsets 0 lines) lines)).
  - rewrite concat_map, map_map. reflexivity.
  - now apply offsets_sorted.
  - apply Forall_forall. intros x _. split; [lia|]. apply Hb.
Qed.

Lemma gnu_cut_ok N lines : 0 < N ->
  (forall a b, a <= b -> gnu_cut N lines a <= gnu_cut N lines b) /\ (forall a, gnu_cut N lines a < N).
Proof.
  intros HN. unfold gnu_cut. split; [|intros; lia]. intros a b H.
  apply Nat.min_le_compat_r. apply Nat.div_le_mono; lia.
Qed.

(** ** The split directory *)
Definition split_name (N : nat) (name : str) : Prop := exists i, 1 <= i <= N /\ name = xname N i.

Lemma splits_spec cut N lines d : NoDup (map fst d) -> forall j, j <= N ->
  let d' := fold_left (fun d i => put d (xname N i) (chunk cut lines (i - 1))) (seq 1 j) d in
  NoDup (map fst d') /\
  forall m w, In (m, w) d' <-> (exists i, 1 <= i <= j /\ m = xname N i /\ w = chunk cut lines (i - 1)) \/
    ((forall i, 1 <= i <= j -> m <> xname N i) /\ In (m, w) d).
Proof.
  intros Hn. induction j as [|j IH]; intros Hj; cbv zeta.
  - cbn [seq fold_left]. split; [exact Hn|]. intros m w. split.
    + intros H. right. split; [intros; lia|exact H].
    + intros [(i & Hi & _)|[_ H]]; [lia|exact H].
  - rewrite seq_S, fold_left_app. cbn [fold_left Nat.add]. destruct (IH ltac:(lia)) as [I1 I2].
    set (dj := fold_left _ _ _) in *. split; [now apply put_nodup|]. intros m w. rewrite put_in by exact I1. rewrite I2. split.
    + intros [[-> ->]|[H1 [(i & Hi & -> & ->)|[H2 H3]]]].
      * left. exists (S j). split; [lia|auto].
      * left. exists i. split; [lia|auto].
      * right. split; [|exact H3]. intros i Hi. destruct (Nat.eq_dec i (S j)) as [->|]; [exact H1|apply H2; lia].
    + intros [(i & Hi & -> & ->)|[H1 H2]].
      * destruct (Nat.eq_dec i (S j)) as [->|Hne]; [left; auto|right]. split; [intros E; apply xname_inj in E; lia|].
        left. exists i. split; [lia|auto].
      * right. split; [apply H1; lia|]. right. split; [intros i Hi; apply H1; lia|exact H2].
Qed.

Lemma split_sh_spec cut N lines d : NoDup (map fst d) -> Forall (fun f => split_name N (fst f)) d ->
  let d' := split_sh cut N lines d in
  NoDup (map fst d') /\ length d' = N /\
  forall m w, In (m, w) d' <-> exists i, 1 <= i <= N /\ m = xname N i /\ w = chunk cut lines (i - 1).
Proof.
  intros Hn HF. cbv zeta. unfold split_sh. set (nm := list_ascii_of_string "list").
  destruct (splits_spec cut N lines (put d nm lines) (put_nodup d nm lines Hn) N (Nat.le_refl N)) as [I1 I2].
  set (d2 := fold_left _ _ _) in *.
  assert (Hx : forall i, xname N i <> nm) by (intros i; discriminate).
  assert (HI : forall m w, In (m, w) (del d2 nm) <-> exists i, 1 <= i <= N /\ m = xname N i /\ w = chunk cut lines (i - 1)).
  { intros m w. unfold del. rewrite filter_In. cbn [fst]. rewrite I2, put_in by exact Hn. split.
    - intros [[H|[H1 [[-> _]|[H2 H3]]]] Hne]; [exact H| |].
      + rewrite (proj2 (str_eq_spec nm nm) eq_refl) in Hne. discriminate.
      + rewrite Forall_forall in HF. destruct (HF _ H3) as (i & Hi & E). cbn in E. now destruct (H1 i Hi).
    - intros (i & Hi & -> & ->). split; [left; exists i; auto|].
      destruct (str_eq (xname N i) nm) eqn:E; [|reflexivity]. apply str_eq_spec in E. now destruct (Hx i). }
  assert (HD : NoDup (map fst (del d2 nm))).
  { clear - I1. unfold del. induction d2 as [|[a b] d3 IH]; [constructor|]. inversion I1 as [|? ? N1 N2]; subst. cbn [filter fst].
    destruct (negb _); [|auto]. cbn [map fst]. constructor; [|auto]. intros H. apply N1. apply in_map_iff in H.
    destruct H as (x & E & Hx). apply filter_In in Hx. cbn. rewrite <- E. apply in_map. tauto. }
  split; [exact HD|]. split; [|exact HI].
  rewrite <- (map_length fst), <- (seq_length N 1), <- (map_length (xname N) (seq 1 N)). apply Permutation_length.
  apply NoDup_Permutation; [exact HD| |].
  - apply FinFun.Injective_map_NoDup; [intros i j; apply xname_inj|apply seq_NoDup].
  - intros m. rewrite !in_map_iff. split.
    + intros ((m' & w) & <- & Hin). apply HI in Hin. destruct Hin as (i & Hi & -> & _). exists i. split; [reflexivity|]. apply in_seq. lia.
    + intros (i & <- & Hi). apply in_seq in Hi. exists (xname N i, chunk cut lines (i - 1)). split; [reflexivity|].
      apply HI. exists i. split; [lia|auto].
Qed.

(** ** C193 *)
(** There are N tasks and, in order, they read all the lines of the list once
    each.  The directory is new, or was left by a run with as many jobs. *)
Theorem C193_share : forall cut N lines d,
  (forall a b, a <= b -> cut a <= cut b) -> (forall a, cut a < N) ->
  NoDup (map fst d) -> Forall (fun f => split_name N (fst f)) d ->
  let inputs := snd (submit cut N lines d) in
  length inputs = N /\ concat inputs = lines /\
  (forall i, i < N -> nth i inputs [] = chunk cut lines i).
Proof.
  intros cut N lines d Hm Hb Hn HF. cbv zeta. unfold submit. cbn [snd].
  destruct (split_sh_spec cut N lines d Hn HF) as (D1 & D2 & D3). cbv zeta in D1, D2, D3.
  set (d' := split_sh cut N lines d) in *.
  assert (E : map (task_input d') (tasks d') = map (chunk cut lines) (seq 0 N)).
  { unfold tasks. rewrite D2, <- seq_shift, map_map. apply map_ext_in. intros i Hi. apply in_seq in Hi.
    unfold task_input. rewrite (filter_one d' (matches (S i)) (xname N (S i)) (chunk cut lines i)); auto.
    - cbn. apply app_nil_r.
    - apply D3. exists (S i). split; [lia|]. split; [reflexivity|]. f_equal. lia.
    - intros m w Hin. apply D3 in Hin. destruct Hin as (j & Hj & -> & _). rewrite matches_xname.
      split; [now intros ->|]. intros H. now apply xname_inj in H. }
  rewrite E. split; [now rewrite map_length, seq_length|]. split; [now apply chunks_lines|].
  intros i Hi. rewrite (nth_indep _ [] (chunk cut lines 0)) by (now rewrite map_length, seq_length).
  rewrite map_nth, seq_nth by auto. reflexivity.
Qed.

(** The directory then is one of those allowed, for a run with as many jobs. *)
Theorem C193_again : forall cut N lines d,
  NoDup (map fst d) -> Forall (fun f => split_name N (fst f)) d ->
  let d' := fst (submit cut N lines d) in
  NoDup (map fst d') /\ Forall (fun f => split_name N (fst f)) d' /\ length d' = N.
Proof.
  intros cut N lines d Hn HF. cbv zeta. unfold submit. cbn [fst].
  destruct (split_sh_spec cut N lines d Hn HF) as (D1 & D2 & D3). split; [exact D1|]. split; [|exact D2].
  apply Forall_forall. intros [m w] Hin. apply D3 in Hin. destruct Hin as (i & Hi & -> & _). exists i. auto.
Qed.

(** The commands of two tasks are different as soon as JOBID is in the command:
    two tasks never write the same file. *)
Fixpoint nsed (fuel : nat) (pat s : str) : nat :=
  match fuel with
  | 0 => 0
  | S f => match after pat s with
           | Some r => S (nsed f pat r)
           | None => match s with [] => 0 | c :: t => nsed f pat t end
           end
  end.

Lemma after_spec p s r : after p s = Some r <-> s = p ++ r.
Proof.
  revert s. induction p as [|a p IH]; intros s; cbn.
  - split; congruence.
  - destruct s as [|b s]; [split; discriminate|]. destruct (Ascii.eqb_spec a b) as [->|E].
    + rewrite IH. split; [now intros ->|]. intros H. now injection H.
    + split; [discriminate|]. intros H. injection H as -> ->. congruence.
Qed.

Lemma sed_length fuel pat rep s :
  length (sed fuel pat rep s) + nsed fuel pat s * length pat = length s + nsed fuel pat s * length rep.
Proof.
  revert s. induction fuel as [|f IH]; intros s; [cbn; lia|]. cbn [sed nsed].
  destruct (after pat s) as [r|] eqn:E.
  - apply after_spec in E. subst s. rewrite !app_length. specialize (IH r). lia.
  - destruct s as [|c t]; [cbn; lia|]. cbn [length]. specialize (IH t). lia.
Qed.

Lemma app_same {A} (a b c d : list A) : length a = length b -> a ++ c = b ++ d -> a = b.
Proof.
  revert b. induction a as [|x a IH]; intros [|y b] HL H; try discriminate; [reflexivity|].
  cbn in H. injection H as -> H. f_equal. apply IH; auto.
Qed.

Lemma sed_inj fuel pat r1 r2 s : length r1 = length r2 -> 0 < nsed fuel pat s ->
  sed fuel pat r1 s = sed fuel pat r2 s -> r1 = r2.
Proof.
  intros HL. revert s. induction fuel as [|f IH]; intros s Hn H; [cbn in Hn; lia|]. cbn [sed nsed] in *.
  destruct (after pat s) as [r|]; [now apply app_same in H|].
  destruct s as [|c t]; [lia|]. injection H as H. eauto.
Qed.

Lemma nsed_pos pat b a fuel : pat <> [] -> length (a ++ pat ++ b) <= fuel -> 0 < nsed fuel pat (a ++ pat ++ b).
Proof.
  intros Hp. revert fuel. induction a as [|c a IH]; intros fuel Hf.
  - destruct fuel as [|f]; [destruct pat; [congruence|cbn in Hf; lia]|]. cbn [app nsed].
    rewrite (proj2 (after_spec pat (pat ++ b) b) eq_refl). lia.
  - destruct fuel as [|f]; [cbn in Hf; lia|]. cbn [app nsed]. destruct (after pat _); [lia|]. apply IH. cbn in Hf. lia.
Qed.

Theorem C193_commands : forall a b i j,
  let cmd := a ++ JOBID ++ b in job_cmd cmd i = job_cmd cmd j -> i = j.
Proof.
  intros a b i j. cbv zeta. unfold job_cmd. set (cmd := a ++ JOBID ++ b). intros H.
  assert (Hn : 0 < nsed (length cmd) JOBID cmd) by (apply nsed_pos; [discriminate|apply Nat.le_refl]).
  assert (L1 := sed_length (length cmd) JOBID (dec i) cmd). assert (L2 := sed_length (length cmd) JOBID (dec j) cmd).
  rewrite H in L1. assert (HL : length (dec i) = length (dec j)).
  { assert (X : nsed (length cmd) JOBID cmd * length (dec i) = nsed (length cmd) JOBID cmd * length (dec j)) by lia.
    apply Nat.mul_cancel_l in X; lia. }
  apply sed_inj in H; auto. rewrite <- (dec_value_dec i), <- (dec_value_dec j). now f_equal.
Qed.

(** With files left by a run with more jobs, or with numbers of another width,
    lines are read twice. *)
Definition ex_utts : list str := map list_ascii_of_string ["u01"; "u02"; "u03"; "u04"; "u05"; "u06"; "u07"; "u08"; "u09"; "u10"; "u11"; "u12"]%string.
Definition readers (l : str) (inputs : list (list str)) : nat :=
  length (filter (str_eq l) (concat inputs)).

Theorem C193_leftover_refuted :
  (forall u, In u ex_utts -> readers u (snd (submit (gnu_cut 4 ex_utts) 4 ex_utts [])) = 1) /\
  let d4 := fst (submit (gnu_cut 4 ex_utts) 4 ex_utts []) in
  map (fun u => readers u (snd (submit (gnu_cut 2 ex_utts) 2 ex_utts d4))) ex_utts = [1; 1; 1; 1; 1; 1; 2; 2; 2; 2; 2; 2] /\
  (forall u, In u ex_utts -> readers u (snd (submit (gnu_cut 10 ex_utts) 10 ex_utts d4)) = 2).
Proof.
  assert (G : forall f n, forallb (fun u => f u =? n) ex_utts = true -> forall u, In u ex_utts -> f u = n).
  { intros f n H u Hu. rewrite forallb_forall in H. now apply Nat.eqb_eq, H. }
  split; [|split].
  - apply (G (fun u => readers u (snd (submit (gnu_cut 4 ex_utts) 4 ex_utts [])))). vm_compute. reflexivity.
  - vm_compute. reflexivity.
  - apply (G (fun u => readers u (snd (submit (gnu_cut 10 ex_utts) 10 ex_utts (fst (submit (gnu_cut 4 ex_utts) 4 ex_utts [])))))). vm_compute. reflexivity.
Qed.

Example C193_ex : snd (submit (gnu_cut 4 ex_utts) 4 ex_utts []) = map (map list_ascii_of_string)
  [["u01"; "u02"; "u03"]; ["u04"; "u05"; "u06"]; ["u07"; "u08"; "u09"]; ["u10"; "u11"; "u12"]]%string /\
  job_cmd (list_ascii_of_string "beer hmm accumulate 0.mdl data epoch1/elbo_JOBID.pkl") 12 =
  list_ascii_of_string "beer hmm accumulate 0.mdl data epoch1/elbo_12.pkl" /\ map (xname 12) [3; 12] = map list_ascii_of_string ["x03"; "x12"]%string.
Proof. vm_compute. auto. Qed.

Print Assumptions C193_share.
Print Assumptions C193_again.
Print Assumptions C193_commands.
Print Assumptions C193_leftover_refuted.
