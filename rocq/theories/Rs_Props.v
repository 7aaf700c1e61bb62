(** C195: a recipe that keeps the state of its optimizer, killed and started
    again, trains the same models. *)
From Coq Require Import Reals String List Arith Bool Lia Lra Permutation ZArith Ascii.
From Verif Require Import Fe_Model Jb_Model Jb_Props Ep_Model Ep_Spec Ep_Proofs Ep_Props Rs_Model Rs_Proofs.
From Verif Require Import Prelude Vec Edit_Model Edit_Proofs Dec_Model Dec_Proofs Opt_Model Opt_Spec Opt_Proofs Opt_Pipe.
From Verif Require Import Gibbs Lgamma FB_Model FB_Spec FB_Proofs Set_Model Set_Spec Set_Proofs
  HMM_Model HMM_Spec HMM_Proofs HMM_Props Dist_Model Dist_Spec Dist_Proofs Mat NW_Model NW_Spec
  SB_Model SB_Spec Sk_Model Sk_Spec Df_Model Pl_Model
  Vt_Model Vt_Spec Vt_Proofs Vt_Props Vl_Model Vl_Spec Vl_Proofs Vl_Props Mx_Model Mx_Spec Mx_Proofs Mx_Props Pw_Model Pw_Spec Pw_Proofs Pw_Props
  Dt_Model Dt_Spec Dt_Proofs Dt_Props Dl_Model Dl_Spec Dl_Proofs Dl_Props.
Import ListNotations.
Local Open Scope R_scope.

(** ** Any training whose rounds do not depend on how the utterances are shared
    and whose updates do not depend on the state of the optimizer *)
Theorem C195_resume : forall (M A T : Type) (acc : M -> list str -> option A)
    (upd : option T -> M -> list A -> option (M * T)) (ord : nat -> list A -> list A)
    (okT : T -> Prop) (Q : M -> Prop) (nxt : M -> option M) cut N E lines m0 (killed : list (run_opts * nat)) o,
  (forall a b, (a <= b)%nat -> (cut a <= cut b)%nat) -> (forall a, (cut a < N)%nat) ->
  (forall e l, Permutation (ord e l) l) ->
  (forall x m l, okT x -> option_map fst (upd (Some x) m l) = option_map fst (upd None m l)) ->
  (forall f m l m' x, match f with Some y => okT y | None => True end -> upd f m l = Some (m', x) -> okT x) ->
  (forall m parts, Q m -> Permutation (concat parts) lines ->
     exists l m' x, map (acc m) parts = map Some l /\ upd None m l = Some (m', x) /\ Q m' /\ nxt m = Some m') ->
  Q m0 -> Forall (fun ok => ok_opts cut N E (fst ok)) killed -> ok_opts cut N E o ->
  let s := sruns acc upd ord lines killed (sfresh m0) in
  exists (run : nat -> M) K d, run 0%nat = m0 /\ (forall e, Q (run e) /\ nxt (run e) = Some (run (S e))) /\
    (forall k, (K <= k)%nat ->
       exists f, ssteps acc upd ord o lines k (sstart o s, s) = (Base (PDone true), {| r_out := d; r_opt := f |})) /\
    final d = Some (run E) /\ (forall e, (e <= E)%nat -> getn (models d) e = Some (run e)) /\
    (forall e, (E < e)%nat -> getn (models d) e = None).
Proof.
  intros M A T acc upd ord okT Q nxt cut N E lines m0 killed o Hm Hc Ho H1 H2 H3 H0 HF Hopt s.
  assert (A1 : forall f m l, ok_file okT f -> option_map fst (upd f m l) = upd0 upd m l).
  { intros [x|] m l Hx; [exact (H1 x m l Hx)|reflexivity]. }
  assert (A2 : forall m parts, Q m -> Permutation (concat parts) lines ->
    exists l m', map (acc m) parts = map Some l /\ upd0 upd m l = Some m' /\ Q m' /\ nxt m = Some m').
  { intros m parts Hq Hp. destruct (H3 m parts Hq Hp) as (l & m' & x & E1 & E2 & E3 & E4). exists l, m'.
    unfold upd0. rewrite E2. auto. }
  exact (sresume acc upd ord okT A1 H2 cut N E lines m0 Hm Hc Ho Q nxt A2 H0 killed o HF Hopt).
Qed.

(** ** With one group of parameters the count of the steps does not matter *)
Lemma update_one_group enum ps g lrate c h l :
  match update_main enum ps [g] lrate (Some (lrate, c)) h l, update_main enum ps [g] lrate None h l with
  | Ok x, Ok y => fst x = fst y /\ fst (snd x) = lrate /\ fst (snd y) = lrate
  | Err _, Err _ => True
  | _, _ => False
  end.
Proof.
  unfold update_main. cbn [load_state_dict new_optim fst snd o_groups].
  destruct (foldM (update_loop enum) l None) as [[[e n]|]|]; cbn [bindr]; auto.
  change (init_step {| o_groups := [g]; o_lrate := lrate; o_count := c |} h) with (init_step (new_optim [g] lrate) h).
  destruct (Opt_Model.backward enum true _ _) as [h1|]; cbn [bindr]; auto.
  unfold step. cbn [new_optim o_groups o_count o_lrate length]. rewrite Nat.mod_1_r. cbn. auto.
Qed.

Lemma step_one_group g c : step_group [g] (Some c) = g.
Proof. destruct c as [r c]. unfold step_group. cbn [length]. now rewrite Nat.mod_1_r. Qed.

Lemma hmm_upd_same enum skel g lrate x st l : fst x = lrate ->
  option_map fst (hmm_upd enum skel [g] lrate (Some x) st l) = option_map fst (hmm_upd enum skel [g] lrate None st l).
Proof.
  destruct x as [r c]. cbn [fst]. intros ->. unfold hmm_upd. assert (H := update_one_group enum (params skel) g lrate c (heap_of st) l).
  destruct (update_main _ _ _ _ (Some _) _ _) as [[h1 s1]|]; destruct (update_main _ _ _ _ None _ _) as [[h2 s2]|]; try tauto; try reflexivity.
  cbn [fst snd] in H. destruct H as [-> _]. cbn [bindr fst snd]. destruct (reload _ _ _); reflexivity.
Qed.

Lemma hmm_upd_rate enum skel g lrate f st l st' x : match f with Some y => fst y = lrate | None => True end ->
  hmm_upd enum skel [g] lrate f st l = Some (st', x) -> fst x = lrate.
Proof.
  intros Hf. unfold hmm_upd. assert (H := fun c => update_one_group enum (params skel) g lrate c (heap_of st) l).
  destruct f as [[r c]|]; [cbn [fst] in Hf; subst r; specialize (H c)|specialize (H 0%nat)];
    destruct (update_main _ _ _ _ (Some _) _ _) as [[h1 s1]|]; destruct (update_main _ _ _ _ None _ _) as [[h2 s2]|]; try tauto;
    cbn [bindr to_option]; try discriminate; cbn [fst snd] in *; destruct (reload _ _ _); cbn [bindr to_option]; try discriminate;
    intros Eq; injection Eq as _ <-; tauto.
Qed.

Lemma mapM_option {A B : Type} (f : A -> result B) l v : mapM f l = Ok v -> map (fun a => to_option (f a)) l = map Some v.
Proof.
  revert v. induction l as [|a l IH]; intros v H; cbn [mapM] in H.
  - injection H as <-. reflexivity.
  - cbn [map]. destruct (f a) as [b|]; [|discriminate]. cbn [bindr to_option] in *. destruct (mapM f l) as [t|]; [|discriminate].
    cbn [bindr] in H. injection H as <-. cbn [map]. f_equal. now apply IH.
Qed.

Lemma pos_names names : NoDup names -> map (pos names) names = seq 0 (length names).
Proof.
  induction 1 as [|n t Hn Ht IH]; [reflexivity|]. cbn [map length seq]. f_equal.
  - cbn [pos]. now rewrite (proj2 (str_eq_spec n n) eq_refl).
  - rewrite <- seq_shift, <- IH, map_map. apply map_ext_in. intros u Hu. cbn [pos]. destruct (str_eq n u) eqn:E; [|reflexivity].
    apply str_eq_spec in E. subst u. tauto.
Qed.

Lemma pos_parts names lines parts n : NoDup names -> length names = n -> Permutation lines names -> Permutation (concat parts) lines ->
  Permutation (concat (map (map (pos names)) parts)) (seq 0 n).
Proof.
  intros Hn Hl Hp Hs. rewrite concat_map_map || rewrite <- concat_map. rewrite <- Hl, <- (pos_names names Hn).
  apply Permutation_map. now rewrite Hs.
Qed.

(** ** monophone.sh: an HMM *)
Theorem C195_hmm : forall enum amax ord k D scale ds skel g lrate utts names cut N E lines st killed o,
  is_enum enum -> 0 <= scale -> (0 < ds)%nat -> 0 <= lrate <= 1 -> NoDup (params skel) ->
  NoDup g -> incl g (params skel) -> typed k D st skel -> Forall (utt_ok k D skel) utts -> utts <> [] ->
  NoDup names -> length names = length utts -> Permutation lines names ->
  (forall a b, (a <= b)%nat -> (cut a <= cut b)%nat) -> (forall a, (cut a < N)%nat) -> (forall e l, Permutation (ord e l) l) ->
  Forall (fun ok => ok_opts cut N E (fst ok)) killed -> ok_opts cut N E o ->
  let acc := hmm_acc enum amax scale ds skel utts names in
  let upd := hmm_upd enum skel [g] lrate in
  let w := INR ds / INR (nframes utts) in
  let s := sruns acc upd ord lines killed (sfresh st) in
  exists (run : nat -> state) K d, run 0%nat = st /\
    (forall e, train_step amax scale w lrate g skel utts (run e) = Some (run (S e)) /\
       bound scale w skel utts (run e) <= bound scale w skel utts (run (S e))) /\
    (forall j, (K <= j)%nat ->
       exists f, ssteps acc upd ord o lines j (sstart o s, s) = (Base (PDone true), {| r_out := d; r_opt := f |})) /\
    final d = Some (run E) /\ (forall e, (e <= E)%nat -> getn (models d) e = Some (run e)).
Proof.
  intros enum amax ord k D scale ds skel g lrate utts names cut N E lines st killed o
    He Hs Hd Hr Hnd Hg Hgi T HU Hne Hn Hl Hp Hm Hc Ho HF Hopt acc upd w s.
  assert (HR : forall m parts, typed k D m skel -> Permutation (concat parts) lines ->
     exists l m' x, map (acc m) parts = map Some l /\ upd None m l = Some (m', x) /\ typed k D m' skel /\
       train_step amax scale w lrate g skel utts m = Some m' /\ bound scale w skel utts m <= bound scale w skel utts m').
  { intros m parts Hq Hs'. destruct (C174_round enum amax k D scale ds skel [g] lrate lrate 0%nat None utts (map (map (pos names)) parts) m)
      as (m' & E1 & E2 & E3 & E4); auto.
    - rewrite concat_cons_nil || (cbn; now rewrite app_nil_r).
    - now apply (pos_parts names lines).
    - unfold round in E1. unfold acc, hmm_acc, upd, hmm_upd. destruct (data_of _ _ _ _) as [data|]; [|discriminate]. cbn [bindr] in *.
      destruct (mapM _ _) as [accs|] eqn:Ea; [|discriminate]. cbn [bindr] in E1. apply mapM_option in Ea. rewrite map_map in Ea.
      destruct (update_main _ _ _ _ _ _ accs) as [hs|] eqn:Eu; [|discriminate]. cbn [bindr] in E1.
      destruct (reload _ _ _) as [st'|] eqn:Er; [|discriminate]. cbn [bindr] in E1. injection E1 as -> E1.
      exists accs, m', (snd hs). split; [exact Ea|]. rewrite Eu. cbn [bindr]. rewrite Er. cbn [bindr to_option].
      split; [reflexivity|]. split; [exact E3|]. split; [exact E2|exact E4]. }
  destruct (C195_resume state (elbo * nat) (R * nat) acc upd ord (fun x => fst x = lrate) (fun m => typed k D m skel)
    (train_step amax scale w lrate g skel utts) cut N E lines st killed o Hm Hc Ho) as (run & K & d & R0 & R1 & R2 & R3 & R4 & _); auto.
  - intros x m l Hx. now apply hmm_upd_same.
  - intros f m l m' x Hf. now apply hmm_upd_rate.
  - intros m parts Hq Hs'. destruct (HR m parts Hq Hs') as (l & m' & x & A1 & A2 & A3 & A4 & _). exists l, m', x. auto.
  - exists run, K, d. split; [exact R0|]. split; [|auto]. intros e. destruct (R1 e) as [Q1 Q2]. split; [exact Q2|].
    destruct (HR (run e) [lines] Q1) as (l & m' & x & _ & _ & _ & A4 & A5); [cbn; now rewrite app_nil_r|].
    rewrite Q2 in A4. injection A4 as <-. exact A5.
Qed.

(** ** aud.sh: a phone-loop *)
Lemma loop_one_group wid eg : (length eg <= 1)%nat -> exists g, loop_groups wid eg = [g].
Proof. destruct eg as [|g [|g' t]]; cbn; intros H; [eauto|eauto|lia]. Qed.

Lemma loop_upd_same enum sort l skel wid eg lrate x s a : (length eg <= 1)%nat -> fst x = lrate ->
  option_map fst (ploop_upd enum sort l skel wid eg lrate (Some x) s a) = option_map fst (ploop_upd enum sort l skel wid eg lrate None s a).
Proof.
  intros Heg. destruct (loop_one_group wid eg Heg) as (g & Eg). destruct x as [r c]. cbn [fst]. intros ->. unfold ploop_upd. rewrite Eg.
  assert (H := update_one_group enum (params skel ++ [wid]) g lrate c (loop_heap wid (length (pl_starts l)) (pw_pars s)) a).
  destruct (update_main _ _ _ _ (Some _) _ _) as [[h1 s1]|]; destruct (update_main _ _ _ _ None _ _) as [[h2 s2]|]; try tauto; try reflexivity.
  cbn [fst snd] in H. destruct H as (-> & H1 & H2). cbn [bindr fst snd]. destruct (reload _ _ _); [|reflexivity].
  cbn [bindr to_option option_map fst]. rewrite step_one_group, H1, H2. reflexivity.
Qed.

Lemma loop_upd_rate enum sort l skel wid eg lrate f s a s' x : (length eg <= 1)%nat -> match f with Some y => fst y = lrate | None => True end ->
  ploop_upd enum sort l skel wid eg lrate f s a = Some (s', x) -> fst x = lrate.
Proof.
  intros Heg Hf. destruct (loop_one_group wid eg Heg) as (g & Eg). unfold ploop_upd. rewrite Eg.
  assert (H := fun c => update_one_group enum (params skel ++ [wid]) g lrate c (loop_heap wid (length (pl_starts l)) (pw_pars s)) a).
  destruct f as [[r c]|]; [cbn [fst] in Hf; subst r; specialize (H c)|specialize (H 0%nat)];
    destruct (update_main _ _ _ _ (Some _) _ _) as [[h1 s1]|]; destruct (update_main _ _ _ _ None _ _) as [[h2 s2]|]; try tauto;
    cbn [bindr to_option]; try discriminate; cbn [fst snd] in *; destruct (reload _ _ _); cbn [bindr to_option]; try discriminate;
    intros Eq; injection Eq as _ <-; tauto.
Qed.

Theorem C195_loop : forall enum sort amax ord k D scale ds l skel wid eg lrate xs names cut N E lines s0 killed o,
  is_enum enum -> (forall counts, sorts_desc counts (sort counts)) -> 0 <= scale -> (0 < ds)%nat ->
  NoDup (params skel) -> loop_ok l -> ~ In wid (params skel) ->
  (length eg <= 1)%nat -> Forall (@NoDup nat) eg -> incl (concat eg) (params skel) ->
  pw_good k D l skel s0 -> Forall (pw_utt_ok k D l skel s0) xs -> xs <> [] -> rate_ok (pw_weights s0) lrate true ->
  NoDup names -> length names = length xs -> Permutation lines names ->
  (forall a b, (a <= b)%nat -> (cut a <= cut b)%nat) -> (forall a, (cut a < N)%nat) -> (forall e l, Permutation (ord e l) l) ->
  Forall (fun ok => ok_opts cut N E (fst ok)) killed -> ok_opts cut N E o ->
  let acc := ploop_acc enum amax scale ds l skel wid xs names in
  let upd := ploop_upd enum sort l skel wid eg lrate in
  let w := INR ds / INR (loop_frames xs) in
  let s := sruns acc upd ord lines killed (sfresh s0) in
  exists (run : nat -> pwst) K d, run 0%nat = s0 /\
    (forall e, pw_step sort amax scale w lrate true (concat eg) l skel xs (run e) = Some (run (S e)) /\
       (Forall (fun x => lu_ali x <> None) xs -> pw_bound scale w l skel xs (run e) <= pw_bound scale w l skel xs (run (S e))) /\
       (forall i0, one_initial (pl_graph l) i0 -> pw_drawn scale w l skel xs (run e) <= pw_drawn scale w l skel xs (run (S e)))) /\
    (forall j, (K <= j)%nat ->
       exists f, ssteps acc upd ord o lines j (sstart o s, s) = (Base (PDone true), {| r_out := d; r_opt := f |})) /\
    final d = Some (run E) /\ (forall e, (e <= E)%nat -> getn (models d) e = Some (run e)).
Proof.
  intros enum sort amax ord k D scale ds l skel wid eg lrate xs names cut N E lines s0 killed o
    He Hsort Hs Hd Hnd Hlo Hwid Heg Hgn Hgi G HU Hne Hr Hn Hl Hp Hm Hc Ho HF Hopt acc upd w s.
  set (Q := fun m => pw_good k D l skel m /\ Forall (pw_utt_ok k D l skel m) xs /\ rate_ok (pw_weights m) lrate true).
  set (nxt := pw_step sort amax scale w lrate true (concat eg) l skel xs).
  assert (HR : forall m parts, Q m -> Permutation (concat parts) lines ->
     exists a m' x, map (acc m) parts = map Some a /\ upd None m a = Some (m', x) /\ Q m' /\ nxt m = Some m').
  { intros m parts (Q1 & Q2 & Q3) Hs'.
    destruct (C176_round enum sort amax k D scale ds l skel wid eg lrate lrate 0%nat None xs (map (map (pos names)) parts) m)
      as (m' & E1 & E2 & E3 & E4); auto.
    - now apply (pos_parts names lines).
    - now apply rate_any.
    - assert (E2' : nxt m = Some m').
      { unfold nxt. rewrite <- E2. fold w. rewrite Nat.mod_0_l by lia. cbn [Nat.eqb].
        replace (concat eg) with (nth 0 eg []); [reflexivity|]. destruct eg as [|g [|g' t]]; cbn in *; [reflexivity|now rewrite app_nil_r|lia]. }
      assert (Q3' : rate_ok (pw_weights m') lrate true).
      { eapply rate_kind; [exact (pw_kind _ _ _ _ _ _ _ _ _ _ _ _ E2)|exact Q3]. }
      unfold loop_round in E1. unfold acc, ploop_acc, upd, ploop_upd. destruct (loop_data _ _ _ _ _ _ _ _) as [data|]; [|discriminate]. cbn [bindr] in *.
      destruct (mapM _ _) as [accs|] eqn:Ea; [|discriminate]. cbn [bindr] in E1. apply mapM_option in Ea. rewrite map_map in Ea.
      destruct (update_main _ _ _ _ _ _ accs) as [hs|] eqn:Eu; [|discriminate]. cbn [bindr] in E1.
      destruct (reload _ _ _) as [st'|] eqn:Er; [|discriminate]. cbn [bindr] in E1.
      exists accs, m', (snd hs). split; [exact Ea|]. rewrite Eu. cbn [bindr]. rewrite Er. cbn [bindr to_option].
      split; [injection E1 as E1 _; rewrite <- E1; reflexivity|]. split; [|exact E2']. unfold Q. auto. }
  destruct (C195_resume pwst (elbo * nat) (R * nat) acc upd ord (fun x => fst x = lrate) Q nxt cut N E lines s0 killed o Hm Hc Ho)
    as (run & K & d & R0 & R1 & R2 & R3 & R4 & _); auto.
  - intros x m a Hx. now apply loop_upd_same.
  - intros f m a m' x Hf. now apply loop_upd_rate.
  - unfold Q. auto.
  - exists run, K, d. split; [exact R0|]. split; [|auto]. intros e. destruct (R1 e) as [(Q1 & Q2 & Q3) Q4]. split; [exact Q4|].
    assert (Rs : Forall (fun x : R * bool * list nat => rate_ok (pw_weights (run e)) (fst (fst x)) (snd (fst x))) [(lrate, true, concat eg)]).
    { constructor; [exact Q3|constructor]. }
    assert (Hw : 0 <= w) by apply loop_weight_nonneg. split.
    + intros Ha. destruct (C171_unchanged_first_training sort amax k D scale w [(lrate, true, concat eg)] l skel xs (run e)) as (s3 & F & _ & _ & B); auto.
      cbn [pw_train] in F. unfold nxt in Q4. rewrite Q4 in F. injection F as <-. exact B.
    + intros i0 Hi. destruct (C171_one_first_phone_training sort amax k D scale w [(lrate, true, concat eg)] l skel xs (run e) i0) as (s3 & F & _ & _ & B); auto.
      cbn [pw_train] in F. unfold nxt in Q4. rewrite Q4 in F. injection F as <-. exact B.
Qed.

(** ** Two groups of parameters *)
(** A toy training: the model counts the updates of its two groups, the state
    counts the steps (optimizers.py:26-31). *)
Definition two_acc (m : nat * nat) (l : list str) : option (list str) := Some l.
Definition two_upd (f : option nat) (m : nat * nat) (l : list (list str)) : option (nat * nat * nat) :=
  let c := match f with Some c => c | None => 0%nat end in
  Some (if Nat.even c then (S (fst m), snd m) else (fst m, S (snd m)), S c).

(** Killed after the first model was written and before the state was: the
    second group is never trained. *)
Theorem C195_groups_refuted :
  let o := toy_opts 2 2 in
  let s := sruns two_acc two_upd (fun _ l => l) ex_utts [(o, 100%nat)] (sfresh (0, 0)%nat) in
  let s' := sruns two_acc two_upd (fun _ l => l) ex_utts [(o, 5%nat); (o, 100%nat)] (sfresh (0, 0)%nat) in
  (sstart o s, final (r_out s), r_opt s) = (Base (PDone true), Some (1, 1)%nat, Some 2%nat) /\
  (sstart o s', final (r_out s'), r_opt s') = (Base (PDone true), Some (2, 0)%nat, Some 1%nat).
Proof. split; vm_compute; reflexivity. Qed.

(** Killed anywhere else it ends well. *)
Example C195_ex_groups :
  let o := toy_opts 2 2 in
  forallb (fun k => let s := sruns two_acc two_upd (fun _ l => l) ex_utts [(o, k); (o, 100%nat)] (sfresh (0, 0)%nat) in
    match final (r_out s) with Some m => Nat.eqb (fst m) 1 && Nat.eqb (snd m) 1 | None => false end)
    [0; 1; 2; 3; 4; 6; 7; 8; 9; 10; 12; 13; 20]%nat = true.
Proof. vm_compute. reflexivity. Qed.

(** The data set of C174's example, twice the same utterance, two jobs, two
    epochs; the same kill. *)
Example C195_ex : forall enum amax, is_enum enum ->
  let names := map list_ascii_of_string ["b"; "a"]%string in
  let lines := map list_ascii_of_string ["a"; "b"]%string in
  let o := {| njobs := 2; cuts := gnu_cut 2 lines; sched := fun _ l => rev l; epochs := 2 |} in
  let acc := hmm_acc enum amax 1 6 ex_skel [ex_utt; ex_utt] names in
  let upd := hmm_upd enum ex_skel [[0; 1]]%nat 1 in
  let s := sruns acc upd (fun _ l => rev l) lines [(o, 5%nat); (o, 2%nat)] (sfresh ex_st) in
  exists st1 st2 d K,
    train_step amax 1 1 1 [0; 1]%nat ex_skel [ex_utt; ex_utt] ex_st = Some st1 /\
    train_step amax 1 1 1 [0; 1]%nat ex_skel [ex_utt; ex_utt] st1 = Some st2 /\
    (forall j, (K <= j)%nat -> exists f,
       ssteps acc upd (fun _ l => rev l) o lines j (sstart o s, s) = (Base (PDone true), {| r_out := d; r_opt := f |})) /\
    final d = Some st2 /\ getn (models d) 1 = Some st1 /\
    bound 1 1 ex_skel [ex_utt; ex_utt] ex_st <= bound 1 1 ex_skel [ex_utt; ex_utt] st1 <=
      bound 1 1 ex_skel [ex_utt; ex_utt] st2.
Proof.
  intros enum amax He names lines o acc upd s. destruct C163_ex as (Nd & T & U & _).
  assert (HU : Forall (utt_ok KDiag 1 ex_skel) [ex_utt; ex_utt]) by (constructor; [exact U|constructor; [exact U|constructor]]).
  assert (Ew : INR 6 / INR (nframes [ex_utt; ex_utt]) = 1) by (cbn; lra).
  assert (Ho : ok_opts (gnu_cut 2 lines) 2 2 o).
  { repeat split. intros e l. symmetry. apply Permutation_rev. }
  assert (H := C195_hmm enum amax (fun _ l => rev l) KDiag 1 1 6 ex_skel [0; 1]%nat 1 [ex_utt; ex_utt] names (gnu_cut 2 lines) 2 2 lines ex_st
    [(o, 5%nat); (o, 2%nat)] o He Rle_0_1 ltac:(lia) (conj Rle_0_1 (Rle_refl 1)) Nd Nd (incl_refl _) T HU ltac:(discriminate)).
  cbv zeta in H. rewrite Ew in H. destruct H as (run & K & d & R0 & R1 & R2 & R3 & R4); auto.
  - constructor; [intros [X|[]]; discriminate|]. constructor; [intros []|constructor].
  - apply perm_swap.
  - intros a b Hab. unfold gnu_cut. apply Nat.min_le_compat_r. apply Nat.div_le_mono; [lia|exact Hab].
  - intros a. unfold gnu_cut. eapply Nat.le_lt_trans; [apply Nat.le_min_r|]. lia.
  - intros e l. symmetry. apply Permutation_rev.
  - destruct (R1 0%nat) as [A1 B1]. destruct (R1 1%nat) as [A2 B2]. rewrite R0 in A1, B1.
    exists (run 1%nat), (run 2%nat), d, K. split; [exact A1|]. split; [exact A2|]. split; [exact R2|]. split; [exact R3|]. split; [apply R4; lia|].
    split; [exact B1|exact B2].
Qed.

Print Assumptions C195_resume.
Print Assumptions C195_hmm.
Print Assumptions C195_loop.
Print Assumptions C195_groups_refuted.
