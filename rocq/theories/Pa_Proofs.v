(** Support of the compiled graphs. *)
From Coq Require Import Reals String List Arith Bool Lra Lia.
From Verif Require Import Prelude FB_Model FB_Spec Graph_Model Graph_Spec Graph_Proofs Graph_Eps Graph_Hist
  Graph_Lang HMM_Model Gb_Model Gb_Spec Gb_Lang Gb_Proofs Pa_Model Pa_Spec.
Import ListNotations.
Local Open Scope R_scope.

Ltac inv H := inversion H; clear H; subst.

(** ** Weights of the yields *)
Lemma explore_pos fwd g : all_positive g -> forall fuel stack visited l,
  (forall a w, In (a, w) stack -> In a (g_arcs g) /\ 0 < w) ->
  explore fuel fwd g stack visited = Some (Ok l) -> forall t w, In (t, w) l -> 0 < w.
Proof.
  intros P. induction fuel as [|fuel IH]; intros stack visited l Hs H t w Hin; [discriminate|].
  simpl in H. destruct stack as [|[a v] rest]; [inv H; destruct Hin|].
  destruct (Hs a v (or_introl eq_refl)) as [Ha Hv].
  assert (Hr : forall b w, In (b, w) rest -> In b (g_arcs g) /\ 0 < w) by (intros; apply Hs; now right).
  destruct (pdf_of g (dest fwd a)) as [[p|]|] eqn:Ep; [| |discriminate].
  - destruct (explore fuel fwd g rest visited) as [[l'|]|] eqn:E; inv H.
    destruct Hin as [Hin|Hin]; [inv Hin|eapply IH; eauto].
    apply Rmult_lt_0_compat; auto.
  - destruct (mem (dest fwd a) visited); [eapply IH; eauto|].
    eapply IH; [|exact H|exact Hin]. intros b u Hb. apply in_app_iff in Hb. destruct Hb as [Hb|Hb]; auto.
    rewrite <- in_rev, in_map_iff in Hb. destruct Hb as (c & E & Hc). inv E.
    apply arcs_of_in in Hc. destruct Hc as [Hc _]. split; auto. apply Rmult_lt_0_compat; auto.
Qed.

Lemma find_pos fwd g s w l : all_positive g -> 0 < w ->
  find_pdf_ids fwd g (Some s) w = Some (Ok l) -> forall t v, In (t, v) l -> 0 < v.
Proof.
  intros P Hw H. unfold find_pdf_ids in H. eapply explore_pos; [exact P| |exact H].
  intros a v Ha. rewrite <- in_rev, in_map_iff in Ha. destruct Ha as (b & E & Hb). inv E.
  apply arcs_of_in in Hb. tauto.
Qed.

(** ** Sums of positive contributions *)
Lemma sumf_pos_iff {A} (f : A -> R) l : (forall x, In x l -> 0 <= f x) ->
  (0 < sumf f l <-> exists x, In x l /\ 0 < f x).
Proof.
  induction l as [|a l IH]; intros H; rewrite ?sumf_nil, ?sumf_cons.
  - split; [lra|intros (x & [] & _)].
  - assert (Ha : 0 <= f a) by (apply H; now left).
    assert (Hl : forall x, In x l -> 0 <= f x) by (intros; apply H; now right).
    specialize (IH Hl). pose proof (sumf_nonneg f l Hl). split.
    + intros Hp. destruct (Rlt_dec 0 (f a)); [exists a; simpl; auto|].
      destruct IH as [IH _]. destruct IH as (x & Hx & Hf); [lra|]. exists x; simpl; auto.
    + intros (x & [<-|Hx] & Hf); [lra|]. destruct IH as [_ IH]. assert (0 < sumf f l) by eauto. lra.
Qed.

Lemma ind_pos g (l : list (nat * R)) k : (forall t v, In (t, v) l -> 0 < v) ->
  0 <= sumf (fun x => if at_idx g (fst x) k then snd x else 0) l /\
  (0 < sumf (fun x => if at_idx g (fst x) k then snd x else 0) l <->
   exists t, In t (map fst l) /\ state2pdf g t = Some k).
Proof.
  intros P.
  assert (Hn : forall x : nat * R, In x l -> 0 <= if at_idx g (fst x) k then snd x else 0).
  { intros [t v] Hx. apply P in Hx. simpl. destruct (at_idx g t k); lra. }
  split; [now apply sumf_nonneg|]. rewrite (sumf_pos_iff _ _ Hn). split.
  - intros ([t v] & Hx & Hp). simpl in Hp. exists t. split; [apply in_map_iff; exists (t, v); auto|].
    unfold at_idx in Hp. destruct (state2pdf g t) as [i|]; [|lra].
    destruct (Nat.eqb_spec k i); [now subst|lra].
  - intros (t & Ht & E). apply in_map_iff in Ht. destruct Ht as ([t' v] & E' & Hx). simpl in E'. subst t'.
    exists (t, v). split; auto. simpl. unfold at_idx. rewrite E, Nat.eqb_refl. eauto.
Qed.

(** ** Initial and final vectors *)
Lemma vec_support fwd g s v j : wf g -> all_positive g ->
  bindr (yields (find_pdf_ids fwd g (Some s) 1)) (acc_vec g) = Ok v ->
  0 <= v j /\ (0 < v j <-> exists t, state2pdf g t = Some j /\ next_emitting fwd g s t).
Proof.
  intros W P H. destruct (find_ok fwd g (Some s) 1 W) as (l & El & Hl). rewrite El in H. simpl in H.
  destruct (acc_vec_eq g l Hl) as (u & Hu & Hu'). assert (u = v) by congruence. subst u. rewrite Hu'.
  destruct (ind_pos g l j (find_pos fwd g s 1 l P Rlt_0_1 El)) as [H1 H2]. split; auto.
  rewrite H2. split; intros (t & H3 & H4); exists t.
  - split; auto. now apply (find_exact fwd g s 1 l W El).
  - split; auto. now apply (find_exact fwd g s 1 l W El).
Qed.

(** ** Transition matrix *)
Lemma eps_reach_trans fwd g a b c : eps_reach fwd g a b -> eps_reach fwd g b c -> eps_reach fwd g a c.
Proof. intros H1 H2. induction H2; auto. econstructor; eauto. Qed.

Lemma eps_reach_first fwd g a c : eps_reach fwd g a c ->
  a = c \/ exists b, step fwd g a b /\ non_emitting g b /\ eps_reach fwd g b c.
Proof.
  induction 1 as [|x y Hx IH Hs Hn]; [now left|]. right. destruct IH as [->|(b & H1 & H2 & H3)].
  - exists y. repeat split; auto. constructor.
  - exists b. repeat split; auto. econstructor; eauto.
Qed.

Lemma em_not_eps g s : wf g -> is_emitting g s -> ~ non_emitting g s.
Proof.
  intros W (p & Hp) Hn. apply (pdf_of_in g _ _ (wf_nodup g W)) in Hp.
  apply (pdf_of_in g _ _ (wf_nodup g W)) in Hn. congruence.
Qed.

Lemma state2pdf_is_em g s i : state2pdf g s = Some i -> is_emitting g s.
Proof.
  intros E. apply index_of_nth in E. destruct E as (p & E). apply nth_error_In in E.
  apply emitting_in. apply in_map_iff. exists (s, p). auto.
Qed.

Lemma follow_support g a : wf g -> all_positive g -> In a (g_arcs g) ->
  (forall t v, In (t, v) (follow g a) -> 0 < v) /\
  (forall t, In t (map fst (follow g a)) <->
     (is_emitting g (a_end a) /\ t = a_end a) \/
     (non_emitting g (a_end a) /\ next_emitting true g (a_end a) t)).
Proof.
  intros W P Ha. pose proof (wf_nodup g W) as Hnd. destruct (wf_arcs g W a Ha) as [_ He].
  apply in_states_iff in He. destruct He as (o & Ho). unfold follow, find_next_pdf_ids.
  pose proof Ho as Ho'. apply (pdf_of_in g _ _ Hnd) in Ho'. rewrite Ho'. destruct o as [p|].
  - assert (Hem : is_emitting g (a_end a)) by now exists p. split.
    + intros t v [E|[]]. inv E. auto.
    + intros t. simpl. split.
      * intros [<-|[]]. auto.
      * intros [[_ ->]|[Hn _]]; auto. now apply em_not_eps in Hem.
  - destruct (find_ok true g (Some (a_end a)) (a_weight a) W) as (l & El & Hl). rewrite El. split.
    + eapply find_pos; eauto.
    + intros t. rewrite (find_exact true g _ _ l W El). split; [tauto|].
      intros [[Hem _]|[_ H]]; auto. now apply em_not_eps in Hem.
Qed.

Lemma trans_support g m i j : wf g -> all_positive g -> raw_trans g = Ok m ->
  0 <= m i j /\
  (0 < m i j <-> exists s t, state2pdf g s = Some i /\ state2pdf g t = Some j /\ next_emitting true g s t).
Proof.
  intros W P H. destruct (raw_trans_eq g W) as (m' & Hm & Hk).
  assert (m' = m) by congruence. subst m'. rewrite Hk.
  set (F := fun a => if at_idx g (a_start a) i
      then sumf (fun x => if at_idx g (fst x) j then snd x else 0) (follow g a) else 0).
  assert (Hn : forall a, In a (g_arcs g) -> 0 <= F a).
  { intros a Ha. unfold F. destruct (at_idx g (a_start a) i); [|lra].
    apply ind_pos. now apply follow_support. }
  split; [now apply sumf_nonneg|]. rewrite (sumf_pos_iff F _ Hn). split.
  - intros (a & Ha & Hp). unfold F in Hp. unfold at_idx at 1 in Hp.
    destruct (state2pdf g (a_start a)) as [i'|] eqn:Ei; [|lra].
    destruct (Nat.eqb_spec i i'); [subst i'|lra].
    destruct (follow_support g a W P Ha) as [F1 F2].
    apply (ind_pos g _ j F1) in Hp. destruct Hp as (t & Ht & Et). exists (a_start a), t.
    repeat split; auto. assert (St : step true g (a_start a) (a_end a)) by (exists a; auto).
    apply F2 in Ht. destruct Ht as [[Hem ->]|[Hem (x & H1 & H2 & H3)]].
    + exists (a_start a). repeat split; auto. constructor.
    + exists x. repeat split; auto. apply eps_reach_trans with (2 := H1).
      econstructor; eauto. constructor.
  - intros (s & t & Es & Et & (x & H1 & H2 & H3)).
    assert (Hex : exists a, In a (g_arcs g) /\ a_start a = s /\ In t (map fst (follow g a))).
    { destruct (eps_reach_first _ _ _ _ H1) as [->|(b & S1 & S2 & S3)].
      - destruct H2 as (a & Ha & <- & <-). exists a. repeat split; auto.
        apply follow_support; auto.
      - destruct S1 as (a & Ha & <- & <-). exists a. repeat split; auto.
        apply follow_support; auto. right. split; auto. exists x. auto. }
    destruct Hex as (a & Ha & <- & Hin). exists a. split; auto. unfold F, at_idx at 1.
    rewrite Es, Nat.eqb_refl. apply ind_pos; [now apply follow_support|]. eauto.
Qed.

(** ** Normalisation *)
Lemma lnp_finite x : lnp x <> NInf <-> 0 < x.
Proof. unfold lnp. destruct (Rlt_dec 0 x); split; try congruence; try lra. Qed.

Lemma log_vec_support n v j : (j < n)%nat -> (forall i, 0 <= v i) ->
  (log_vec (norm_vec n v) j <> NInf <-> 0 < v j).
Proof.
  intros Hj Hv. unfold norm_vec.
  assert (Hin : In j (seq 0 n)) by (apply in_seq; lia).
  assert (Hs : 0 <= sumf v (seq 0 n)) by (apply sumf_nonneg; auto).
  destruct (Req_EM_T (sumf v (seq 0 n)) 0) as [E|E]; simpl.
  - split; [congruence|]. intros Hp. exfalso.
    assert (0 < sumf v (seq 0 n)); [|lra]. apply sumf_pos_iff; eauto.
  - rewrite lnp_finite. assert (Hs' : 0 < sumf v (seq 0 n)) by lra. split.
    + intros Hp. apply Rmult_lt_reg_r with (/ sumf v (seq 0 n)); [now apply Rinv_0_lt_compat|]. lra.
    + intros Hp. now apply Rdiv_lt_0_compat.
Qed.

Lemma norm_row_support n m i j : m i i < 1 ->
  (0 < norm_row n m i j <-> 0 < m i j).
Proof.
  intros H1. unfold norm_row. destruct (Rlt_dec 0 (m i i)) as [Hd|]; [|tauto].
  destruct (Rlt_dec 0 (sumf (m i) (seq 0 n) - m i i)) as [Ho|]; [|tauto].
  destruct (Nat.eqb_spec j i) as [->|_]; [tauto|].
  assert (Hq : 0 < (1 - m i i) / (sumf (m i) (seq 0 n) - m i i)) by (apply Rdiv_lt_0_compat; lra).
  split; intros Hp.
  - apply Rmult_lt_reg_r with (1 := Hq). lra.
  - now apply Rmult_lt_0_compat.
Qed.

(** Without the hypothesis on the diagonal, nothing is added. *)
Lemma norm_row_sound n m i j : (forall k, 0 <= m i k) -> 0 < norm_row n m i j -> 0 < m i j.
Proof.
  intros Hn. unfold norm_row. destruct (Rlt_dec 0 (m i i)) as [Hd|]; [|tauto].
  destruct (Rlt_dec 0 (sumf (m i) (seq 0 n) - m i i)) as [Ho|]; [|tauto].
  destruct (Nat.eqb_spec j i) as [->|_]; [tauto|]. intros Hp.
  destruct (Rlt_dec 0 (m i j)); auto. specialize (Hn j). assert (E : m i j = 0) by lra.
  rewrite E, Rmult_0_l in Hp. lra.
Qed.

(** ** Walks and the emitting states they visit *)
Inductive runs (g : graph) (e : nat) : nat -> list nat -> Prop :=
| run_end a : eps_reach true g a e -> runs g e a []
| run_step a t p ls : next_emitting true g a t -> In (t, Some p) (g_states g) ->
    runs g e t ls -> runs g e a (p :: ls).

Lemma next_cons g a c t : In c (states g) -> step true g a c -> non_emitting g c ->
  next_emitting true g c t -> next_emitting true g a t.
Proof.
  intros _ Hs Hn (x & H1 & H2 & H3). exists x. repeat split; auto.
  apply eps_reach_trans with (2 := H1). econstructor; eauto. constructor.
Qed.

Lemma walk_runs g a ls w e : walk g a ls w e -> runs g e a ls.
Proof.
  induction 1 as [a|a c o ls w v b Ha Hc Hw IH]; [constructor; constructor|].
  assert (St : step true g a c) by (exists (Arc a c v); auto).
  assert (Hcs : In c (states g)) by (apply in_states_iff; eauto).
  destruct o as [p|]; simpl.
  - econstructor; [|exact Hc|exact IH]. exists a. repeat split; auto; [constructor|]. now exists p.
  - inv IH.
    + constructor. eapply eps_reach_trans; [|eassumption]. econstructor; eauto. constructor.
    + econstructor; eauto using next_cons.
Qed.

Lemma step_walk g x y o : step true g x y -> In (y, o) (g_states g) ->
  exists w, walk g x (label o) w y.
Proof.
  intros (a & Ha & <- & <-) Hy. destruct a as [s e w]. simpl in *. exists (w * 1).
  replace (label o) with (label o ++ []) by apply app_nil_r.
  econstructor; eauto. constructor.
Qed.

Lemma eps_walk g a b : eps_reach true g a b -> exists w, walk g a [] w b.
Proof.
  induction 1 as [|x y Hx [w IH] Hs Hn]; [exists 1; constructor|].
  destruct (step_walk g x y None Hs Hn) as (w' & H'). exists (w * w').
  exact (walk_app _ _ _ _ _ IH _ _ _ H').
Qed.

Lemma runs_walk g a ls e : NoDup (states g) -> runs g e a ls -> exists w, walk g a ls w e.
Proof.
  intros Hnd. induction 1 as [a Ha|a t p ls (x & H1 & H2 & H3) Hp Hr [w IH]]; [now apply eps_walk|].
  destruct (eps_walk _ _ _ H1) as (w1 & W1).
  destruct (step_walk g x t (Some p) H2 Hp) as (w2 & W2).
  pose proof (walk_app _ _ _ _ _ W1 _ _ _ W2) as W3. simpl in W3.
  exists (w1 * w2 * w). exact (walk_app _ _ _ _ _ W3 _ _ _ IH).
Qed.

Lemma accepts_runs g s e ls : wf g -> g_start g = Some s -> g_end g = Some e ->
  non_emitting g s -> (accepts g ls <-> runs g e s ls).
Proof.
  intros W Es Ee Hs. pose proof (wf_nodup g W) as Hnd. unfold accepts, generates. split.
  - intros (w & s' & e' & o & ls' & E1 & E2 & Ho & Hw & ->). rewrite Es in E1. rewrite Ee in E2.
    inv E1. inv E2. apply (pdf_of_in g _ _ Hnd) in Ho. apply (pdf_of_in g _ _ Hnd) in Hs.
    assert (o = None) by congruence. subst o. simpl. eapply walk_runs; eauto.
  - intros H. apply (runs_walk g s ls e Hnd) in H. destruct H as (w & H).
    exists w, s, e, None, ls. auto.
Qed.

(** ** Directions *)
Lemma step_flip g x y : step true g x y <-> step false g y x.
Proof. unfold step. split; intros (a & Ha & H1 & H2); exists a; auto. Qed.

Lemma eps_back g e x : non_emitting g e -> eps_reach false g e x ->
  non_emitting g x /\ eps_reach true g x e.
Proof.
  intros He. induction 1 as [|x y Hx [IH1 IH2] Hs Hn]; [split; auto; constructor|].
  split; auto. apply step_flip in Hs. eapply eps_reach_trans; [|exact IH2].
  econstructor; eauto. constructor.
Qed.

Lemma eps_fwd g x e : eps_reach true g x e -> non_emitting g x -> eps_reach false g e x.
Proof.
  intros H Hx. induction H as [|y z Hy IH Hs Hn]; [constructor|].
  apply step_flip in Hs.
  assert (Hy' : non_emitting g y). { destruct Hy; auto. }
  eapply eps_reach_trans; [|exact IH]. econstructor; eauto. constructor.
Qed.

Lemma final_iff g e t : wf g -> non_emitting g e -> is_emitting g t ->
  (next_emitting false g e t <-> eps_reach true g t e).
Proof.
  intros W He Ht. split.
  - intros (x & H1 & H2 & _). apply step_flip in H2. destruct (eps_back g e x He H1) as [Hx Hr].
    eapply eps_reach_trans; [|exact Hr]. econstructor; eauto. constructor.
  - intros H. destruct (eps_reach_first _ _ _ _ H) as [->|(b & H1 & H2 & H3)].
    + now apply em_not_eps in Ht.
    + exists b. apply step_flip in H1. repeat split; auto. now apply eps_fwd.
Qed.

(** ** Paths of the compiled graph *)
Lemma in_paths n : forall len p, In p (paths n len) <-> length p = len /\ Forall (fun i => (i < n)%nat) p.
Proof.
  induction len as [|len IH]; intros p; simpl.
  - split; [intros [<-|[]]; auto|]. intros [H _]. destruct p; [auto|discriminate].
  - rewrite in_flat_map. split.
    + intros (i & Hi & Hp). apply in_map_iff in Hp. destruct Hp as (q & <- & Hq). apply IH in Hq.
      apply in_seq in Hi. destruct Hq as [E F]. simpl. split; [lia|]. constructor; auto. lia.
    + intros [E F]. destruct p as [|i q]; [discriminate|]. inv F. exists i. split; [apply in_seq; lia|].
      apply in_map. apply IH. split; auto.
Qed.

Lemma ladd_fin a b : ladd a b <> NInf <-> a <> NInf /\ b <> NInf.
Proof. destruct a, b; simpl; split; try tauto; try (intros [? ?]; congruence); intros; split; congruence. Qed.

Lemma state2pdf_pdf g t i : state2pdf g t = Some i ->
  exists p, In (t, Some p) (g_states g) /\ nth i (pdf_id_mapping g) 0%nat = p /\ (i < length (emitting g))%nat.
Proof.
  intros E. apply index_of_nth in E. destruct E as (p & E). exists p.
  assert (Hin : In (t, p) (emitting g)) by (eapply nth_error_In; eauto). split; [|split].
  - unfold emitting in Hin. apply in_flat_map in Hin. destruct Hin as ([s o] & Hs & Hi).
    destruct o as [q|]; simpl in Hi; [|destruct Hi]. destruct Hi as [Hi|[]]. inv Hi. exact Hs.
  - unfold pdf_id_mapping. apply (map_nth_error snd) in E. apply nth_error_nth with (d := 0%nat) in E. exact E.
  - apply nth_error_Some. congruence.
Qed.

Section Support.
  Variables (g : graph) (c : compiled) (s e : nat).
  Hypothesis W : wf g.
  Hypothesis P : all_positive g.
  Hypothesis Es : g_start g = Some s.
  Hypothesis Ee : g_end g = Some e.
  Hypothesis Ns : non_emitting g s.
  Hypothesis Ne : non_emitting g e.
  Hypothesis Ec : compile g = Ok c.

  Let n := length (emitting g).
  Let lab (i : nat) : nat := nth i (c_map c) 0%nat.

  Lemma compiled_parts : exists vi vf m,
    bindr (yields (find_pdf_ids true g (Some s) 1)) (acc_vec g) = Ok vi /\
    bindr (yields (find_pdf_ids false g (Some e) 1)) (acc_vec g) = Ok vf /\
    raw_trans g = Ok m /\
    c = Compiled n (norm_vec n vi) (norm_vec n vf) (norm_rows n m) (pdf_id_mapping g).
  Proof.
    pose proof Ec as H. unfold compile, raw_init, raw_final, find_next_pdf_ids, find_previous_pdf_ids in H.
    rewrite Es, Ee in H.
    destruct (bindr (yields (find_pdf_ids true g (Some s) 1)) (acc_vec g)) as [vi|] eqn:E1; [|discriminate].
    cbn [bindr] in H.
    destruct (bindr (yields (find_pdf_ids false g (Some e) 1)) (acc_vec g)) as [vf|] eqn:E2; [|discriminate].
    cbn [bindr] in H. destruct (raw_trans g) as [m|] eqn:E3; [|discriminate]. cbn [bindr] in H.
    inv H. exists vi, vf, m. auto.
  Qed.

  Lemma init_iff t j : state2pdf g t = Some j ->
    (cg_init (to_cgraph c) j <> NInf <-> next_emitting true g s t).
  Proof.
    intros Et. destruct compiled_parts as (vi & vf & m & H1 & H2 & H3 & ->). simpl.
    destruct (state2pdf_pdf g t j Et) as (_ & _ & _ & Hj).
    rewrite log_vec_support; [|exact Hj|intros i; apply (vec_support true g s vi i W P H1)].
    rewrite (proj2 (vec_support true g s vi j W P H1)). split.
    - intros (t' & E' & H). now rewrite (state2pdf_inj g t t' j Et E').
    - intros H. eauto.
  Qed.

  Lemma fin_iff t j : state2pdf g t = Some j ->
    (cg_final (to_cgraph c) j <> NInf <-> eps_reach true g t e).
  Proof.
    intros Et. destruct compiled_parts as (vi & vf & m & H1 & H2 & H3 & ->). simpl.
    destruct (state2pdf_pdf g t j Et) as (_ & _ & _ & Hj).
    rewrite log_vec_support; [|exact Hj|intros i; apply (vec_support false g e vf i W P H2)].
    rewrite (proj2 (vec_support false g e vf j W P H2)).
    rewrite <- (final_iff g e t W Ne (state2pdf_is_em g t j Et)). split.
    - intros (t' & E' & H). now rewrite (state2pdf_inj g t t' j Et E').
    - intros H. eauto.
  Qed.

  Lemma next_iff m t i t' j : raw_trans g = Ok m -> state2pdf g t = Some i -> state2pdf g t' = Some j ->
    (0 < m i j <-> next_emitting true g t t').
  Proof.
    intros Hm Et Et'. rewrite (proj2 (trans_support g m i j W P Hm)). split.
    - intros (x & y & E1 & E2 & H).
      now rewrite (state2pdf_inj g t x i Et E1), (state2pdf_inj g t' y j Et' E2).
    - intros H. eauto.
  Qed.

  Lemma trans_sound t i t' j : state2pdf g t = Some i -> state2pdf g t' = Some j ->
    cg_trans (to_cgraph c) i j <> NInf -> next_emitting true g t t'.
  Proof.
    intros Et Et'. destruct compiled_parts as (vi & vf & m & H1 & H2 & H3 & ->). simpl.
    rewrite lnp_finite. unfold norm_rows. intros H. apply norm_row_sound in H.
    - now apply (next_iff m t i t' j).
    - intros k. now apply (trans_support g m i k W P).
  Qed.

  Lemma trans_iff t i t' j : Graph_Model.c_trans c i i < 1 -> state2pdf g t = Some i -> state2pdf g t' = Some j ->
    (cg_trans (to_cgraph c) i j <> NInf <-> next_emitting true g t t').
  Proof.
    intros Hd Et Et'. destruct compiled_parts as (vi & vf & m & H1 & H2 & H3 & ->). simpl in *.
    rewrite lnp_finite. unfold norm_rows in *. rewrite norm_row_diag in Hd.
    rewrite norm_row_support by auto. now apply next_iff.
  Qed.

  Lemma idx_state j : (j < n)%nat -> exists t, state2pdf g t = Some j.
  Proof.
    intros Hj. destruct (nth_error (emitting g) j) as [[t p]|] eqn:E.
    2:{ apply nth_error_None in E. unfold n in Hj. lia. }
    exists t.
    assert (Hem : is_emitting g t).
    { apply emitting_in. apply in_map_iff. exists (t, p). split; auto. eapply nth_error_In; eauto. }
    destruct (state2pdf_em g t Hem) as (i & Ei & Hi). rewrite Ei. f_equal.
    pose proof (index_of_nth _ _ _ Ei) as (q & Eq).
    assert (Hnd : NoDup (map fst (emitting g))).
    { pose proof (wf_nodup g W) as Hnd. unfold states in Hnd. unfold emitting. clear - Hnd.
      induction (g_states g) as [|[x o] l IH]; simpl in *; [constructor|].
      inversion_clear Hnd as [|? ? Hx Hl]. destruct o; simpl; [|auto]. constructor; auto.
      intros Hc. apply Hx. apply in_map_iff in Hc. destruct Hc as ([y q] & Ey & Hy). simpl in Ey. subst y.
      apply in_flat_map in Hy. destruct Hy as ([z o] & Hz & Hin). destruct o; simpl in Hin; [|destruct Hin].
      destruct Hin as [Hin|[]]. inv Hin. apply in_map_iff. exists (x, Some q). auto. }
    apply (proj1 (NoDup_nth_error (map fst (emitting g)))).
    - exact Hnd.
    - rewrite map_length. exact Hi.
    - rewrite (map_nth_error fst _ _ Eq), (map_nth_error fst _ _ E). reflexivity.
  Qed.

  Lemma c_n_eq : c_n c = n.
  Proof. destruct compiled_parts as (vi & vf & m & _ & _ & _ & ->). reflexivity. Qed.
  Lemma c_map_eq : c_map c = pdf_id_mapping g.
  Proof. destruct compiled_parts as (vi & vf & m & _ & _ & _ & ->). reflexivity. Qed.

  (** Soundness, whatever the (finite) likelihoods. *)
  Lemma tail_sound : forall ls p t i, state2pdf g t = Some i ->
    Forall (fun j => (j < n)%nat) p -> tail_score (to_cgraph c) i ls p <> NInf ->
    runs g e t (map lab p).
  Proof.
    induction ls as [|l ls IH]; intros p t i Et F H; destruct p as [|j p]; simpl in H; try congruence.
    - constructor. now apply (fin_iff t i).
    - apply ladd_fin in H. destruct H as [H Ht]. apply ladd_fin in H. destruct H as [H _].
      inv F. destruct (idx_state j) as (t' & Et'); [assumption|].
      destruct (state2pdf_pdf g t' j Et') as (q & Hq & Hn & _). simpl.
      econstructor.
      + eapply (trans_sound t i t' j); eauto.
      + unfold lab. rewrite c_map_eq, Hn. exact Hq.
      + eapply IH; eauto.
  Qed.

  Lemma path_sound ls p : Forall (fun j => (j < n)%nat) p -> path_score (to_cgraph c) ls p <> NInf ->
    runs g e s (map lab p).
  Proof.
    intros F H. destruct ls as [|l ls], p as [|j p]; simpl in H; try congruence.
    apply ladd_fin in H. destruct H as [H Ht]. apply ladd_fin in H. destruct H as [H _].
    inv F. destruct (idx_state j) as (t' & Et'); [assumption|].
    destruct (state2pdf_pdf g t' j Et') as (q & Hq & Hn & _). simpl. econstructor.
    - apply (init_iff t' j Et'). exact H.
    - unfold lab. rewrite c_map_eq, Hn. exact Hq.
    - eapply tail_sound; eauto.
  Qed.

  Hypothesis Hd : forall i, (i < n)%nat -> Graph_Model.c_trans c i i < 1.

  Lemma tail_complete ls : forall (rows : list row) t i, length rows = length ls ->
    Forall (fun r : row => forall j, r j <> NInf) rows ->
    state2pdf g t = Some i -> runs g e t ls ->
    exists p, length p = length ls /\ Forall (fun j => (j < n)%nat) p /\ map lab p = ls /\
      tail_score (to_cgraph c) i rows p <> NInf.
  Proof.
    induction ls as [|q ls IH]; intros rows t i El F Et H; destruct rows as [|r rows]; simpl in El; try discriminate.
    - inv H. exists []. repeat split; auto. simpl. now apply (fin_iff t i).
    - inversion H as [|? t' ? ? Hnx Hq Hr]; subst. inv F.
      destruct Hnx as (x & N1 & N2 & N3).
      destruct (state2pdf_em g t' N3) as (j & Ej & Hj).
      destruct (IH rows t' j) as (p & L & Fp & Ep & Sc); auto.
      destruct (state2pdf_pdf g t' j Ej) as (q' & Hq' & Hn & _).
      assert (q' = q).
      { apply (pdf_of_in g _ _ (wf_nodup g W)) in Hq. apply (pdf_of_in g _ _ (wf_nodup g W)) in Hq'. congruence. }
      subst q'. exists (j :: p). split; [simpl; lia|]. split; [constructor; auto|]. split.
      + simpl. rewrite Ep. unfold lab. rewrite c_map_eq. congruence.
      + simpl. apply ladd_fin. split; auto. apply ladd_fin. split; auto.
        apply (trans_iff t i t' j); auto.
        * apply Hd. destruct (state2pdf_pdf g t i Et) as (_ & _ & _ & Hi). exact Hi.
        * exists x; auto.
  Qed.

  Lemma path_complete ls rows : ls <> [] -> length rows = length ls ->
    Forall (fun r : row => forall j, r j <> NInf) rows -> runs g e s ls ->
    exists p, length p = length ls /\ Forall (fun j => (j < n)%nat) p /\ map lab p = ls /\
      path_score (to_cgraph c) rows p <> NInf.
  Proof.
    intros Hne El F H. inversion H as [|? t' q ls' Hnx Hq Hr]; subst; [congruence|].
    destruct rows as [|r rows]; [discriminate|]. inv F. simpl in El.
    pose proof Hnx as (x & N1 & N2 & N3).
    destruct (state2pdf_em g t' N3) as (j & Ej & Hj).
    destruct (tail_complete ls' rows t' j) as (p & L & Fp & Ep & Sc); auto.
    destruct (state2pdf_pdf g t' j Ej) as (q' & Hq' & Hn & _).
    assert (q' = q).
    { apply (pdf_of_in g _ _ (wf_nodup g W)) in Hq. apply (pdf_of_in g _ _ (wf_nodup g W)) in Hq'. congruence. }
    subst q'. exists (j :: p). split; [simpl; lia|]. split; [constructor; auto|]. split.
    - simpl. rewrite Ep. unfold lab. rewrite c_map_eq. congruence.
    - simpl. apply ladd_fin. split; auto. apply ladd_fin. split; auto. now apply (init_iff t' j).
  Qed.

  Lemma vec_some fwd x v t j : bindr (yields (find_pdf_ids fwd g (Some x) 1)) (acc_vec g) = Ok v ->
    state2pdf g t = Some j -> next_emitting fwd g x t -> exists u, norm_vec n v = Some u.
  Proof.
    clear Hd. intros H Et Hx. unfold norm_vec.
    assert (Hp : 0 < v j) by (apply (vec_support fwd g x v j W P H); eauto).
    destruct (state2pdf_pdf g t j Et) as (_ & _ & _ & Hj).
    destruct (Req_EM_T (sumf v (seq 0 n)) 0) as [E|E]; [|eauto]. exfalso.
    assert (0 < sumf v (seq 0 n)); [|lra]. apply sumf_pos_iff.
    - intros i _. now apply (vec_support fwd g x v i W P).
    - exists j. split; auto. apply in_seq. unfold n. lia.
  Qed.

  Lemma runs_last a ls : is_emitting g a \/ ls <> [] -> runs g e a ls -> exists t, is_emitting g t /\ eps_reach true g t e.
  Proof.
    clear Hd. intros H R. induction R as [a Ha|a t p ls Hn Hp Hr IH].
    - destruct H as [H|H]; [eauto|congruence].
    - apply IH. left. now exists p.
  Qed.

  (** No NaN as soon as something is accepted. *)
  Lemma vectors_some ls : ls <> [] -> runs g e s ls ->
    exists u v, c_init c = Some u /\ c_final c = Some v.
  Proof.
    clear Hd. intros Hne R. destruct compiled_parts as (vi & vf & m & H1 & H2 & H3 & ->). simpl.
    assert (Hn : exists t, next_emitting true g s t) by (inversion R; [congruence|eauto]).
    destruct Hn as (t & Ht). pose proof Ht as (x & _ & _ & Hem).
    destruct (state2pdf_em g t Hem) as (j & Ej & _).
    destruct (vec_some true s vi t j H1 Ej Ht) as (u & ->).
    destruct (runs_last s ls (or_intror Hne) R) as (t2 & Hem2 & Hl).
    destruct (state2pdf_em g t2 Hem2) as (j2 & Ej2 & _).
    destruct (vec_some false e vf t2 j2 H2 Ej2) as (v & ->); [now apply final_iff|]. eauto.
  Qed.
End Support.
