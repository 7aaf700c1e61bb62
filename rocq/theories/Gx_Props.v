(** C198: what a step of the training of a mixture gains is at least how far it
    moves the posteriors, so the posteriors settle. *)
From Coq Require Import Reals List Arith Bool Lia Lra.
From Verif Require Import Prelude Vec Lgamma Edit_Model Dec_Model Set_Model Set_Spec HMM_Model Dist_Model Dist_Spec Dist_Props Mat NW_Model
  SB_Model SB_Spec SB_Props Sk_Model Sk_Spec Sk_Props Vt_Model Vt_Spec Vt_Proofs Vt_Props Cv_Spec Cv_Proofs Cv_Props Gn_Spec Gn_Proofs
  Mx_Model Mx_Spec Mx_Proofs Mx_Props Cw_Props Cx_Props Gx_Spec Gx_Proofs.
Import ListNotations.
Local Open Scope R_scope.

(** The divergences KL(old posterior || new posterior) of the Dirichlet weights
    and of the components are not negative; their sum is at most the learning
    rate times the gain. *)
Theorem C198_gain : forall sort k D w lrate uw group skel frames s,
  (forall counts, sorts_desc counts (sort counts)) -> NoDup (params skel) -> 0 <= w ->
  mix_ok k D skel s -> Forall (lframe_ok k D skel) frames -> rate_ok (mx_weights s) lrate uw ->
  exists s', mx_step sort w lrate uw group skel frames s = Ok s' /\
    0 <= weights_moved (mx_weights s) (mx_weights s') /\ 0 <= total_moved skel (mx_comps s) (mx_comps s') /\
    mix_moved skel s s' <= lrate * (mx_bound w skel frames s' - mx_bound w skel frames s).
Proof.
  intros sort k D w lrate uw group skel frames s Hso Hnd Hw G HF Hr.
  destruct (mx_step_moved sort k D skel w lrate uw group frames Hso Hnd Hw HF s G Hr) as (s' & E & _ & A). eauto.
Qed.

(** Over an endless training the posteriors move a bounded distance in all, at
    most what separates the first bound from the limit, and the steps move
    them less and less. *)
Theorem C198_settles : forall sort k D w (steps : nat -> R * bool * list nat) skel frames s0,
  (forall counts, sorts_desc counts (sort counts)) -> NoDup (params skel) -> 0 <= w ->
  mix_ok k D skel s0 -> Forall (lframe_ok k D skel) frames ->
  (forall n, rate_ok (mx_weights s0) (fst (fst (steps n))) (snd (fst (steps n)))) ->
  exists (run : nat -> mixst) (L : R),
    (forall n, mx_train sort w (map steps (seq 0 n)) skel frames s0 = Ok (run n)) /\
    Un_cv (fun n => mx_bound w skel frames (run n)) L /\
    (forall n, 0 <= sumf (fun i => mix_moved skel (run i) (run (S i))) (seq 0 n)
                 <= mx_bound w skel frames (run n) - mx_bound w skel frames s0 /\
               mx_bound w skel frames (run n) <= L) /\
    Un_cv (fun n => mix_moved skel (run n) (run (S n))) 0.
Proof.
  intros sort k D w steps skel frames s0 Hso Hnd Hw G0 HF R0.
  destruct (C189_converges sort k D w steps skel frames s0 Hso Hnd Hw G0 HF R0) as (run & L & HR & HL & HC).
  set (b := fun n => mx_bound w skel frames (run n)) in *.
  assert (E0 : run 0%nat = s0) by (specialize (HR 0%nat); cbn in HR; congruence).
  assert (HS : forall n, mx_step sort w (fst (fst (steps n))) (snd (fst (steps n))) (snd (steps n)) skel frames (run n) = Ok (run (S n))).
  { intros n. assert (E := HR (S n)). rewrite seq_S, map_app in E. cbn [map Nat.add] in E. rewrite mx_snoc, HR in E. exact E. }
  assert (HT : forall n, mix_ok k D skel (run n) /\ forall m, rate_ok (mx_weights (run n)) (fst (fst (steps m))) (snd (fst (steps m)))).
  { induction n as [|n [IH Rt]]; [rewrite E0; auto|].
    destruct (mx_step_moved sort k D skel w (fst (fst (steps n))) (snd (fst (steps n))) (snd (steps n)) frames Hso Hnd Hw HF (run n) IH (Rt n))
      as (s' & E & G & _). rewrite HS in E. injection E as <-. split; [exact G|].
    intros m. eapply rate_kind; [exact (weights_kind _ _ _ _ _ _ _ _ _ (HS n))|apply Rt]. }
  assert (HM : forall n, 0 <= mix_moved skel (run n) (run (S n)) <= b (S n) - b n).
  { intros n. destruct (HT n) as [G Rt].
    destruct (C198_gain sort k D w (fst (fst (steps n))) (snd (fst (steps n))) (snd (steps n)) skel frames (run n) Hso Hnd Hw G HF (Rt n))
      as (s' & E & P1 & P2 & Hb). rewrite HS in E. injection E as <-. fold (b n) (b (S n)) in Hb.
    split; [unfold mix_moved; lra|]. apply (Rle_trans _ _ _ Hb). destruct (HL n) as [Hg _].
    change (b n <= b (S n)) in Hg. destruct (Rt n) as [[A B] _].
    assert (X : fst (fst (steps n)) * (b (S n) - b n) <= 1 * (b (S n) - b n)) by (apply Rmult_le_compat_r; lra). lra. }
  exists run, L. split; [exact HR|]. split; [exact HC|]. split.
  - intros n. rewrite <- E0. fold (b n) (b 0%nat). split; [split|].
    + apply sumf_nonneg. intros i _. apply HM.
    + induction n as [|n IH]; [cbn; lra|]. rewrite seq_S, sumf_app, sumf_cons, sumf_nil. cbn [Nat.add].
      destruct (HM n). lra.
    + destruct (HL n) as [A B]. apply (Rle_trans _ _ _ A B).
  - intros eps He. destruct (HC (eps / 2)) as (N & HN); [lra|]. exists N. intros n Hn.
    assert (A := HN n Hn). assert (B := HN (S n) ltac:(lia)). unfold R_dist in *. destruct (HM n) as [P Q].
    apply Rabs_def2 in A. apply Rabs_def2 in B. fold (b n) in A. fold (b (S n)) in B. rewrite Rabs_pos_eq by lra. lra.
Qed.

(** The mixtures of C167, trained for ever. *)
Example C198_ex : forall sort, (forall counts, sorts_desc counts (sort counts)) ->
  forall c, In c [WDir [1; 1] [1; 1]; WStick [(1, 1); (1, 1)] [0; 1]%nat [(1, 1); (1, 1)]] ->
  let s := m_mix c in
  exists (run : nat -> mixst) (L : R),
    (forall n, mx_train sort 1 (map (fun i => (1, Nat.even i, [1%nat])) (seq 0 n)) m_skel m_frames s = Ok (run n)) /\
    Un_cv (fun n => mx_bound 1 m_skel m_frames (run n)) L /\
    (forall n, 0 <= sumf (fun i => mix_moved m_skel (run i) (run (S i))) (seq 0 n)
                 <= mx_bound 1 m_skel m_frames (run n) - mx_bound 1 m_skel m_frames s /\
               mx_bound 1 m_skel m_frames (run n) <= L) /\
    Un_cv (fun n => mix_moved m_skel (run n) (run (S n))) 0.
Proof.
  intros sort Hs c Hc s.
  assert (Hng : forall m, ng_ok 1 (ex_ng m)).
  { intros m. unfold ng_ok, ex_ng. cbn [ng_mean ng_rates ng_scale ng_shape length].
    split; [reflexivity|]. split; [reflexivity|]. split; [lra|]. split; [lra|]. constructor; [lra|constructor]. }
  assert (G : mix_ok KDiag 1 m_skel s).
  { split; [|split; [cbn; lia|]].
    - split; [reflexivity|]. split; [reflexivity|]. constructor; [split; apply Hng|]. constructor; [split; apply Hng|constructor].
    - cbn [size m_skel length]. destruct Hc as [<-|[<-|[]]].
      + split; apply l_dir; lra.
      + split; [apply order_01|]. split; [reflexivity|]. split.
        * constructor; [cbn; lra|]. constructor; [cbn; lra|constructor].
        * exists (1, 1). cbn [fst snd]. split; [lra|]. split; [lra|reflexivity]. }
  assert (F : Forall (lframe_ok KDiag 1 m_skel) m_frames).
  { unfold m_frames. apply Forall_map, Forall_forall. intros x _. split; [|exact I]. exists [x].
    split; [reflexivity|]. split; [reflexivity|exact I]. }
  assert (Nd : NoDup (params m_skel)) by (constructor; [intros []|constructor]).
  assert (Hr : forall uw, rate_ok (mx_weights s) 1 uw).
  { intros uw. split; [lra|]. intros _. destruct (mx_weights s); auto. }
  apply (C198_settles sort KDiag 1 1 (fun i => (1, Nat.even i, [1%nat])) m_skel m_frames s Hs Nd ltac:(lra) G F).
  intros n. apply Hr.
Qed.

Print Assumptions C198_gain.
Print Assumptions C198_settles.
