(** Samples of a set of Normal distributions (utils.py). *)
From Coq Require Import Reals List Lra Lia Arith Bool.
From Verif Require Import Prelude Vec Dist_Model Dist_Spec Dist_Proofs Llh_Proofs Ut_Model Gs_Model Gs_Spec Gs_Proofs Gs_Obj.
Import ListNotations.
Local Open Scope R_scope.

(** ** C129 *)

(** Sample s of the distribution n is the mean plus the standard deviation
    times the noise; its log-density under that distribution is the one of the
    noise under the standard Normal minus the log-determinant of the standard
    deviations. *)
Theorem C129_samples : forall means variances noise N D,
  length means = N -> length variances = N ->
  Forall (fun m => length m = D) means -> Forall (fun v => length v = D /\ Forall (fun x => 0 < x) v) variances ->
  Forall (fun z => length z = N /\ Forall (fun e => length e = D) z) noise ->
  let r := sample_from_normals means variances noise in
  length r = length noise /\
  forall s n, (s < length noise)%nat -> (n < N)%nat ->
  length (nth s r []) = N /\
  let x := nth n (nth s r []) [] in
  let z := nth n (nth s noise []) [] in
  length x = D /\
  (forall i, (i < D)%nat -> nth i x 0 = nth i (nth n means []) 0 + sqrt (nth i (nth n variances []) 0) * nth i z 0) /\
  sumf (fun i => ln (gauss_pdf (nth i x 0) (nth i (nth n means []) 0) (/ nth i (nth n variances []) 0))) (seq 0 D) =
    std_normal_logpdf z - 1/2 * sumf ln (nth n variances []).
Proof.
  intros means variances noise N D Lm Lv Hm Hv Hz r. split; [apply map_length|]. intros s n Hs Hn.
  rewrite Forall_forall in Hm, Hv, Hz.
  assert (Zs := Hz (nth s noise []) ltac:(apply nth_In; auto)). destruct Zs as [Zl Zf].
  rewrite Forall_forall in Zf. assert (Ze := Zf (nth n (nth s noise []) []) ltac:(apply nth_In; lia)).
  assert (Mn := Hm (nth n means []) ltac:(apply nth_In; lia)).
  destruct (Hv (nth n variances []) ltac:(apply nth_In; lia)) as [Vn Vp].
  assert (Es : nth s r [] = map2 vadd means (map2 vmul (map (map sqrt) variances) (nth s noise []))).
  { unfold r, sample_from_normals. rewrite (nth_indep _ [] ((fun z => map2 vadd means (map2 vmul (map (map sqrt) variances) z)) [])) by (now rewrite map_length).
    exact (map_nth (fun z => map2 vadd means (map2 vmul (map (map sqrt) variances) z)) noise [] s). }
  rewrite Es. split; [rewrite !map2_length, map_length; lia|]. cbv zeta.
  assert (Ex : nth n (map2 vadd means (map2 vmul (map (map sqrt) variances) (nth s noise []))) [] =
    map2 Rplus (nth n means []) (map2 (fun s e => sqrt s * e) (nth n variances []) (nth n (nth s noise []) []))).
  { rewrite (map2_nth _ _ _ _ [] []) by (rewrite ?map2_length, ?map_length; lia).
    rewrite (map2_nth _ _ _ _ (map sqrt []) []) by (rewrite ?map_length; lia).
    rewrite map_nth.
    unfold vadd, vmul. f_equal. generalize (nth n (nth s noise []) []). generalize (nth n variances []). clear.
    induction l as [|a l IH]; intros [|b m]; cbn; auto. f_equal. apply IH. }
  rewrite Ex. set (p := {| nc_mean := nth n means []; nc_cov := nth n variances [] |}).
  assert (Hp : ndc_ok D p) by (split; [exact Mn|split; [exact Vn|exact Vp]]).
  split; [rewrite !map2_length; lia|]. split.
  - intros i Hi. exact (ndc_sample_nth p _ i D Hp Ze Hi).
  - pose proof (ndc_sample_density D p _ Hp Ze) as E. cbv zeta in E. cbn [nc_mean nc_cov p] in E.
    rewrite (ndc_forward_value D p) in E; auto. rewrite !map2_length. cbn [nc_mean nc_cov p]. lia.
Qed.

Example C129_ex : nth 0 (nth 0 (nth 0 (sample_from_normals [[1; 2]] [[4; 9]] [[[1; 1]]]) []) []) 0 = 3.
Proof.
  destruct (C129_samples [[1; 2]] [[4; 9]] [[[1; 1]]] 1 2) as [_ H]; auto.
  - repeat (apply Forall_cons || apply Forall_nil || split); try reflexivity; lra.
  - repeat (apply Forall_cons || apply Forall_nil || split); try reflexivity.
  - destruct (H 0%nat 0%nat) as (_ & _ & V & _); [cbn; lia|lia|]. rewrite V by lia. cbn [nth].
    replace 4 with (2 * 2) by lra. rewrite sqrt_square by lra. lra.
Qed.

Print Assumptions C129_samples.
