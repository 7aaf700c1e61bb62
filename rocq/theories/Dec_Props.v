(** C22, C23, C69, C70, C71. *)
From Coq Require Import List Arith Bool Lia Reals Lra.
From Verif Require Import Prelude Edit_Model Edit_Proofs Dec_Model Dec_Spec Dec_Proofs.
Import ListNotations.

(** For every inventory [start_pdf] (phone -> first pdf, all different), every
    sequence of visits of its phones, whose frames after the entry state avoid
    every entry state and whose successive visits can be told apart, decoding
    the state path gives back the phone sequence, and in per-frame mode the
    phone of each frame. *)
Theorem C22_decode_left_inverse :
  forall start_pdf (entry : nat -> nat) v vs,
  NoDup (map snd start_pdf) ->
  (forall p, In p (map fst start_pdf) -> In (p, entry p) start_pdf) ->
  (forall w, In w (v :: vs) -> In (v_phone w) (map fst start_pdf) /\
     forall s, In s (v_rest w) -> ~ In s (map snd start_pdf)) ->
  separated (v :: vs) ->
  state2phone (unroll entry (v :: vs)) start_pdf false = Ok (map v_phone (v :: vs)) /\
  state2phone (unroll entry (v :: vs)) start_pdf true = Ok (frame_phones (v :: vs)) /\
  length (frame_phones (v :: vs)) = length (unroll entry (v :: vs)).
Proof.
  intros start_pdf entry v vs H1 H2 H3 H4. split; [|split].
  - exact (state2phone_visits start_pdf entry false v vs H1 H2 H3 H4).
  - exact (state2phone_visits start_pdf entry true v vs H1 H2 H3 H4).
  - clear. induction (v :: vs) as [|w l IH]; [reflexivity|].
    unfold frame_phones, unroll in *. cbn [flat_map]. rewrite !app_length, IH. f_equal.
    unfold frames. rewrite repeat_length. cbn [length]. rewrite app_length, repeat_length. lia.
Qed.

(** The separation hypothesis is needed: a one-state phone visited twice in a
    row is reported once. *)
Theorem C22_one_state_repetition_refuted :
  exists start_pdf entry v w,
  v_phone v = v_phone w /\
  state2phone (unroll entry [v; w]) start_pdf false = Ok [v_phone v].
Proof.
  exists [(0, 0); (1, 1)], (fun p => p), (Visit 1 0 []), (Visit 1 2 []). split; reflexivity.
Qed.

(** a path starting inside a phone raises KeyError *)
Theorem C22_path_must_start_in_entry_state :
  forall s t start_pdf pf, ~ In s (map snd start_pdf) ->
  state2phone (s :: t) start_pdf pf = Err KeyError.
Proof. exact state2phone_bad_start. Qed.

(** and an utterance without frames IndexError *)
Theorem C22_empty_path : forall start_pdf pf, state2phone [] start_pdf pf = Err IndexError.
Proof. reflexivity. Qed.

Example C22_example :
  let vs := [Visit 7 1 [1;1;2]; Visit 7 0 [2]; Visit 9 0 [4]] in
  let entry := fun p => if p =? 7 then 0 else 3 in
  state2phone (unroll entry vs) [(7, 0); (9, 3)] false = Ok [7; 7; 9] /\
  state2phone (unroll entry vs) [(7, 0); (9, 3)] true = Ok [7;7;7;7;7;7;7;9;9] /\
  separated vs.
Proof.
  repeat split; left; discriminate.
Qed.

(** ** C23 *)
Local Open Scope R_scope.
(** The mass of the last state of each phone is lost: for an inventory whose
    k-th phone owns the pdfs start..end (inclusive, as produced by
    mkdecodegraph), the phone receives the posteriors of all its states except
    the last one. *)
Theorem C23_last_state_dropped_partial :
  forall post (start_pdf end_pdf : list (nat * nat)) (st en : nat -> nat),
  (forall us, In us start_pdf -> snd us = st (fst us)) ->
  (forall us, In us start_pdf -> dget Nat.eq_dec end_pdf (fst us) = Some (en (fst us))) ->
  (forall us, In us start_pdf -> (st (fst us) <= en (fst us) < length post)%nat) ->
  exists out, post2phone post start_pdf end_pdf = Ok out /\
    length out = length start_pdf /\
    forall k us, nth_error start_pdf k = Some us ->
      nth k out 0 + nth (en (fst us)) post 0 =
      sumf (fun s => nth s post 0) (seq (st (fst us)) (S (en (fst us) - st (fst us)))).
Proof.
  intros post start_pdf end_pdf st en H1 H2 H3. eexists. split; [|split].
  - apply (post2phone_ok post start_pdf end_pdf en); auto.
    intros us Hu. apply H3 in Hu. lia.
  - apply map_length.
  - intros k us Hk. assert (Hu : In us start_pdf) by (now apply nth_error_In in Hk).
    assert (Hlt : (k < length start_pdf)%nat) by (apply nth_error_Some; congruence).
    rewrite (map_nth_lt _ start_pdf k us 0) by auto.
    rewrite (nth_error_nth _ _ us Hk). rewrite (H1 _ Hu).
    specialize (H3 _ Hu). rewrite seq_S, sumf_app. unfold sumf at 3. simpl.
    replace (st (fst us) + (en (fst us) - st (fst us)))%nat with (en (fst us)) by lia. lra.
Qed.

(** so the claim fails: a phone-loop of two-state phones with all the mass on
    a last state gives a zero row *)
Theorem C23_mass_refuted :
  exists post start_pdf end_pdf out,
    rsum post = 1 /\ (forall x, In x post -> 0 <= x) /\
    post2phone post start_pdf end_pdf = Ok out /\ rsum out = 0.
Proof.
  exists [0; 1; 0; 0], [(7, 0); (9, 2)]%nat, [(7, 1); (9, 3)]%nat, [0 + 0; 0 + 0].
  repeat split.
  - simpl; lra.
  - simpl. intros x Hx. intuition lra.
  - simpl. lra.
Qed.

Example C23_example :
  post2phone [/2; /4; /8; /8] [(7, 0); (9, 2)]%nat [(7, 1); (9, 3)]%nat
  = Ok [/2 + 0; /8 + 0].
Proof. reflexivity. Qed.

Local Close Scope R_scope.
(** ** C69: convert_states_to_phone.py *)
(** Phones [ids] (distinct), n states per phone, phone p owning the states
    p*n .. p*n+n-1 and left through the last one: the phone sequence is
    recovered. *)
Theorem C69_convert_states_left_inverse :
  forall ids n v vs, 0 < n ->
  (forall w, In w (v :: vs) -> In (v_phone w) ids /\
     forall s, In s (v_rest w) -> exists j, j < n - 1 /\ s = v_phone w * n + j) ->
  exit_separated (v :: vs) ->
  convert_states (exit_unroll (fun p => p * n + (n - 1)) (v :: vs))
    (c2p_ends ids n) (c2p_phone_table ids n) = Ok (map v_phone (v :: vs)).
Proof.
  intros ids n v vs Hn Hg Hsep. apply convert_states_visits; auto.
  intros w Hw. destruct (Hg w Hw) as [Hp Hr]. split; [|split].
  - apply ends_spec; eauto.
  - apply table_spec. split; auto. exists (n - 1). split; [lia|auto].
  - intros s Hs He. destruct (Hr s Hs) as (j & Hj & ->).
    apply ends_spec in He as (q & _ & E); auto.
    assert (Hm := f_equal (fun x => x mod n) E). cbn beta in Hm.
    rewrite !(Nat.add_comm (_ * n)), !Nat.mod_add, !Nat.mod_small in Hm by lia. lia.
Qed.

Example C69_example :
  convert_states [3;3;4;5;5;3;4;5;0;2;2] (c2p_ends [0;1] 3) (c2p_phone_table [0;1] 3)
  = Ok [1; 1; 0] /\
  exit_unroll (fun p => p * 3 + 2)
    [Visit 1 1 [3;3;4]; Visit 1 0 [3;4]; Visit 0 1 [0]] = [3;3;4;5;5;3;4;5;0;2;2].
Proof. split; reflexivity. Qed.

(** an empty path raises *)
Theorem C69_empty : forall e p, convert_states [] e p = Err IndexError.
Proof. reflexivity. Qed.

(** ** C70: pdf2unit.py *)
(** For a mapping file listing the pdfs unit by unit (the pdfs all different,
    successive units different), the entry state of each unit being its first
    listed pdf, the unit sequence is recovered from the path. *)
Theorem C70_pdf2unit_left_inverse :
  forall (us : list (nat * (nat * list nat))) (entry : nat -> nat) v vs,
  adj_diff None us -> NoDup (map fst (unit_lines us)) ->
  (forall u, In u us -> entry (fst u) = fst (snd u)) ->
  (forall w, In w (v :: vs) -> In (v_phone w) (map fst us) /\
     forall s, In s (v_rest w) -> ~ In s (map (fun u => fst (snd u)) us)) ->
  separated (v :: vs) ->
  let (mapping, starts) := read_mapping (unit_lines us) in
  pdf2unit (unroll entry (v :: vs)) starts mapping = Ok (map v_phone (v :: vs)).
Proof. exact pdf2unit_visits. Qed.

Example C70_example :
  let (mapping, starts) := read_mapping [(0,7);(1,7);(2,7);(3,9);(4,9)] in
  pdf2unit [0;0;1;2;0;2;3;4] starts mapping = Ok [7;7;9] /\
  unit_lines [(7,(0,[1;2])); (9,(3,[4]))] = [(0,7);(1,7);(2,7);(3,9);(4,9)].
Proof. split; reflexivity. Qed.

(** ** C71: utterances absent from the data set are skipped *)
Theorem C71_posteriors_skip :
  forall have utts, posteriors_loop have utts = Ok (filter (fun u => inb u have) utts).
Proof. exact posteriors_loop_ok. Qed.

(** decode: only once a first utterance was found *)
Theorem C71_decode_skip_partial :
  forall have u utts, In u have ->
  decode_loop have false (u :: utts) = Ok (filter (fun u => inb u have) (u :: utts)).
Proof.
  intros have u utts H. cbn [decode_loop filter].
  rewrite (proj2 (inb_spec _ _) H), decode_loop_ok. reflexivity.
Qed.

Theorem C71_decode_skip_refuted :
  forall have u utts, ~ In u have -> decode_loop have false (u :: utts) = Err NameError.
Proof.
  intros have u utts H. cbn [decode_loop]. now rewrite (proj2 (inb_false _ _) H).
Qed.

Example C71_example : decode_loop [1;3] false [3;2;1] = Ok [3;1].
Proof. reflexivity. Qed.

Print Assumptions C22_decode_left_inverse.
Print Assumptions C23_last_state_dropped_partial.
Print Assumptions C69_convert_states_left_inverse.
Print Assumptions C70_pdf2unit_left_inverse.
