(** Networks created from a description: C135. *)
From Coq Require Import Reals String Ascii List Arith Bool Lia Lra.
From Verif Require Import Prelude Vec Nn_Model Nn_Spec Nn_Proofs Nn_Props Nc_Model Ar_Props.
Import ListNotations.
Local Open Scope nat_scope.

(** ** What a network computes, without any memory *)
Fixpoint means (l : layer) (x : list R) {struct l} : list R :=
  match l with
  | Fresh f => f x
  | InPlace f => f x
  | Same => x
  | Merge ts =>
      match ts with
      | [] => x
      | t :: ts' => (fix go (ts : list layer) (acc : list R) {struct ts} : list R :=
                       match ts with [] => acc | t :: ts' => go ts' (vadd acc (means t x)) end) ts' (means t x)
      end
  end.
Definition block_means (b : block) (x : list R) : list R :=
  let h := fold_left (fun v l => means l v) (b_structure b) x in
  match b_residual b with None => h | Some r => vadd h (means r x) end.
Definition net_means (bs : list block) (x : list R) : list R := fold_left (fun v b => block_means b v) bs x.

Definition simple (l : layer) : Prop := match l with Merge _ => False | _ => True end.
Definition quiet (l : layer) : Prop := match l with Fresh _ => True | Same => True | _ => False end.
(** The modules that write into their argument come after one that makes a new tensor. *)
Fixpoint tidy (own : bool) (ls : list layer) : Prop :=
  match ls with
  | [] => True
  | Fresh _ :: t => tidy true t
  | Same :: t => tidy own t
  | InPlace _ :: t => own = true /\ tidy own t
  | Merge _ :: _ => False
  end.
Definition tidy_block (b : block) : Prop :=
  tidy false (b_structure b) /\ match b_residual b with None => True | Some r => quiet r end.

(** ** The memory *)
Lemma store_length m a v : length (store m a v) = length m.
Proof. revert a. induction m as [|w m IH]; intros [|a]; cbn; auto. Qed.
Lemma load_store_eq m a v : a < length m -> load (store m a v) a = v.
Proof.
  unfold load. revert a. induction m as [|w m IH]; intros [|a] H; cbn in *; try lia; [reflexivity|]. apply IH. lia.
Qed.
Lemma load_store_neq m a b v : a <> b -> load (store m a v) b = load m b.
Proof.
  unfold load. revert a b. induction m as [|w m IH]; intros [|a] [|b] H; cbn in *; try reflexivity; try lia. apply IH. lia.
Qed.
Lemma load_alloc_new m v : load (m ++ [v]) (length m) = v.
Proof. unfold load. rewrite app_nth2, Nat.sub_diag by lia. reflexivity. Qed.
Lemma load_alloc_old m v a : a < length m -> load (m ++ [v]) a = load m a.
Proof. intros H. unfold load. now rewrite app_nth1. Qed.
Lemma alloc_length (m : list (list R)) v : length (m ++ [v]) = S (length m).
Proof. rewrite app_length. cbn. lia. Qed.

Lemma sequential_tidy ls : forall own n y m, tidy own ls -> y < length m -> n <= length m -> (own = true -> n <= y) ->
  exists y' m', sequential ls y m = (y', m') /\ load m' y' = fold_left (fun v l => means l v) ls (load m y) /\
    (forall a, a < n -> load m' a = load m a) /\ y' < length m' /\ length m <= length m'.
Proof.
  induction ls as [|l ls IH]; intros own n y m Ht Hy Hn Ho.
  - exists y, m. cbn. repeat split; auto.
  - destruct l as [f|f| |ts]; cbn [tidy] in Ht; [| | |contradiction].
    + destruct (IH true n (length m) (m ++ [f (load m y)])) as (y' & m' & E & V & K & B & L); auto;
        [rewrite alloc_length; lia | rewrite alloc_length; lia |].
      rewrite alloc_length in L. exists y', m'. cbn. repeat split; auto; try lia.
      * now rewrite V, load_alloc_new.
      * intros a Ha. rewrite K by auto. apply load_alloc_old. lia.
    + destruct Ht as [-> Ht]. specialize (Ho eq_refl).
      destruct (IH true n y (store m y (f (load m y)))) as (y' & m' & E & V & K & B & L); auto; try (rewrite store_length; lia).
      rewrite store_length in L. exists y', m'. cbn. repeat split; auto.
      * now rewrite V, load_store_eq.
      * intros a Ha. rewrite K by auto. apply load_store_neq. lia.
    + destruct (IH own n y m) as (y' & m' & E & V & K & B & L); auto.
      exists y', m'. cbn. repeat split; auto.
Qed.

Lemma block_tidy b x m : tidy_block b -> x < length m ->
  exists y m', block_fwd b x m = (y, m') /\ load m' y = block_means b (load m x) /\
    (forall a, a < length m -> load m' a = load m a) /\ y < length m' /\ length m <= length m'.
Proof.
  intros [Ht Hr] Hx. unfold block_fwd, block_means.
  destruct (sequential_tidy (b_structure b) false (length m) x m) as (h & m1 & E & V & K & B & L); auto; [discriminate|].
  rewrite E. destruct (b_residual b) as [r|].
  - destruct r as [f|f| |ts]; cbn [quiet] in Hr; try contradiction.
    + exists (S (length m1)), ((m1 ++ [f (load m1 x)]) ++
        [vadd (load (m1 ++ [f (load m1 x)]) h) (load (m1 ++ [f (load m1 x)]) (length m1))]).
      split; [cbn; unfold alloc; now rewrite alloc_length|]. repeat split.
      * rewrite <- (alloc_length m1 (f (load m1 x))) at 1. rewrite load_alloc_new.
        rewrite load_alloc_new, load_alloc_old by auto. cbn [means]. now rewrite V, K.
      * intros a Ha. rewrite !load_alloc_old by (rewrite ?alloc_length; lia). auto.
      * rewrite !alloc_length. lia.
      * rewrite !alloc_length. lia.
    + exists (length m1), (m1 ++ [vadd (load m1 h) (load m1 x)]). split; [reflexivity|]. repeat split.
      * rewrite load_alloc_new. cbn [means]. now rewrite V, K.
      * intros a Ha. rewrite load_alloc_old by lia. auto.
      * rewrite alloc_length. lia.
      * rewrite alloc_length. lia.
  - exists h, m1. repeat split; auto.
Qed.

(** ** C135 *)
(** Whatever the tensors in the memory: when the modules that write into their
    argument come after one that makes a new tensor, and no element merges
    several transforms, the network is the composition of its blocks, a residual
    connection adds the transform of what entered the block, and no tensor of
    the caller is modified. *)
Theorem C135_network : forall bs x m, Forall tidy_block bs -> x < length m ->
  exists y m', net_fwd bs x m = (y, m') /\ load m' y = net_means bs (load m x) /\
    (forall a, a < length m -> load m' a = load m a).
Proof.
  intros bs x m H. revert x m. induction H as [|b bs Hb Hbs IH]; intros x m Hx.
  - exists x, m. repeat split; auto.
  - destruct (block_tidy b x m Hb Hx) as (y & m1 & E & V & K & B & L).
    destruct (IH y m1 B) as (z & m2 & E2 & V2 & K2). exists z, m2. cbn [net_fwd]. rewrite E. repeat split; auto.
    + rewrite V2. unfold net_means. cbn [fold_left]. now rewrite V.
    + intros a Ha. rewrite K2 by lia. auto.
Qed.

(** Without residual connection the output is right wherever the modules write. *)
Lemma sequential_simple ls : forall y m, Forall simple ls -> y < length m ->
  exists y' m', sequential ls y m = (y', m') /\ load m' y' = fold_left (fun v l => means l v) ls (load m y) /\
    y' < length m' /\ length m <= length m'.
Proof.
  induction ls as [|l ls IH]; intros y m Hs Hy.
  - exists y, m. cbn. repeat split; auto.
  - inversion Hs as [|? ? Hl Hls]; subst. destruct l as [f|f| |ts]; cbn [simple] in Hl; [| | |contradiction].
    + destruct (IH (length m) (m ++ [f (load m y)])) as (y' & m' & E & V & B & L); auto; [rewrite alloc_length; lia|].
      rewrite alloc_length in L. exists y', m'. cbn. repeat split; auto; try lia. now rewrite V, load_alloc_new.
    + destruct (IH y (store m y (f (load m y)))) as (y' & m' & E & V & B & L); auto; [rewrite store_length; lia|].
      rewrite store_length in L. exists y', m'. cbn. repeat split; auto. now rewrite V, load_store_eq.
    + destruct (IH y m) as (y' & m' & E & V & B & L); auto. exists y', m'. cbn. repeat split; auto.
Qed.
Theorem C135_no_residual : forall bs x m,
  Forall (fun b => Forall simple (b_structure b) /\ b_residual b = None) bs -> x < length m ->
  exists y m', net_fwd bs x m = (y, m') /\ load m' y = net_means bs (load m x).
Proof.
  intros bs x m H. revert x m. induction H as [|b bs [Hb Hr] Hbs IH]; intros x m Hx.
  - exists x, m. repeat split; auto.
  - destruct (sequential_simple (b_structure b) x m Hb Hx) as (y & m1 & E & V & B & L).
    destruct (IH y m1 B) as (z & m2 & E2 & V2). exists z, m2. cbn [net_fwd]. unfold block_fwd. rewrite E, Hr. split; auto.
    rewrite V2. unfold net_means. cbn [fold_left]. f_equal. unfold block_means. now rewrite Hr, V.
Qed.

(** A block that begins with a module writing into its argument: the residual
    connection receives what the module wrote, for every function. *)
Lemma inplace_residual f x m : x < length m ->
  exists y m', block_fwd {| b_structure := [InPlace f]; b_residual := Some Same |} x m = (y, m') /\
    load m' y = vadd (f (load m x)) (f (load m x)) /\ load m' x = f (load m x).
Proof.
  intros Hx. eexists. eexists. split; [reflexivity|]. rewrite load_alloc_new, load_store_eq by auto. split; [reflexivity|].
  rewrite load_alloc_old by (rewrite store_length; auto). now apply load_store_eq.
Qed.
Definition relu (v : list R) : list R := map (Rmax 0) v.
Theorem C135_inplace_residual_refuted : exists f x m y m',
  block_fwd {| b_structure := [InPlace f]; b_residual := Some Same |} x m = (y, m') /\
  load m' y <> block_means {| b_structure := [InPlace f]; b_residual := Some Same |} (load m x) /\
  load m' x <> load m x.
Proof.
  destruct (inplace_residual relu 0 [[(-1)%R]]) as (y & m' & E & V & W); [cbn; lia|].
  exists relu, 0, [[(-1)%R]], y, m'. split; [exact E|]. rewrite V, W. unfold load, block_means, relu, vadd. cbn.
  rewrite Rmax_left by lra. split; intros H; injection H; lra.
Qed.

(** ** Merged transforms *)
(** Inside a Sequential a MergeTransform receives one tensor: only its first
    transform is computed. *)
Theorem C135_merge_first_only : forall t ts x m, forward (Merge (t :: ts)) [x] m = forward t [x] m.
Proof. intros t ts x m. cbn [forward hd tl]. destruct (forward t [x] m) as [r m1]. destruct ts; reflexivity. Qed.
Theorem C135_merge_refuted : exists ts x m y m',
  net_fwd [{| b_structure := [Merge ts]; b_residual := None |}] x m = (y, m') /\ Forall quiet ts /\
  load m' y <> net_means [{| b_structure := [Merge ts]; b_residual := None |}] (load m x).
Proof.
  exists [Fresh (fun v => v); Fresh (fun v => v)], 0, [[1%R]]. eexists. eexists. split; [reflexivity|]. split.
  - repeat constructor.
  - cbn. intros H. injection H. lra.
Qed.

(** Called with as many tensors as transforms, the first making a new tensor, it
    is the sum of the transforms and the inputs are kept. *)
Fixpoint sum_means (acc : list R) (ts : list layer) (xs : list (list R)) : list R :=
  match ts, xs with t :: ts', x :: xs' => sum_means (vadd acc (means t x)) ts' xs' | _, _ => acc end.

Definition merge_rest (r : nat) : list layer -> list nat -> mem -> mem :=
  fix go (ts : list layer) (ins : list nat) (m : mem) {struct ts} : mem :=
    match ts, ins with
    | t :: ts', i :: ins' =>
        let (y, m2) := forward t [i] m in go ts' ins' (store m2 r (vadd (load m2 r) (load m2 y)))
    | _, _ => m
    end.
Lemma merge_rest_spec r n ts : Forall quiet ts -> forall ins m, n <= r -> r < length m -> Forall (fun i => i < n) ins ->
  length ins = length ts ->
  load (merge_rest r ts ins m) r = sum_means (load m r) ts (map (load m) ins) /\
  (forall a, a < n -> load (merge_rest r ts ins m) a = load m a).
Proof.
  induction 1 as [|t ts Ht Hts IH]; intros ins m Hn Hr Hi Hl; destruct ins as [|i ins]; cbn [length] in Hl; try lia;
    [split; reflexivity|].
  inversion Hi as [|? ? Hi0 Hi']; subst. cbn [merge_rest]. destruct t as [f|f| |ts']; cbn [quiet] in Ht; try contradiction.
  - cbn [forward hd]. unfold alloc.
    set (m2 := m ++ [f (load m i)]). set (m3 := store m2 r _).
    assert (L2 : length m2 = S (length m)) by apply alloc_length.
    assert (K : forall a, a < n -> load m3 a = load m a).
    { intros a Ha. unfold m3. rewrite load_store_neq by lia. unfold m2. apply load_alloc_old. lia. }
    destruct (IH ins m3) as [V W]; auto; [unfold m3; rewrite store_length; lia|].
    split.
    + rewrite V. cbn [map sum_means means]. f_equal.
      * unfold m3. rewrite load_store_eq by lia. unfold m2. now rewrite load_alloc_new, load_alloc_old.
      * apply map_ext_in. intros a Ha. apply K. rewrite Forall_forall in Hi'. auto.
    + intros a Ha. rewrite W by auto. auto.
  - cbn [forward hd]. set (m3 := store m r _).
    assert (K : forall a, a < n -> load m3 a = load m a) by (intros a Ha; unfold m3; apply load_store_neq; lia).
    destruct (IH ins m3) as [V W]; auto; [unfold m3; rewrite store_length; lia|].
    split.
    + rewrite V. cbn [map sum_means means]. f_equal.
      * unfold m3. now rewrite load_store_eq by lia.
      * apply map_ext_in. intros a Ha. apply K. rewrite Forall_forall in Hi'. auto.
    + intros a Ha. rewrite W by auto. auto.
Qed.
Theorem C135_merge_inputs : forall f ts x ins m, Forall quiet ts -> Forall (fun i => i < length m) (x :: ins) ->
  length ins = length ts ->
  exists y m', forward (Merge (Fresh f :: ts)) (x :: ins) m = (y, m') /\
    load m' y = sum_means (f (load m x)) ts (map (load m) ins) /\ (forall a, a < length m -> load m' a = load m a).
Proof.
  intros f ts x ins m Ht Hi Hl. inversion Hi as [|? ? Hx Hins]; subst.
  exists (length m), (merge_rest (length m) ts ins (m ++ [f (load m x)])). split; [reflexivity|].
  destruct (merge_rest_spec (length m) (length m) ts Ht ins (m ++ [f (load m x)])) as [V W]; auto;
    [rewrite alloc_length; lia|].
  split.
  - rewrite V, load_alloc_new. f_equal. apply map_ext_in. intros a Ha. apply load_alloc_old.
    rewrite Forall_forall in Hins. auto.
  - intros a Ha. rewrite W by auto. now apply load_alloc_old.
Qed.
(** When the first transform is the identity, the sum is written into the
    caller's tensor. *)
Theorem C135_merge_identity_refuted : forall g x i m, x < length m -> i < length m ->
  exists m', forward (Merge [Same; Fresh g]) [x; i] m = (x, m') /\
    load m' x = vadd (load m x) (g (load m i)).
Proof.
  intros g x i m Hx Hi. set (m2 := m ++ [g (load m i)]).
  exists (store m2 x (vadd (load m2 x) (load m2 (length m)))). split; [reflexivity|]. unfold m2.
  rewrite load_store_eq by (rewrite alloc_length; lia). now rewrite load_alloc_new, load_alloc_old.
Qed.

(** ** From the description *)
Definition no_bar (s : list ascii) : Prop := Forall (fun c => c <> "|"%char) s.
Lemma no_bar_app s t : no_bar s -> no_bar t -> no_bar (s ++ t).
Proof. intros; apply Forall_app; auto. Qed.
Lemma no_bar_join sep l : sep <> "|"%char -> Forall no_bar l -> no_bar (join sep l).
Proof.
  intros Hs H. induction H as [|p l Hp Hl IH]; [constructor|]. destruct l as [|q l]; [exact Hp|].
  change (join sep (p :: q :: l)) with (p ++ sep :: join sep (q :: l)). apply no_bar_app; auto. constructor; auto.
Qed.
Definition good_elem (e : list ascii * list (list ascii * list ascii)) : Prop :=
  plain (fst e) /\ Forall (fun kv => plain (fst kv) /\ plain (snd kv)) (snd e) /\ NoDup (map fst (snd e)) /\
  no_bar (fst e) /\ Forall (fun kv => no_bar (fst kv) /\ no_bar (snd kv)) (snd e).
Lemma render_no_bar e : good_elem e -> no_bar (render (fst e) (snd e) ";").
Proof.
  intros (_ & _ & _ & Hn & Hk). unfold render. destruct (snd e) as [|kv kw]; [exact Hn|].
  apply no_bar_app; auto. constructor; [discriminate|]. apply no_bar_join; [discriminate|].
  apply Forall_map. eapply Forall_impl; [|exact Hk]. cbn. intros p [A B]. apply no_bar_app; auto. constructor; auto. discriminate.
Qed.

Lemma Forall2_impl {A B} (P Q : A -> B -> Prop) l l' : (forall a b, P a b -> Q a b) -> Forall2 P l l' -> Forall2 Q l l'.
Proof. intros H. induction 1; constructor; auto. Qed.

Section Created.
  Context {val : Type}.
  Variable torch_nn : str -> option (list (str * val) -> result layer).
  Variable literal_eval : str -> result val.
  Variable transpose : list R -> list R.

  (** What an element stands for: the name is looked up in torch.nn, then among
      the three modules of the repository. *)
  Inductive known (name : string) (kw : list (str * val)) : layer -> Prop :=
  | known_torch f l : torch_nn (list_ascii_of_string name) = Some f -> f kw = Ok l -> known name kw l
  | known_reshape v : torch_nn (list_ascii_of_string name) = None -> name = "ReshapeLayer"%string ->
      kw = [(list_ascii_of_string "shape", v)] -> known name kw Same
  | known_transpose : torch_nn (list_ascii_of_string name) = None -> name = "TransposeLayer"%string -> kw = [] ->
      known name kw (Fresh transpose)
  | known_identity : torch_nn (list_ascii_of_string name) = None -> name = "IdentityLayer"%string -> kw = [] ->
      known name kw Same.
  Definition builds (e : list ascii * list (list ascii * list ascii)) (l : layer) : Prop :=
    exists kw, Forall2 (fun kv kv' => fst kv' = fst kv /\ literal_eval (snd kv) = Ok (snd kv')) (snd e) kw /\
      known (string_of_list_ascii (fst e)) kw l.

  Lemma mapM_forall2 {A B} (f : A -> result B) l l' : Forall2 (fun a b => f a = Ok b) l l' -> mapM f l = Ok l'.
  Proof. induction 1 as [|a b l l' H Hl IH]; [reflexivity|]. cbn. now rewrite H, IH. Qed.

  Lemma create_one_builds e l : good_elem e -> builds e l ->
    create_one torch_nn literal_eval transpose (render (fst e) (snd e) ";") = Ok l.
  Proof.
    intros (H1 & H2 & H3 & _) (kw & Hkw & Hk). unfold create_one. rewrite C98_roundtrip by auto. cbn [bindr].
    rewrite (mapM_forall2 _ (snd e) kw).
    2:{ eapply Forall2_impl; [|exact Hkw]. cbn. intros [k v] [k' v'] [A B]. cbn in *. now rewrite B, A. }
    inversion Hk as [f l' T F|v T N K|T N K|T N K]; subst; rewrite list_ascii_of_string_of_list_ascii in T; rewrite T.
    - exact F.
    - apply (f_equal list_ascii_of_string) in N. rewrite list_ascii_of_string_of_list_ascii in N. rewrite N. reflexivity.
    - apply (f_equal list_ascii_of_string) in N. rewrite list_ascii_of_string_of_list_ascii in N. rewrite N. reflexivity.
    - apply (f_equal list_ascii_of_string) in N. rewrite list_ascii_of_string_of_list_ascii in N. rewrite N. reflexivity.
  Qed.

  (** For every description made of named elements separated by "|" *)
  Theorem C135_create_element : forall es ls, es <> [] -> Forall good_elem es -> Forall2 builds es ls ->
    create_nnet_element torch_nn literal_eval transpose (join "|" (map (fun e => render (fst e) (snd e) ";") es)) =
    Ok (match ls with [l] => l | _ => Merge ls end).
  Proof.
    intros es ls Hne Hg Hb. unfold create_nnet_element. rewrite split_join.
    - rewrite (mapM_forall2 _ _ ls).
      + cbn [bindr]. destruct ls as [|l [|l' ls]]; reflexivity.
      + clear Hne. induction Hb as [|e l es ls He Hes IH]; [constructor|]. inversion Hg; subst.
        constructor; [now apply create_one_builds|auto].
    - destruct es; [congruence|discriminate].
    - apply Forall_map. eapply Forall_impl; [|exact Hg]. intros e He. now apply render_no_bar.
  Qed.

  (** Any other name is a ValueError, whatever the arguments. *)
  Theorem C135_unknown_element : forall name kwargs, good_elem (name, kwargs) ->
    torch_nn name = None ->
    ~ In (string_of_list_ascii name) ["ReshapeLayer"; "TransposeLayer"; "IdentityLayer"]%string ->
    create_nnet_element torch_nn literal_eval transpose (render name kwargs ";") = Err ValueError.
  Proof.
    intros name kwargs Hg T N. unfold create_nnet_element.
    rewrite split_on_none by (apply (render_no_bar (name, kwargs)); auto). destruct Hg as (H1 & H2 & H3 & _).
    cbn [mapM]. unfold create_one. cbn [fst snd] in *. rewrite C98_roundtrip by auto. cbn [bindr]. rewrite T.
    assert (Z : forall s, In s ["ReshapeLayer"; "TransposeLayer"; "IdentityLayer"]%string ->
      str_eqb name (list_ascii_of_string s) = false).
    { intros s Hs. apply not_true_is_false. intros E. apply str_eqb_eq in E. apply N. rewrite E, string_of_list_ascii_of_string. exact Hs. }
    rewrite !Z by (cbn; tauto). reflexivity.
  Qed.

  (** The layers of this module accept no other arguments than their own. *)
  Theorem C135_wrong_arguments : forall name kwargs kw, good_elem (list_ascii_of_string name, kwargs) ->
    Forall2 (fun kv kv' => fst kv' = fst kv /\ literal_eval (snd kv) = Ok (snd kv')) kwargs kw ->
    torch_nn (list_ascii_of_string name) = None ->
    (name = "ReshapeLayer"%string /\ map fst kwargs <> [list_ascii_of_string "shape"]) \/
    (In name ["TransposeLayer"; "IdentityLayer"]%string /\ kwargs <> []) ->
    create_nnet_element torch_nn literal_eval transpose (render (list_ascii_of_string name) kwargs ";") = Err TypeError.
  Proof.
    intros name kwargs kw Hg Hkw T H. unfold create_nnet_element.
    rewrite split_on_none by (apply (render_no_bar (list_ascii_of_string name, kwargs)); auto).
    destruct Hg as (H1 & H2 & H3 & _).
    cbn [mapM]. unfold create_one. cbn [fst snd] in *. rewrite C98_roundtrip by auto. cbn [bindr]. rewrite T.
    rewrite (mapM_forall2 _ kwargs kw).
    2:{ eapply Forall2_impl; [|exact Hkw]. cbn. intros [k v] [k' v'] [A B]. cbn in *. now rewrite B, A. }
    destruct H as [[-> Hk]|[[<-|[<-|[]]] Hk]].
    - rewrite (proj2 (str_eqb_eq _ _) eq_refl). cbn [bindr].
      inversion Hkw as [|[k1 v1] [k v] l l' [Ek _] Hr]; subst; [reflexivity|].
      cbn [fst] in Ek. subst k1. inversion Hr as [|x y xs ys Hx Hxs]; subst; [|now destruct y].
      destruct (str_eqb k (list_ascii_of_string "shape")) eqn:E; [|reflexivity].
      apply str_eqb_eq in E. subst k. now destruct Hk.
    - change (str_eqb (list_ascii_of_string "TransposeLayer") (list_ascii_of_string "ReshapeLayer")) with false.
      rewrite (proj2 (str_eqb_eq _ _) eq_refl). cbn [bindr].
      inversion Hkw; subst; [now destruct Hk|reflexivity].
    - change (str_eqb (list_ascii_of_string "IdentityLayer") (list_ascii_of_string "ReshapeLayer")) with false.
      change (str_eqb (list_ascii_of_string "IdentityLayer") (list_ascii_of_string "TransposeLayer")) with false.
      rewrite (proj2 (str_eqb_eq _ _) eq_refl). cbn [bindr].
      inversion Hkw; subst; [now destruct Hk|reflexivity].
  Qed.

  (** A network has one block for each configuration and one layer for each
      description, in order; a residual connection exactly where one is given. *)
  Lemma mapM_inv {A B} (f : A -> result B) l l' : mapM f l = Ok l' -> Forall2 (fun a b => f a = Ok b) l l'.
  Proof.
    revert l'. induction l as [|a l IH]; cbn; intros l' H.
    - injection H as <-. constructor.
    - destruct (f a) as [b|] eqn:E; cbn in H; [|discriminate]. destruct (mapM f l) as [bs|]; cbn in H; [|discriminate].
      injection H as <-. constructor; auto.
  Qed.
  Theorem C135_create_net : forall cs bs, create_net torch_nn literal_eval transpose cs = Ok bs <->
    Forall2 (fun c b =>
      Forall2 (fun s l => create_nnet_element torch_nn literal_eval transpose s = Ok l) (c_structure c) (b_structure b) /\
      match c_residual c, b_residual b with
      | None, None => True
      | Some s, Some l => create_nnet_element torch_nn literal_eval transpose s = Ok l
      | _, _ => False
      end) cs bs.
  Proof.
    intros cs bs. split.
    - intros H. apply mapM_inv in H. eapply Forall2_impl; [|exact H]. intros [st rs] b E.
      unfold create_nnet_block in E. cbn [c_structure c_residual] in *.
      destruct (mapM _ st) as [ls|] eqn:Es; cbn [bindr] in E; [|discriminate]. apply mapM_inv in Es.
      destruct rs as [s|].
      + destruct (create_nnet_element _ _ _ s) as [l|] eqn:Er; cbn [bindr] in E; [|discriminate]. injection E as <-. cbn. auto.
      + injection E as <-. cbn. auto.
    - intros H. apply mapM_forall2. eapply Forall2_impl; [|exact H]. intros [st rs] [ls lr] [A B].
      cbn [c_structure c_residual b_structure b_residual] in *. unfold create_nnet_block. cbn [c_structure c_residual].
      rewrite (mapM_forall2 _ _ _ A). cbn [bindr]. destruct rs, lr; try contradiction; [|reflexivity]. rewrite B. reflexivity.
  Qed.
End Created.

(** ** Examples *)
Example C135_example_residual :
  let b := {| b_structure := [Fresh (map (Rmult 2)); InPlace (map (Rplus 1))]; b_residual := Some Same |} in
  let r := net_fwd [b; b] 0 [[3%R]] in
  load (snd r) (fst r) = [31%R] /\ load (snd r) 0 = [3%R].
Proof. cbn. split; [f_equal; lra | reflexivity]. Qed.
Example C135_example_create :
  create_nnet_element (val := nat) (fun n => if str_eqb n (list_ascii_of_string "Tanh") then Some (fun kw => Ok (Fresh (fun v => v))) else None)
    (fun s => Ok (List.length s)) (fun v => v) (list_ascii_of_string "ReshapeLayer : shape=(1,-1) | Tanh | IdentityLayer") =
  Ok (Merge [Same; Fresh (fun v => v); Same]).
Proof. reflexivity. Qed.
Example C135_example_unknown :
  create_nnet_element (val := nat) (fun n => None) (fun s => Ok (List.length s)) (fun v => v) (list_ascii_of_string "Linea:in=3") = Err ValueError /\
  create_nnet_element (val := nat) (fun n => None) (fun s => Ok (List.length s)) (fun v => v) (list_ascii_of_string "ReshapeLayer") = Err TypeError.
Proof. split; reflexivity. Qed.

Print Assumptions C135_network.
Print Assumptions C135_no_residual.
Print Assumptions C135_inplace_residual_refuted.
Print Assumptions C135_merge_first_only.
Print Assumptions C135_merge_refuted.
Print Assumptions C135_merge_inputs.
Print Assumptions C135_merge_identity_refuted.
Print Assumptions C135_create_element.
Print Assumptions C135_unknown_element.
Print Assumptions C135_create_net.
Print Assumptions C135_wrong_arguments.
