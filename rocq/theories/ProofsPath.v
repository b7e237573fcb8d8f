(** * [at_path], and the paths reported in contexts. *)
From Coq Require Import Permutation.
From Verif Require Import Prelim PrelimFacts Spec SpecFacts ModelNode NodeFacts.

(** ** Following a path *)
Lemma iter_nth_spec {A} (l : list A) : forall i, iter_nth l i = nth_error l (N.to_nat i).
Proof.
  induction l as [|x l IH]; intros i; cbn [iter_nth]; [destruct (N.to_nat i); reflexivity|].
  destruct (N.eqb_spec i 0) as [->|Hi]; [reflexivity|].
  rewrite IH, N2Nat.inj_sub; change (N.to_nat 1) with 1.
  destruct (N.to_nat i) eqn:E; [lia|]; cbn; rewrite Nat.sub_0_r; reflexivity.
Qed.

Section Nary.
  Context {Nd V : Type} (gvc : Nd -> V * list Nd) (nt : Nd -> tree Nd).
  Hypothesis Hnt : node_tree gvc nt.

  Lemma at_path_spec p : forall n, at_path gvc n p = option_map root (subtree_at (nt n) (map N.to_nat p)).
  Proof.
    induction p as [|i p IH]; intros n; cbn; [rewrite (nt_root _ _ Hnt); reflexivity|].
    rewrite iter_nth_spec, (nt_unfold _ _ Hnt n); cbn [subs]; rewrite nth_error_map.
    unfold nkids; destruct (nth_error (snd (gvc n)) (N.to_nat i)); cbn; [apply IH|reflexivity].
  Qed.

  Lemma at_path_of_nat p n : at_path gvc n (map N.of_nat p) = option_map root (subtree_at (nt n) p).
  Proof.
    rewrite at_path_spec, map_map; do 2 f_equal; rewrite <- map_id; apply map_ext; intros; apply Nat2N.id.
  Qed.

  Lemma sub_nt p : forall n t, subtree_at (nt n) p = Some t -> t = nt (root t).
  Proof.
    induction p as [|i p IH]; intros n t; cbn.
    - intros [= <-]; rewrite (nt_root _ _ Hnt); reflexivity.
    - rewrite (nt_unfold _ _ Hnt n); cbn [subs]; rewrite nth_error_map.
      destruct (nth_error (nkids gvc n) i); cbn; [apply IH|discriminate].
  Qed.
End Nary.

Section Binary.
  Context {Nd V : Type} (gvcb : Nd -> V * (option Nd * option Nd)) (bt : Nd -> btree Nd).
  Hypothesis Hbt : node_btree gvcb bt.

  Lemma bt_kid n i : bchild (bt n) i = option_map bt (match nth_error (pair_iter (snd (gvcb n))) i with Some o => o | None => None end).
  Proof. rewrite Hbt; destruct i as [|[|i]]; cbn; [reflexivity|reflexivity|destruct i; reflexivity]. Qed.
  Lemma bt_root n : broot (bt n) = n.
  Proof. rewrite Hbt; reflexivity. Qed.

  Lemma at_path_binary_spec p : forall n, at_path_binary gvcb n p = option_map broot (bsubtree_at (bt n) (map N.to_nat p)).
  Proof.
    induction p as [|i p IH]; intros n; cbn [at_path_binary map bsubtree_at]; [cbn; rewrite bt_root; reflexivity|].
    rewrite iter_nth_spec, bt_kid.
    destruct (nth_error (pair_iter (snd (gvcb n))) (N.to_nat i)) as [[c|]|]; cbn; [apply IH|reflexivity|reflexivity].
  Qed.

  Lemma at_path_binary_of_nat p n : at_path_binary gvcb n (map N.of_nat p) = option_map broot (bsubtree_at (bt n) p).
  Proof.
    rewrite at_path_binary_spec, map_map; do 2 f_equal; rewrite <- map_id; apply map_ext; intros; apply Nat2N.id.
  Qed.

  Lemma bsub_bt p : forall n t, bsubtree_at (bt n) p = Some t -> t = bt (broot t).
  Proof.
    induction p as [|i p IH]; intros n t; cbn [bsubtree_at].
    - intros [= <-]; rewrite bt_root; reflexivity.
    - rewrite bt_kid; destruct (nth_error (pair_iter (snd (gvcb n))) i) as [[c|]|]; cbn; [apply IH|discriminate|discriminate].
  Qed.
End Binary.

Lemma tree_at_path {A} (t : tree A) p : at_path tree_gvc t p = subtree_at t (map N.to_nat p).
Proof.
  revert t; induction p as [|i p IH]; intros [v ts]; cbn; [reflexivity|].
  rewrite iter_nth_spec; destruct (nth_error ts (N.to_nat i)); [apply IH|reflexivity].
Qed.
Lemma btree_at_path {A} (t : btree A) p : at_path_binary btree_gvcb t p = bsubtree_at t (map N.to_nat p).
Proof.
  revert t; induction p as [|i p IH]; intros [v l r]; cbn [at_path_binary map bsubtree_at]; [reflexivity|].
  rewrite iter_nth_spec; cbn [btree_gvcb snd pair_iter fst bchild].
  destruct (N.to_nat i) as [|[|j]]; cbn.
  - destruct l; [apply IH|reflexivity].
  - destruct r; [apply IH|reflexivity].
  - destruct j; reflexivity.
Qed.

(** ** Positions: the path leads to the node, the values above are those met on the way. *)
Definition along {A T} (rt : T -> A) (at_ : list nat -> option T) (path : list nat) (vals : list A) : Prop :=
  length vals = S (length path) /\
  forall i, i <= length path -> exists t, at_ (firstn i path) = Some t /\ nth_error vals i = Some (rt t).

Lemma along_nil {A T} (rt : T -> A) at_ (t : T) : at_ [] = Some t -> along rt at_ [] [rt t].
Proof.
  intros E; split; [reflexivity|]; intros i Hi; cbn in Hi; replace i with 0 by lia; exists t; split; [exact E|reflexivity].
Qed.

Lemma along_cons {A T} (rt : T -> A) at_ (at' : list nat -> option T) i (t : T) path vals :
  at_ [] = Some t -> (forall q, at_ (i :: q) = at' q) -> along rt at' path vals -> along rt at_ (i :: path) (rt t :: vals).
Proof.
  intros E0 E [HL H]; split; [cbn; rewrite HL; reflexivity|].
  intros [|j] Hj; [exists t; split; [exact E0|reflexivity]|].
  destruct (H j) as (t' & Ha & Hv); [cbn in Hj; lia|]; exists t'; split; [cbn; rewrite E; exact Ha|exact Hv].
Qed.

Lemma in_mapi {A B} (f : nat -> A -> B) y l : forall i, In y (mapi f i l) -> exists j x, nth_error l j = Some x /\ y = f (i + j) x.
Proof.
  induction l as [|x l IH]; intros i; cbn; [intros []|].
  intros [<-|H]; [exists 0, x; rewrite Nat.add_0_r; split; reflexivity|].
  destruct (IH _ H) as (j & x' & Hj & ->); exists (S j), x'; split; [exact Hj|f_equal; lia].
Qed.

Lemma annotate_along {A} (t : tree A) : forall p ab q, In q (preorder (annotate p ab t)) ->
  exists path mid, pos_path q = p ++ path /\ pos_above q = ab ++ mid /\ along root (subtree_at t) path (mid ++ [pos_here q]).
Proof.
  induction t as [v ts IH] using tree_ind'; intros p ab q; cbn.
  intros [<-|H].
  - exists [], []; cbn; rewrite !app_nil_r; split; [reflexivity|split; [reflexivity|]].
    change [v] with [root (TNode v ts)]; apply along_nil; reflexivity.
  - apply in_flat_map in H as (x & Hx & Hq); apply in_mapi in Hx as (j & c & Hj & ->).
    rewrite Forall_forall in IH; destruct (IH c (nth_error_In _ _ Hj) _ _ _ Hq) as (path & mid & -> & -> & Ha).
    exists (j :: path), (v :: mid); rewrite <- !app_assoc; split; [reflexivity|split; [reflexivity|]].
    cbn [app]; change v with (root (TNode v ts)) at 2; eapply along_cons; [reflexivity| |exact Ha].
    intros; cbn; rewrite Hj; reflexivity.
Qed.

Lemma bannotate_along {A} (t : btree A) : forall p ab q, In q (preorder (flat (bannotate p ab t))) ->
  exists path mid, pos_path q = p ++ path /\ pos_above q = ab ++ mid /\ along broot (bsubtree_at t) path (mid ++ [pos_here q]).
Proof.
  induction t as [v l r IHl IHr] using btree_ind'; intros p ab q; cbn.
  intros [<-|H].
  - exists [], []; cbn; rewrite !app_nil_r; split; [reflexivity|split; [reflexivity|]].
    change [v] with [broot (BNode v l r)]; apply along_nil; reflexivity.
  - rewrite flat_map_app in H; apply in_app_or in H as [H|H].
    + destruct l as [l|]; [|destruct H]; cbn in H; rewrite app_nil_r in H.
      destruct (IHl _ _ _ H) as (path & mid & -> & -> & Ha).
      exists (0 :: path), (v :: mid); rewrite <- !app_assoc; split; [reflexivity|split; [reflexivity|]].
      cbn [app]; change v with (broot (BNode v (Some l) r)) at 2; eapply along_cons; [reflexivity| |exact Ha]; reflexivity.
    + destruct r as [r|]; [|destruct H]; cbn in H; rewrite app_nil_r in H.
      destruct (IHr _ _ _ H) as (path & mid & -> & -> & Ha).
      exists (1 :: path), (v :: mid); rewrite <- !app_assoc; split; [reflexivity|split; [reflexivity|]].
      cbn [app]; change v with (broot (BNode v l (Some r))) at 2; eapply along_cons; [reflexivity| |exact Ha]; reflexivity.
Qed.

(** ** What is given is what is yielded *)
Lemma yields_gives {S A} (next : nat -> S -> Res (option A * S)) s l c : yields next s l -> gives next s c -> In c l.
Proof.
  intros Hy (k & os & s' & Hc & Hin); destruct (Hy k) as (s'' & Hk).
  pose proof (conv_fun _ _ _ Hc Hk) as E; injection E as -> ->.
  apply in_map_iff in Hin as (i & Hi & _); eapply nth_error_In; exact Hi.
Qed.
Lemma gives_yields {S A} (next : nat -> S -> Res (option A * S)) s l c : yields next s l -> In c l -> gives next s c.
Proof.
  intros Hy Hin; apply In_nth_error in Hin as (i & Hi).
  destruct (Hy (Datatypes.S i)) as (s' & Hk); do 3 eexists; split; [exact Hk|].
  rewrite <- Hi; apply (in_map (nth_error l)), in_seq; lia.
Qed.

(** ** A context placed in a tree *)
Definition met {Nd V C} (gv : Nd -> V * C) (at_ : list N -> option Nd) (path : list N) (anc : list V) : Prop :=
  length anc = S (length path) /\
  forall i, i <= length path -> exists m, at_ (firstn i path) = Some m /\ nth_error anc i = Some (nval gv m).

Lemma last_opt_snoc {A} (l : list A) x : last_opt (l ++ [x]) = Some x.
Proof.
  unfold last_opt; rewrite app_length; cbn; rewrite Nat.add_sub, nth_error_app2 by auto; rewrite Nat.sub_diag; reflexivity.
Qed.

Lemma met_last {Nd V C} (gv : Nd -> V * C) at_ path anc : met gv at_ path anc ->
  exists m, at_ path = Some m /\ last_opt anc = Some (nval gv m).
Proof.
  intros [HL H]; destruct (H (length path)) as (m & Ha & Hv); [auto|]; rewrite firstn_all in Ha.
  exists m; split; [exact Ha|unfold last_opt; rewrite HL; cbn; rewrite Nat.sub_0_r; exact Hv].
Qed.

Lemma nth_firstn_S {A} (l : list A) : forall i x, nth_error l i = Some x -> firstn (S i) l = firstn i l ++ [x].
Proof.
  induction l as [|y l IH]; intros [|i] x; cbn; try discriminate.
  - intros [= ->]; reflexivity.
  - intros H; f_equal; apply IH, H.
Qed.

Section NaryCtx.
  Context {Nd V : Type} (gvc : Nd -> V * list Nd) (nt : Nd -> tree Nd).
  Hypothesis Hnt : node_tree gvc nt.

  Lemma context_met n q : In q (preorder (positions (nt n))) ->
    met gvc (at_path gvc n) (c_path (context_at gvc q)) (c_ancestors (context_at gvc q)) /\
    exists m, at_path gvc n (c_path (context_at gvc q)) = Some m /\ c_children (context_at gvc q) = Some (nkids gvc m).
  Proof.
    intros H; destruct (annotate_along _ _ _ _ H) as (path & mid & Ep & Ea & HL & Hal); cbn in Ep, Ea.
    rewrite <- Ep, <- Ea in *; clear path mid Ep Ea.
    assert (Hm : met gvc (at_path gvc n) (c_path (context_at gvc q)) (c_ancestors (context_at gvc q))).
    { split; cbn [context_at c_path c_ancestors]; rewrite !map_length; [exact HL|].
      intros i Hi; destruct (Hal i Hi) as (t & Ht & Hv); exists (root t).
      rewrite firstn_map, (at_path_of_nat _ _ Hnt), Ht, nth_error_map, Hv; split; reflexivity. }
    split; [exact Hm|].
    destruct (Hal (length (pos_path q))) as (t & Ht & Hv); [auto|]; rewrite firstn_all in Ht.
    exists (root t); cbn; rewrite (at_path_of_nat _ _ Hnt), Ht; split; [reflexivity|].
    rewrite nth_error_app2 in Hv by (rewrite app_length in HL; cbn in HL; lia).
    rewrite app_length in HL; cbn in HL; replace (_ - _) with 0 in Hv by lia; injection Hv as ->; reflexivity.
  Qed.

  Lemma at_path_snoc n p i m' : at_path gvc n (p ++ [i]) = Some m' ->
    exists m, at_path gvc n p = Some m /\ nth_error (nkids gvc m) (N.to_nat i) = Some m'.
  Proof.
    revert n; induction p as [|j p IH]; intros n; cbn.
    - rewrite iter_nth_spec; intros H; exists n; split; [reflexivity|].
      unfold nkids; destruct (nth_error (snd (gvc n)) (N.to_nat i)); [exact H|discriminate].
    - rewrite iter_nth_spec; destruct (nth_error (snd (gvc n)) (N.to_nat j)); [apply IH|discriminate].
  Qed.

  Lemma met_index n path anc : met gvc (at_path gvc n) path anc -> forall i x, nth_error path i = Some x ->
    exists m, at_path gvc n (firstn i path) = Some m /\ (x < N.of_nat (length (nkids gvc m)))%N.
  Proof.
    intros [HL H] i x Hx.
    destruct (H (S i)) as (m' & Ha & _); [apply nth_error_Some; congruence|].
    rewrite (nth_firstn_S _ _ _ Hx) in Ha; destruct (at_path_snoc _ _ _ _ Ha) as (m & Hm & Hk).
    exists m; split; [exact Hm|].
    assert (N.to_nat x < length (nkids gvc m)) by (apply nth_error_Some; congruence); lia.
  Qed.

  Lemma small_at n p m : small_nodes gvc (nt n) -> at_path gvc n p = Some m -> (N.of_nat (length (nkids gvc m)) <= usize_max)%N.
  Proof.
    intros Hs; revert n Hs; induction p as [|i p IH]; intros n Hs; cbn.
    - intros [= <-]; unfold small_nodes in Hs; rewrite (nt_unfold _ _ Hnt n) in Hs; inversion Hs; assumption.
    - rewrite iter_nth_spec; destruct (nth_error (snd (gvc n)) (N.to_nat i)) as [c|] eqn:E; [|discriminate].
      apply IH; unfold small_nodes in *; rewrite (nt_unfold _ _ Hnt n) in Hs; inversion Hs as [|? ? _ Hf]; subst.
      rewrite Forall_forall in *; intros x Hx; apply Hf, in_flat_map; exists (nt c); split; [|exact Hx].
      apply in_map; eapply nth_error_In; exact E.
  Qed.
End NaryCtx.

Section BinaryCtx.
  Context {Nd V : Type} (gvcb : Nd -> V * (option Nd * option Nd)) (bt : Nd -> btree Nd).
  Hypothesis Hbt : node_btree gvcb bt.

  Lemma bcontext_met n q : In q (preorder (flat (bpositions (bt n)))) ->
    met gvcb (at_path_binary gvcb n) (c_path (context_at gvcb q)) (c_ancestors (context_at gvcb q)) /\
    exists m, at_path_binary gvcb n (c_path (context_at gvcb q)) = Some m /\ c_children (context_at gvcb q) = Some (nkids gvcb m).
  Proof.
    intros H; destruct (bannotate_along _ _ _ _ H) as (path & mid & Ep & Ea & HL & Hal); cbn in Ep, Ea.
    rewrite <- Ep, <- Ea in *; clear path mid Ep Ea.
    assert (Hm : met gvcb (at_path_binary gvcb n) (c_path (context_at gvcb q)) (c_ancestors (context_at gvcb q))).
    { split; cbn [context_at c_path c_ancestors]; rewrite !map_length; [exact HL|].
      intros i Hi; destruct (Hal i Hi) as (t & Ht & Hv); exists (broot t).
      rewrite firstn_map, (at_path_binary_of_nat _ _ Hbt), Ht, nth_error_map, Hv; split; reflexivity. }
    split; [exact Hm|].
    destruct (Hal (length (pos_path q))) as (t & Ht & Hv); [auto|]; rewrite firstn_all in Ht.
    exists (broot t); cbn; rewrite (at_path_binary_of_nat _ _ Hbt), Ht; split; [reflexivity|].
    rewrite nth_error_app2 in Hv by (rewrite app_length in HL; cbn in HL; lia).
    rewrite app_length in HL; cbn in HL; replace (_ - _) with 0 in Hv by lia; injection Hv as ->; reflexivity.
  Qed.

  Lemma at_path_binary_snoc n p i m' : at_path_binary gvcb n (p ++ [i]) = Some m' ->
    exists m, at_path_binary gvcb n p = Some m /\ nth_error (pair_iter (nkids gvcb m)) (N.to_nat i) = Some (Some m').
  Proof.
    revert n; induction p as [|j p IH]; intros n; cbn [app at_path_binary].
    - rewrite iter_nth_spec; intros H; exists n; split; [reflexivity|].
      unfold nkids; destruct (nth_error (pair_iter (snd (gvcb n))) (N.to_nat i)) as [[c|]|]; [congruence|discriminate|discriminate].
    - destruct (iter_nth (pair_iter (snd (gvcb n))) j) as [[c|]|]; [apply IH|discriminate|discriminate].
  Qed.

  Lemma bmet_index n path anc : met gvcb (at_path_binary gvcb n) path anc -> forall i x, nth_error path i = Some x ->
    exists m, at_path_binary gvcb n (firstn i path) = Some m /\
      ((x = 0%N /\ fst (nkids gvcb m) <> None) \/ (x = 1%N /\ snd (nkids gvcb m) <> None)).
  Proof.
    intros [HL H] i x Hx.
    destruct (H (S i)) as (m' & Ha & _); [apply nth_error_Some; congruence|].
    rewrite (nth_firstn_S _ _ _ Hx) in Ha; destruct (at_path_binary_snoc _ _ _ _ Ha) as (m & Hm & Hk).
    exists m; split; [exact Hm|].
    destruct (N.to_nat x) as [|[|j]] eqn:E; cbn in Hk.
    - left; split; [lia|congruence].
    - right; split; [lia|congruence].
    - destruct j; discriminate.
  Qed.
End BinaryCtx.
