(** * From nodes to the crate's own trees, and between the two views of binary trees. *)
From Coq Require Import Permutation.
From Verif Require Import Prelim PrelimFacts Spec SpecFacts ModelNode NodeFacts ModelBfs ModelPre ModelPost ModelIn.
From Verif Require Import ProofsPlain.

Lemma nval_tree {A} (t : tree A) : nval tree_gvc t = root t.
Proof. destruct t; reflexivity. Qed.
Lemma nval_btree {A} (t : btree A) : nval btree_gvcb t = broot t.
Proof. destruct t; reflexivity. Qed.
Lemma nval_bbtree {A} (t : btree A) : nval (binary_gvc btree_gvcb) t = broot t.
Proof. rewrite nval_binary; apply nval_btree. Qed.

(** Values of the nodes of a [Tree<T>], in any order given by [f] that commutes with maps. *)
Lemma values_tree {A} (f : forall X, tree X -> list X) (t : tree A) :
  (forall X Y (g : X -> Y) t, f Y (tree_map g t) = map g (f X t)) ->
  map (nval tree_gvc) (f _ (subtrees t)) = f _ t.
Proof.
  intros H; rewrite <- H.
  rewrite (tree_map_ext _ root) by apply nval_tree; rewrite subtrees_root; reflexivity.
Qed.

Lemma values_btree {A} (f : forall X, tree X -> list X) (t : btree A) :
  (forall X Y (g : X -> Y) t, f Y (tree_map g t) = map g (f X t)) ->
  map (nval (binary_gvc btree_gvcb)) (f _ (flat (bsubtrees t))) = f _ (flat t).
Proof.
  intros H; rewrite <- H, <- flat_btree_map.
  rewrite (btree_map_ext _ broot) by apply nval_bbtree; rewrite bsubtrees_root; reflexivity.
Qed.

Lemma inorder_values {A} (t : btree A) : map (nval btree_gvcb) (inorder (bsubtrees t)) = inorder t.
Proof.
  rewrite <- inorder_map; rewrite (btree_map_ext _ broot) by apply nval_btree; rewrite bsubtrees_root; reflexivity.
Qed.

(** Ancestors do not depend on how children are numbered. *)
Definition line {A} (p : pos A) : list A := pos_above p ++ [pos_here p].

Lemma line_flat {A} (t : btree A) : forall p q ab,
  tree_map line (annotate p ab (flat t)) = tree_map line (flat (bannotate q ab t)).
Proof.
  induction t as [v l r IHl IHr] using btree_ind'; intros p q ab; cbn; f_equal.
  destruct l as [l|], r as [r|]; cbn in *; rewrite ?map_app; cbn;
    rewrite ?(IHl _ (q ++ [0])), ?(IHr _ (q ++ [1])); reflexivity.
Qed.

Lemma ancestors_flat {Nd V} (gvcb : Nd -> V * (option Nd * option Nd)) (f : forall X, tree X -> list X) (t : btree Nd) :
  (forall X Y (g : X -> Y) t, f Y (tree_map g t) = map g (f X t)) ->
  map (ancestors_at (binary_gvc gvcb)) (f _ (positions (flat t))) = map (ancestors_at gvcb) (f _ (flat (bpositions t))).
Proof.
  intros H.
  assert (E : forall {C} (gv : Nd -> V * C) (l : list (pos Nd)),
             map (ancestors_at gv) l = map (map (nval gv)) (map line l)) by (intros; rewrite map_map; reflexivity).
  rewrite !E, <- !H; unfold positions, bpositions; rewrite (line_flat t [] []).
  f_equal; apply tree_map_ext; intros l; apply map_ext; intros n; apply nval_binary.
Qed.

(** ** The state of an iterator after [k] calls: has it started? *)
Section Started.
  Context {Nd V : Type} (gvc : Nd -> V * list Nd).

  Definition call_inv {S O} (next : nat -> S -> Res (O * S)) (P : S -> Prop) : Prop :=
    forall f s o s', next f s = Ok (o, s') -> P s'.

  Lemma call_inv_after {S O} (next : nat -> S -> Res (O * S)) P k s s' :
    call_inv next P -> after next (Datatypes.S k) s s' -> P s'.
  Proof.
    intros H [os [F HF]]; specialize (HF F (le_n _)).
    revert s os HF; induction k as [|k IH]; intros s os HF; cbn in HF.
    - destruct (next F s) as [[o s1]| | |] eqn:E; cbn in HF; try discriminate.
      injection HF as <- <-; eapply H; exact E.
    - destruct (next F s) as [[o s1]| | |] eqn:E; cbn in HF; try discriminate.
      destruct (next F s1) as [[o1 s2]| | |] eqn:E1; cbn in HF; try discriminate.
      destruct (calls next k s2 F) as [[os2 s3]| | |] eqn:E2; cbn in HF; try discriminate.
      injection HF as <- <-.
      eapply (IH s1 (o1 :: os2)); cbn; rewrite E1; cbn; rewrite E2; reflexivity.
  Qed.

  Lemma loop_inv {S R} (body : nat -> S -> Res (S + R)) (P : R -> Prop) :
    (forall f s r, body f s = Ok (inr r) -> P r) -> forall f s r, loop body f s = Ok r -> P r.
  Proof.
    intros H f; induction f as [|f IH]; intros s r E; cbn in E; [discriminate|].
    destruct (body f s) as [[s'|r']| | |] eqn:Eb; try discriminate; [eauto|].
    injection E as <-; eapply H; exact Eb.
  Qed.

  Lemma bfs_started : call_inv (bfs_next gvc) (fun s => bfs_root s = None).
  Proof.
    intros f [[r|] q] o s' E; unfold bfs_next in E; cbn in E.
    - destruct (gvc r); injection E as <- <-; reflexivity.
    - refine (loop_inv _ (fun r => bfs_root (snd r) = None) _ _ _ _ E).
      intros g [|[|n fr] rest] x Eb; cbn in Eb; try discriminate; [injection Eb as <-; reflexivity|].
      destruct (gvc n); injection Eb as <-; reflexivity.
  Qed.

  Lemma pre_started : call_inv (pre_next gvc) (fun s => pre_root s = None).
  Proof.
    intros f [[r|] q] o s' E; unfold pre_next in E; cbn in E.
    - destruct (gvc r); injection E as <- <-; reflexivity.
    - destruct (loop pre_next_body f q) as [[[n|] st]| | |]; cbn in E; try discriminate.
      + destruct (gvc n); injection E as <- <-; reflexivity.
      + injection E as <- <-; reflexivity.
  Qed.

  Lemma post_started : call_inv (post_next gvc) (fun s => po_root s = None).
  Proof.
    intros f s o s' E; unfold post_next in E.
    refine (loop_inv _ (fun r => po_root (snd r) = None) _ _ _ _ E).
    intros g [[r|] it [|[|n top] rest]] x Eb; cbn in Eb; try discriminate;
      try (destruct (gvc r); discriminate); try (destruct (gvc n); discriminate); injection Eb as <-; reflexivity.
  Qed.

  Lemma in_started (gvcb : Nd -> V * (option Nd * option Nd)) : call_inv (in_next gvcb) (fun s => in_moved s = true).
  Proof.
    intros f s o s' E; unfold in_next in E.
    destruct (loop in_find_body f (in_right s, in_items s)) as [[[[a b] c]|[a b]]| | |]; cbn in E; try discriminate.
    - injection E as <- <-; reflexivity.
    - destruct (loop _ f _) as [[a1 b1]| | |]; cbn in E; try discriminate; injection E as <- <-; reflexivity.
  Qed.
End Started.
