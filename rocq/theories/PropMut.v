(** * Properties C43 and C45: the [_mut] iterators reach every node exactly once; [cloned()]. *)
From Coq Require Import Permutation.
From Verif Require Import Prelim PrelimFacts Spec SpecFacts SpecObs SpecPipe SpecMut ModelNode ModelBfs ModelPre ModelPost ModelIn ModelColl ModelPipe ModelMut.
From Verif Require Import NodeFacts Slots ProofsPlain ProofsPre ProofsPost ProofsIn ProofsTree ProofsBfs ProofsBfsAnc ProofsColl PropTraversal PropBfs PropColl.
From Verif Require Import ProofsMut ProofsMutAnc ProofsMutColl PipeOps PropPipe.

(** ** C43 writing through every reference of a traversal

    [for_each_mut] is the user's loop [while let Some(r) = iter.next() { *r = f( *r) }], [t] the tree that is borrowed.
    Whatever the closure [f] (with state [g]): the loop ends, the tree keeps its shape, and its values in the order of the traversal
    are what [f] returned for the old values, in that order.  When [f] has no state this is [tree_map f]. *)

Theorem C43_bfs : forall A G (f : G -> A -> G * A) g (t : tree A),
  (exists g' t', for_each_mut (bfs_next tree_gvc) tree_read tree_write f (bfs_new (tree_refs t)) g t ⇓ Ok (g', t') /\
    same_shape t t' /\ map_accum f g (bfs t) = (g', bfs t')) /\
  forall h : A -> A, for_each_mut (bfs_next tree_gvc) tree_read tree_write (fun _ v => (tt, h v)) (bfs_new (tree_refs t)) tt t ⇓
    Ok (tt, tree_map h t).
Proof.
  intros A G f g t; pose proof (yields_to_end_of _ _ _ (C01_bfs_Tree _ (tree_refs t))) as Y; split.
  - exact (for_each_tree (@bfs) order_bfs _ f _ g t Y).
  - intros h; exact (for_each_tree_pure (@bfs) order_bfs _ h _ t Y).
Qed.
Print Assumptions C43_bfs.

Theorem C43_preorder : forall A G (f : G -> A -> G * A) g (t : tree A),
  (exists g' t', for_each_mut (pre_next tree_gvc) tree_read tree_write f (pre_new (tree_refs t)) g t ⇓ Ok (g', t') /\
    same_shape t t' /\ map_accum f g (preorder t) = (g', preorder t')) /\
  forall h : A -> A, for_each_mut (pre_next tree_gvc) tree_read tree_write (fun _ v => (tt, h v)) (pre_new (tree_refs t)) tt t ⇓
    Ok (tt, tree_map h t).
Proof.
  intros A G f g t; pose proof (yields_to_end_of _ _ _ (C02_preorder_Tree _ (tree_refs t))) as Y; split.
  - exact (for_each_tree (@preorder) order_preorder _ f _ g t Y).
  - intros h; exact (for_each_tree_pure (@preorder) order_preorder _ h _ t Y).
Qed.
Print Assumptions C43_preorder.

Theorem C43_postorder : forall A G (f : G -> A -> G * A) g (t : tree A),
  (exists g' t', for_each_mut (post_next tree_gvc) tree_read tree_write f (post_new (tree_refs t)) g t ⇓ Ok (g', t') /\
    same_shape t t' /\ map_accum f g (postorder t) = (g', postorder t')) /\
  forall h : A -> A, for_each_mut (post_next tree_gvc) tree_read tree_write (fun _ v => (tt, h v)) (post_new (tree_refs t)) tt t ⇓
    Ok (tt, tree_map h t).
Proof.
  intros A G f g t; pose proof (yields_to_end_of _ _ _ (C03_postorder_Tree _ (tree_refs t))) as Y; split.
  - exact (for_each_tree (@postorder) order_postorder _ f _ g t Y).
  - intros h; exact (for_each_tree_pure (@postorder) order_postorder _ h _ t Y).
Qed.
Print Assumptions C43_postorder.

Theorem C43_bfs_binary : forall A G (f : G -> A -> G * A) g (t : btree A),
  (exists g' t', for_each_mut (bfs_next (binary_gvc btree_gvcb)) btree_read btree_write f (bfs_new (btree_refs t)) g t ⇓ Ok (g', t') /\
    bsame_shape t t' /\ map_accum f g (bfs (flat t)) = (g', bfs (flat t'))) /\
  forall h : A -> A, for_each_mut (bfs_next (binary_gvc btree_gvcb)) btree_read btree_write (fun _ v => (tt, h v)) (bfs_new (btree_refs t)) tt t ⇓
    Ok (tt, btree_map h t).
Proof.
  intros A G f g t; pose proof (yields_to_end_of _ _ _ (C01_bfs_BinaryTree _ (btree_refs t))) as Y; split.
  - exact (for_each_btree (fun X t => bfs (flat t)) (border_flat _ order_bfs) _ f _ g t Y).
  - intros h; exact (for_each_btree_pure (fun X t => bfs (flat t)) (border_flat _ order_bfs) _ h _ t Y).
Qed.
Print Assumptions C43_bfs_binary.

Theorem C43_preorder_binary : forall A G (f : G -> A -> G * A) g (t : btree A),
  (exists g' t', for_each_mut (pre_next (binary_gvc btree_gvcb)) btree_read btree_write f (pre_new (btree_refs t)) g t ⇓ Ok (g', t') /\
    bsame_shape t t' /\ map_accum f g (preorder (flat t)) = (g', preorder (flat t'))) /\
  forall h : A -> A, for_each_mut (pre_next (binary_gvc btree_gvcb)) btree_read btree_write (fun _ v => (tt, h v)) (pre_new (btree_refs t)) tt t ⇓
    Ok (tt, btree_map h t).
Proof.
  intros A G f g t; pose proof (yields_to_end_of _ _ _ (C02_preorder_BinaryTree _ (btree_refs t))) as Y; split.
  - exact (for_each_btree (fun X t => preorder (flat t)) (border_flat _ order_preorder) _ f _ g t Y).
  - intros h; exact (for_each_btree_pure (fun X t => preorder (flat t)) (border_flat _ order_preorder) _ h _ t Y).
Qed.
Print Assumptions C43_preorder_binary.

Theorem C43_postorder_binary : forall A G (f : G -> A -> G * A) g (t : btree A),
  (exists g' t', for_each_mut (post_next (binary_gvc btree_gvcb)) btree_read btree_write f (post_new (btree_refs t)) g t ⇓ Ok (g', t') /\
    bsame_shape t t' /\ map_accum f g (postorder (flat t)) = (g', postorder (flat t'))) /\
  forall h : A -> A, for_each_mut (post_next (binary_gvc btree_gvcb)) btree_read btree_write (fun _ v => (tt, h v)) (post_new (btree_refs t)) tt t ⇓
    Ok (tt, btree_map h t).
Proof.
  intros A G f g t; pose proof (yields_to_end_of _ _ _ (C03_postorder_BinaryTree _ (btree_refs t))) as Y; split.
  - exact (for_each_btree (fun X t => postorder (flat t)) (border_flat _ order_postorder) _ f _ g t Y).
  - intros h; exact (for_each_btree_pure (fun X t => postorder (flat t)) (border_flat _ order_postorder) _ h _ t Y).
Qed.
Print Assumptions C43_postorder_binary.

Theorem C43_inorder : forall A G (f : G -> A -> G * A) g (t : btree A),
  (exists g' t', for_each_mut (in_next btree_gvcb) btree_read btree_write f (in_new (btree_refs t)) g t ⇓ Ok (g', t') /\
    bsame_shape t t' /\ map_accum f g (inorder t) = (g', inorder t')) /\
  forall h : A -> A, for_each_mut (in_next btree_gvcb) btree_read btree_write (fun _ v => (tt, h v)) (in_new (btree_refs t)) tt t ⇓
    Ok (tt, btree_map h t).
Proof.
  intros A G f g t; pose proof (yields_to_end_of _ _ _ (C04_inorder_BinaryTree _ (btree_refs t))) as Y; split.
  - exact (for_each_btree (@inorder) border_inorder _ f _ g t Y).
  - intros h; exact (for_each_btree_pure (@inorder) border_inorder _ h _ t Y).
Qed.
Print Assumptions C43_inorder.

(** The whole collection, for the [_each_iter_mut] iterators. *)

Theorem C43_bfs_each : forall A G (f : G -> A -> G * A) g (ts : list (tree A)),
  (exists g' ts', for_each_mut (bfs_each_next tree_gvc) trees_read trees_write f (coll_new (trees_refs ts)) g ts ⇓ Ok (g', ts') /\
    Forall2 same_shape ts ts' /\ map_accum f g (flat_map bfs ts) = (g', flat_map bfs ts')) /\
  forall h : A -> A, for_each_mut (bfs_each_next tree_gvc) trees_read trees_write (fun _ v => (tt, h v)) (coll_new (trees_refs ts)) tt ts ⇓
    Ok (tt, map (tree_map h) ts).
Proof.
  intros A G f g ts.
  pose proof (yields_to_end_of _ _ _ (C23_bfs_each _ _ tree_gvc _ node_tree_tree (trees_refs ts))) as Y.
  rewrite (flat_map_ext _ (@bfs _)) in Y by (intros; apply (values_tree (@bfs)), @bfs_map); split.
  - exact (for_each_trees (@bfs) order_bfs _ f _ g ts Y).
  - intros h; exact (for_each_trees_pure (@bfs) order_bfs _ h _ ts Y).
Qed.
Print Assumptions C43_bfs_each.

Theorem C43_preorder_each : forall A G (f : G -> A -> G * A) g (ts : list (tree A)),
  (exists g' ts', for_each_mut (pre_each_next tree_gvc) trees_read trees_write f (coll_new (trees_refs ts)) g ts ⇓ Ok (g', ts') /\
    Forall2 same_shape ts ts' /\ map_accum f g (flat_map preorder ts) = (g', flat_map preorder ts')) /\
  forall h : A -> A, for_each_mut (pre_each_next tree_gvc) trees_read trees_write (fun _ v => (tt, h v)) (coll_new (trees_refs ts)) tt ts ⇓
    Ok (tt, map (tree_map h) ts).
Proof.
  intros A G f g ts.
  pose proof (yields_to_end_of _ _ _ (C23_preorder_each _ _ tree_gvc _ node_tree_tree (trees_refs ts))) as Y.
  rewrite (flat_map_ext _ (@preorder _)) in Y by (intros; apply (values_tree (@preorder)), @preorder_map); split.
  - exact (for_each_trees (@preorder) order_preorder _ f _ g ts Y).
  - intros h; exact (for_each_trees_pure (@preorder) order_preorder _ h _ ts Y).
Qed.
Print Assumptions C43_preorder_each.

Theorem C43_postorder_each : forall A G (f : G -> A -> G * A) g (ts : list (tree A)),
  (exists g' ts', for_each_mut (post_each_next tree_gvc) trees_read trees_write f (coll_new (trees_refs ts)) g ts ⇓ Ok (g', ts') /\
    Forall2 same_shape ts ts' /\ map_accum f g (flat_map postorder ts) = (g', flat_map postorder ts')) /\
  forall h : A -> A, for_each_mut (post_each_next tree_gvc) trees_read trees_write (fun _ v => (tt, h v)) (coll_new (trees_refs ts)) tt ts ⇓
    Ok (tt, map (tree_map h) ts).
Proof.
  intros A G f g ts.
  pose proof (yields_to_end_of _ _ _ (C23_postorder_each _ _ tree_gvc _ node_tree_tree (trees_refs ts))) as Y.
  rewrite (flat_map_ext _ (@postorder _)) in Y by (intros; apply (values_tree (@postorder)), @postorder_map); split.
  - exact (for_each_trees (@postorder) order_postorder _ f _ g ts Y).
  - intros h; exact (for_each_trees_pure (@postorder) order_postorder _ h _ ts Y).
Qed.
Print Assumptions C43_postorder_each.

Theorem C43_bfs_each_binary : forall A G (f : G -> A -> G * A) g (ts : list (btree A)),
  (exists g' ts', for_each_mut (bfs_each_next (binary_gvc btree_gvcb)) btrees_read btrees_write f (coll_new (btrees_refs ts)) g ts ⇓ Ok (g', ts') /\
    Forall2 bsame_shape ts ts' /\ map_accum f g (flat_map (fun t => bfs (flat t)) ts) = (g', flat_map (fun t => bfs (flat t)) ts')) /\
  forall h : A -> A, for_each_mut (bfs_each_next (binary_gvc btree_gvcb)) btrees_read btrees_write (fun _ v => (tt, h v)) (coll_new (btrees_refs ts)) tt ts ⇓
    Ok (tt, map (btree_map h) ts).
Proof.
  intros A G f g ts.
  destruct (C23_each_binary _ _ btree_gvcb _ node_btree_btree (btrees_refs ts)) as (Y & _ & _); apply yields_to_end_of in Y.
  rewrite (flat_map_ext _ (fun t => bfs (flat t))) in Y
    by (intros; rewrite <- (map_ext _ _ (nval_binary btree_gvcb)); apply (values_btree (@bfs)), @bfs_map); split.
  - exact (for_each_btrees (fun X t => bfs (flat t)) (border_flat _ order_bfs) _ f _ g ts Y).
  - intros h; exact (for_each_btrees_pure (fun X t => bfs (flat t)) (border_flat _ order_bfs) _ h _ ts Y).
Qed.
Print Assumptions C43_bfs_each_binary.

Theorem C43_preorder_each_binary : forall A G (f : G -> A -> G * A) g (ts : list (btree A)),
  (exists g' ts', for_each_mut (pre_each_next (binary_gvc btree_gvcb)) btrees_read btrees_write f (coll_new (btrees_refs ts)) g ts ⇓ Ok (g', ts') /\
    Forall2 bsame_shape ts ts' /\ map_accum f g (flat_map (fun t => preorder (flat t)) ts) = (g', flat_map (fun t => preorder (flat t)) ts')) /\
  forall h : A -> A, for_each_mut (pre_each_next (binary_gvc btree_gvcb)) btrees_read btrees_write (fun _ v => (tt, h v)) (coll_new (btrees_refs ts)) tt ts ⇓
    Ok (tt, map (btree_map h) ts).
Proof.
  intros A G f g ts.
  destruct (C23_each_binary _ _ btree_gvcb _ node_btree_btree (btrees_refs ts)) as (_ & Y & _); apply yields_to_end_of in Y.
  rewrite (flat_map_ext _ (fun t => preorder (flat t))) in Y
    by (intros; rewrite <- (map_ext _ _ (nval_binary btree_gvcb)); apply (values_btree (@preorder)), @preorder_map); split.
  - exact (for_each_btrees (fun X t => preorder (flat t)) (border_flat _ order_preorder) _ f _ g ts Y).
  - intros h; exact (for_each_btrees_pure (fun X t => preorder (flat t)) (border_flat _ order_preorder) _ h _ ts Y).
Qed.
Print Assumptions C43_preorder_each_binary.

Theorem C43_postorder_each_binary : forall A G (f : G -> A -> G * A) g (ts : list (btree A)),
  (exists g' ts', for_each_mut (post_each_next (binary_gvc btree_gvcb)) btrees_read btrees_write f (coll_new (btrees_refs ts)) g ts ⇓ Ok (g', ts') /\
    Forall2 bsame_shape ts ts' /\ map_accum f g (flat_map (fun t => postorder (flat t)) ts) = (g', flat_map (fun t => postorder (flat t)) ts')) /\
  forall h : A -> A, for_each_mut (post_each_next (binary_gvc btree_gvcb)) btrees_read btrees_write (fun _ v => (tt, h v)) (coll_new (btrees_refs ts)) tt ts ⇓
    Ok (tt, map (btree_map h) ts).
Proof.
  intros A G f g ts.
  destruct (C23_each_binary _ _ btree_gvcb _ node_btree_btree (btrees_refs ts)) as (_ & _ & Y); apply yields_to_end_of in Y.
  rewrite (flat_map_ext _ (fun t => postorder (flat t))) in Y
    by (intros; rewrite <- (map_ext _ _ (nval_binary btree_gvcb)); apply (values_btree (@postorder)), @postorder_map); split.
  - exact (for_each_btrees (fun X t => postorder (flat t)) (border_flat _ order_postorder) _ f _ g ts Y).
  - intros h; exact (for_each_btrees_pure (fun X t => postorder (flat t)) (border_flat _ order_postorder) _ h _ ts Y).
Qed.
Print Assumptions C43_postorder_each_binary.

Theorem C43_inorder_each : forall A G (f : G -> A -> G * A) g (ts : list (btree A)),
  (exists g' ts', for_each_mut (in_each_next btree_gvcb) btrees_read btrees_write f (coll_new (btrees_refs ts)) g ts ⇓ Ok (g', ts') /\
    Forall2 bsame_shape ts ts' /\ map_accum f g (flat_map inorder ts) = (g', flat_map inorder ts')) /\
  forall h : A -> A, for_each_mut (in_each_next btree_gvcb) btrees_read btrees_write (fun _ v => (tt, h v)) (coll_new (btrees_refs ts)) tt ts ⇓
    Ok (tt, map (btree_map h) ts).
Proof.
  intros A G f g ts.
  pose proof (yields_to_end_of _ _ _ (C23_inorder_each _ _ btree_gvcb _ node_btree_btree (btrees_refs ts))) as Y.
  rewrite (flat_map_ext _ (@inorder _)) in Y by (intros; apply inorder_values); split.
  - exact (for_each_btrees (@inorder) border_inorder _ f _ g ts Y).
  - intros h; exact (for_each_btrees_pure (@inorder) border_inorder _ h _ ts Y).
Qed.
Print Assumptions C43_inorder_each.

(** User node types: the values are any keys [R] of a memory [m : R -> A], all different in the tree. *)

Theorem C43_bfs_any_node : forall Nd R (gvc : Nd -> R * list Nd) nt, node_tree gvc nt ->
  forall A (eqb : R -> R -> bool), (forall x y, eqb x y = true <-> x = y) -> forall n, NoDup (map (nval gvc) (preorder (nt n))) ->
  forall G (f : G -> A -> G * A) g m, exists g' m',
    for_each_mut (bfs_next gvc) (fun m r => Some (m r)) (fun m r a r' => if eqb r' r then a else m r') f (bfs_new n) g m ⇓ Ok (g', m') /\
    map_accum f g (map m (map (nval gvc) (bfs (nt n)))) = (g', map m' (map (nval gvc) (bfs (nt n)))) /\
    forall r, ~ In r (map (nval gvc) (preorder (nt n))) -> m' r = m r.
Proof.
  intros Nd R gvc nt H A eqb Heq n ND G f g m.
  assert (P : Permutation (map (nval gvc) (bfs (nt n))) (map (nval gvc) (preorder (nt n)))) by (apply Permutation_map, (proj2 order_bfs)).
  destruct (for_each_store eqb Heq _ f _ g m _ (yields_to_end_of _ _ _ (C01_bfs _ _ gvc nt H n))) as (g' & m' & E1 & E2 & E3).
  - exact (Permutation_NoDup (Permutation_sym P) ND).
  - exists g', m'; split; [exact E1|]; split; [exact E2|]; intros r Hr; apply E3; intros K; apply Hr, (Permutation_in _ P), K.
Qed.
Print Assumptions C43_bfs_any_node.

Theorem C43_preorder_any_node : forall Nd R (gvc : Nd -> R * list Nd) nt, node_tree gvc nt ->
  forall A (eqb : R -> R -> bool), (forall x y, eqb x y = true <-> x = y) -> forall n, NoDup (map (nval gvc) (preorder (nt n))) ->
  forall G (f : G -> A -> G * A) g m, exists g' m',
    for_each_mut (pre_next gvc) (fun m r => Some (m r)) (fun m r a r' => if eqb r' r then a else m r') f (pre_new n) g m ⇓ Ok (g', m') /\
    map_accum f g (map m (map (nval gvc) (preorder (nt n)))) = (g', map m' (map (nval gvc) (preorder (nt n)))) /\
    forall r, ~ In r (map (nval gvc) (preorder (nt n))) -> m' r = m r.
Proof.
  intros Nd R gvc nt H A eqb Heq n ND G f g m.
  assert (P : Permutation (map (nval gvc) (preorder (nt n))) (map (nval gvc) (preorder (nt n)))) by (apply Permutation_map, (proj2 order_preorder)).
  destruct (for_each_store eqb Heq _ f _ g m _ (yields_to_end_of _ _ _ (C02_preorder _ _ gvc nt H n))) as (g' & m' & E1 & E2 & E3).
  - exact (Permutation_NoDup (Permutation_sym P) ND).
  - exists g', m'; split; [exact E1|]; split; [exact E2|]; intros r Hr; apply E3; intros K; apply Hr, (Permutation_in _ P), K.
Qed.
Print Assumptions C43_preorder_any_node.

Theorem C43_postorder_any_node : forall Nd R (gvc : Nd -> R * list Nd) nt, node_tree gvc nt ->
  forall A (eqb : R -> R -> bool), (forall x y, eqb x y = true <-> x = y) -> forall n, NoDup (map (nval gvc) (preorder (nt n))) ->
  forall G (f : G -> A -> G * A) g m, exists g' m',
    for_each_mut (post_next gvc) (fun m r => Some (m r)) (fun m r a r' => if eqb r' r then a else m r') f (post_new n) g m ⇓ Ok (g', m') /\
    map_accum f g (map m (map (nval gvc) (postorder (nt n)))) = (g', map m' (map (nval gvc) (postorder (nt n)))) /\
    forall r, ~ In r (map (nval gvc) (preorder (nt n))) -> m' r = m r.
Proof.
  intros Nd R gvc nt H A eqb Heq n ND G f g m.
  assert (P : Permutation (map (nval gvc) (postorder (nt n))) (map (nval gvc) (preorder (nt n)))) by (apply Permutation_map, (proj2 order_postorder)).
  destruct (for_each_store eqb Heq _ f _ g m _ (yields_to_end_of _ _ _ (C03_postorder _ _ gvc nt H n))) as (g' & m' & E1 & E2 & E3).
  - exact (Permutation_NoDup (Permutation_sym P) ND).
  - exists g', m'; split; [exact E1|]; split; [exact E2|]; intros r Hr; apply E3; intros K; apply Hr, (Permutation_in _ P), K.
Qed.
Print Assumptions C43_postorder_any_node.

(** ** The slices of [attach_ancestors()] are references to the nodes on the way down

    When the user applies [h] to every reference of every slice, each node is updated once per node of the subtree hanging there
    ([update_below], SpecMut.v): the slices alias the tree's nodes, and each node's slice has exactly its ancestors and itself. *)

Theorem C43_bfs_ancestors : forall A (h : A -> A) (t : tree A), exists s, bfs_attach_ancestors tree_gvc (bfs_new (tree_refs t)) = Ok s /\
  for_each_slice (bfsa_next tree_gvc) tree_read tree_write (fun _ v => (tt, h v)) s tt t ⇓ Ok (tt, update_below h t).
Proof.
  intros A h t; destruct (C06_bfs_ancestors _ _ tree_gvc _ node_tree_tree (tree_refs t)) as (s & E & Y); exists s; split; [exact E|].
  exact (for_each_slice_tree (@bfs) order_bfs _ h s t Y).
Qed.
Print Assumptions C43_bfs_ancestors.

Theorem C43_bfs_ancestors_binary : forall A (h : A -> A) (t : btree A), exists s, bfs_attach_ancestors (binary_gvc btree_gvcb) (bfs_new (btree_refs t)) = Ok s /\
  for_each_slice (bfsa_next (binary_gvc btree_gvcb)) btree_read btree_write (fun _ v => (tt, h v)) s tt t ⇓ Ok (tt, bupdate_below h t).
Proof.
  intros A h t; destruct (C06_bfs_ancestors_binary _ _ btree_gvcb _ node_btree_btree (btree_refs t)) as (s & E & Y); exists s; split; [exact E|].
  exact (for_each_slice_btree (fun X t => bfs (flat t)) (border_flat _ order_bfs) _ h s t Y).
Qed.
Print Assumptions C43_bfs_ancestors_binary.

Theorem C43_preorder_ancestors : forall A (h : A -> A) (t : tree A), exists s, pre_attach_ancestors (pre_new (tree_refs t)) = Ok s /\
  for_each_slice (prea_next tree_gvc) tree_read tree_write (fun _ v => (tt, h v)) s tt t ⇓ Ok (tt, update_below h t).
Proof.
  intros A h t; destruct (C09_preorder_ancestors _ _ tree_gvc _ node_tree_tree (tree_refs t)) as (s & E & Y); exists s; split; [exact E|].
  exact (for_each_slice_tree (@preorder) order_preorder _ h s t (yields_to_end_of _ _ _ Y)).
Qed.
Print Assumptions C43_preorder_ancestors.

Theorem C43_preorder_ancestors_binary : forall A (h : A -> A) (t : btree A), exists s, pre_attach_ancestors (pre_new (btree_refs t)) = Ok s /\
  for_each_slice (prea_next (binary_gvc btree_gvcb)) btree_read btree_write (fun _ v => (tt, h v)) s tt t ⇓ Ok (tt, bupdate_below h t).
Proof.
  intros A h t; destruct (C09_preorder_ancestors_binary _ _ btree_gvcb _ node_btree_btree (btree_refs t)) as (s & E & Y); exists s; split; [exact E|].
  exact (for_each_slice_btree (fun X t => preorder (flat t)) (border_flat _ order_preorder) _ h s t (yields_to_end_of _ _ _ Y)).
Qed.
Print Assumptions C43_preorder_ancestors_binary.

Theorem C43_postorder_ancestors : forall A (h : A -> A) (t : tree A), exists s, post_attach_ancestors (post_new (tree_refs t)) = Ok s /\
  for_each_slice (posta_next tree_gvc) tree_read tree_write (fun _ v => (tt, h v)) s tt t ⇓ Ok (tt, update_below h t).
Proof.
  intros A h t; destruct (C12_postorder_ancestors _ _ tree_gvc _ node_tree_tree (tree_refs t)) as (s & E & Y); exists s; split; [exact E|].
  exact (for_each_slice_tree (@postorder) order_postorder _ h s t (yields_to_end_of _ _ _ Y)).
Qed.
Print Assumptions C43_postorder_ancestors.

Theorem C43_postorder_ancestors_binary : forall A (h : A -> A) (t : btree A), exists s, post_attach_ancestors (post_new (btree_refs t)) = Ok s /\
  for_each_slice (posta_next (binary_gvc btree_gvcb)) btree_read btree_write (fun _ v => (tt, h v)) s tt t ⇓ Ok (tt, bupdate_below h t).
Proof.
  intros A h t; destruct (C12_postorder_ancestors_binary _ _ btree_gvcb _ node_btree_btree (btree_refs t)) as (s & E & Y); exists s; split; [exact E|].
  exact (for_each_slice_btree (fun X t => postorder (flat t)) (border_flat _ order_postorder) _ h s t (yields_to_end_of _ _ _ Y)).
Qed.
Print Assumptions C43_postorder_ancestors_binary.

Theorem C43_inorder_ancestors : forall A (h : A -> A) (t : btree A), exists s, in_attach_ancestors (in_new (btree_refs t)) = Ok s /\
  for_each_slice (ina_next btree_gvcb) btree_read btree_write (fun _ v => (tt, h v)) s tt t ⇓ Ok (tt, bupdate_below h t).
Proof.
  intros A h t; destruct (C14_inorder_ancestors _ _ btree_gvcb _ node_btree_btree (btree_refs t)) as (s & E & Y); exists s; split; [exact E|].
  exact (for_each_slice_btree (@inorder) border_inorder _ h s t (yields_to_end_of _ _ _ Y)).
Qed.
Print Assumptions C43_inorder_ancestors.

Example C43_ex : for_each_mut (bfs_next tree_gvc) tree_read tree_write (fun g v => (S g, v * 100 + g)) (bfs_new (tree_refs ex_tree)) 0 ex_tree 60 =
  Ok (8, TNode 100 [TNode 201 [TNode 404 []; TNode 505 [TNode 707 []]]; TNode 302 []; TNode 603 [TNode 806 []]]).
Proof. vm_compute; reflexivity. Qed.
Example C43_ex_any_node : NoDup (map (nval tree_gvc) (preorder (subtrees ex_tree))).
Proof. vm_compute; repeat constructor; cbn; intuition discriminate. Qed.
Example C43_ex_ancestors : update_below (fun v => v + 100) ex_tree =
  TNode 801 [TNode 402 [TNode 104 []; TNode 205 [TNode 107 []]]; TNode 103 []; TNode 206 [TNode 108 []]].
Proof. vm_compute; reflexivity. Qed.
Example C43_ex_inorder : for_each_mut (in_next btree_gvcb) btree_read btree_write (fun g v => (S g, v * 100 + g)) (in_new (btree_refs ex_btree)) 0 ex_btree 60 =
  Ok (6, BNode 103 (Some (BNode 200 None (Some (BNode 402 (Some (BNode 601 None None)) None)))) (Some (BNode 305 (Some (BNode 504 None None)) None))).
Proof. vm_compute; reflexivity. Qed.

(** ** C45 [cloned()] *)

(** Any [clone] (with state): it runs once per node, in preorder, on what the node's reference points to. *)

Theorem C45_cloned : forall R T (deref : R -> T) G (clone : G -> T -> G * T) g (t : tree R), exists t' s,
  cloned deref clone g t ⇓ Ok (t', s) /\ same_shape t' t /\ map_accum clone g (map deref (preorder t)) = (snd s, preorder t').
Proof.
  intros R T deref G clone g t.
  destruct (C29_map _ _ tree_gvc _ node_tree_tree T G (fun g item => clone g (deref item)) g t) as (t' & s & E1 & E2 & E3).
  exists t', s; split; [exact E1|]; split.
  - unfold same_shape in *; rewrite E2; rewrite <- (subtrees_root t) at 2; rewrite tree_map_map; reflexivity.
  - rewrite (values_tree (@preorder)) in E3 by apply @preorder_map; rewrite <- E3; clear; revert g.
    generalize (preorder t); intros l; induction l as [|x l IH]; intros g; cbn; [reflexivity|].
    destruct (clone g (deref x)) as [g1 b]; rewrite IH; reflexivity.
Qed.
Print Assumptions C45_cloned.

Theorem C45_cloned_binary : forall R T (deref : R -> T) G (clone : G -> T -> G * T) g (t : btree R), exists t' s,
  cloned_binary deref clone g t ⇓ Ok (t', s) /\ bsame_shape t' t /\ map_accum clone g (map deref (preorder (flat t))) = (snd s, preorder (flat t')).
Proof.
  intros R T deref G clone g t.
  destruct (C29_map_binary _ _ btree_gvcb _ node_btree_btree T G (fun g item => clone g (deref item)) g t) as (t' & s & E1 & E2 & E3).
  exists t', s; split; [exact E1|]; split.
  - unfold bsame_shape in *; rewrite E2; rewrite <- (bsubtrees_root t) at 2; rewrite btree_map_map; reflexivity.
  - rewrite <- (map_ext _ _ (nval_binary btree_gvcb)), (values_btree (@preorder)) in E3 by apply @preorder_map; rewrite <- E3; clear; revert g.
    generalize (preorder (flat t)); intros l; induction l as [|x l IH]; intros g; cbn; [reflexivity|].
    destruct (clone g (deref x)) as [g1 b]; rewrite IH; reflexivity.
Qed.
Print Assumptions C45_cloned_binary.

(** The usual [clone], which returns an equal value: the tree of the targets. *)

Theorem C45_cloned_pure : forall R T (deref : R -> T) (clone : T -> T) (t : tree R), exists s,
  cloned deref (fun _ v => (tt, clone v)) tt t ⇓ Ok (tree_map (fun r => clone (deref r)) t, s).
Proof.
  intros R T deref clone t.
  destruct (C29_map_pure _ _ tree_gvc _ node_tree_tree T (fun r => clone (deref r)) t) as (s & E); exists s.
  replace (tree_map (fun r => clone (deref r)) t) with (tree_map (fun m => clone (deref (nval tree_gvc m))) (subtrees t)); [exact E|].
  rewrite <- (subtrees_root t) at 2; rewrite tree_map_map; apply tree_map_ext; intros x; rewrite nval_tree; reflexivity.
Qed.
Print Assumptions C45_cloned_pure.

Theorem C45_cloned_pure_binary : forall R T (deref : R -> T) (clone : T -> T) (t : btree R), exists s,
  cloned_binary deref (fun _ v => (tt, clone v)) tt t ⇓ Ok (btree_map (fun r => clone (deref r)) t, s).
Proof.
  intros R T deref clone t.
  destruct (C29_map_pure_binary _ _ btree_gvcb _ node_btree_btree T (fun r => clone (deref r)) t) as (s & E); exists s.
  replace (btree_map (fun r => clone (deref r)) t) with (btree_map (fun m => clone (deref (nval btree_gvcb m))) (bsubtrees t)); [exact E|].
  rewrite <- (bsubtrees_root t) at 2; rewrite btree_map_map; apply btree_map_ext; intros x; rewrite nval_btree; reflexivity.
Qed.
Print Assumptions C45_cloned_pure_binary.

(** References are indexes into an array; two nodes may share a target. *)
Example C45_ex : exists s, cloned (fun i => nth i [10; 20; 30] 0) (fun g v => (g + 1, v)) 0 (TNode 2 [TNode 0 []; TNode 2 [TNode 1 []]]) 40 =
  Ok (TNode 30 [TNode 10 []; TNode 30 [TNode 20 []]], s) /\ snd s = 4.
Proof. eexists; split; vm_compute; reflexivity. Qed.
