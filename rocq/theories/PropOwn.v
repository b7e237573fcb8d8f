(** * Property C49: children containers that own memory.

    The claim a user relies on: whatever container [get_value_and_children] returns, the context iterators release its
    memory exactly once, and [children()] of the current context can be read.  It is true of the preorder and
    breadth-first iterators, and false of the borrowed and mutable postorder ones, which duplicate the container. *)
From Coq Require Import Permutation.
From Verif Require Import Prelim PrelimFacts Spec SpecFacts SpecObs ModelNode ModelPre ModelPost ModelBfs ModelOwn NodeFacts ProofsOwn ProofsOwnMore PropTraversal.

(** ** Preorder and breadth first: [k] calls of [next()], each followed by reading [children()], then a drop of the iterator.
    One block of memory is handed out per node visited whose container owns memory (the breadth-first iterator asks for the
    root's children when it is created), and every block handed out ([seq 0 (h_next h)]) is released once. *)
Theorem C49_preorder : forall Nd V (gvc : Nd -> V * list Nd) nt, node_tree gvc nt ->
  forall (owns : Nd -> bool) n, small_nodes gvc (nt n) ->
  forall k, exists h,
    use_and_drop (opre_next_reading gvc owns) opre_drop k (opre_new n []) ⇓
      Ok (map (nth_error (map (context_at gvc) (preorder (positions (nt n))))) (seq 0 k), h) /\
    h_next h = length (filter owns (map pos_here (firstn k (preorder (positions (nt n)))))) /\
    Permutation (h_freed h) (seq 0 (h_next h)).
Proof. intros Nd V gvc nt H owns n Hs k; exact (pre_all gvc owns nt H n Hs k). Qed.
Print Assumptions C49_preorder.

Theorem C49_bfs : forall Nd V (gvc : Nd -> V * list Nd) nt, node_tree gvc nt ->
  forall (owns : Nd -> bool) n, small_nodes gvc (nt n) ->
  forall k, exists h,
    use_and_drop (obfs_next_reading gvc owns) obfs_drop k (obfs_new gvc owns n []) ⇓
      Ok (map (nth_error (map (context_at gvc) (bfs (positions (nt n))))) (seq 0 k), h) /\
    h_next h = length (filter owns (map pos_here (firstn (max 1 k) (bfs (positions (nt n)))))) /\
    Permutation (h_freed h) (seq 0 (h_next h)).
Proof. intros Nd V gvc nt H owns n Hs k; exact (bfs_all gvc owns nt H n Hs k). Qed.
Print Assumptions C49_bfs.

(** A [Vec] of references owns memory when it is not empty. *)
Definition vec_owns {Nd V} (gvc : Nd -> V * list Nd) (n : Nd) : bool := match nkids gvc n with [] => false | _ => true end.

Example C49_ex : exists l, use_and_drop (opre_next_reading tree_gvc (vec_owns tree_gvc)) opre_drop 4 (opre_new ex_tree []) 20 =
  Ok (l, mkHeap 3 [2; 1; 0]).
Proof. vm_compute; eexists; reflexivity. Qed.
Example C49_ex_bfs : exists l, use_and_drop (obfs_next_reading tree_gvc (vec_owns tree_gvc)) obfs_drop 9 (obfs_new tree_gvc (vec_owns tree_gvc) ex_tree []) 20 =
  Ok (l, mkHeap 4 [3; 2; 1; 0]).
Proof. vm_compute; eexists; reflexivity. Qed.

(** ** Postorder, borrowed and mutable: exactly when the program has undefined behaviour. *)

(** Calls of [next()] without looking at the children: as soon as a node whose container owns memory was yielded,
    the next node releases that memory a second time. *)
Theorem C49_postorder_next : forall Nd V (gvc : Nd -> V * list Nd) nt, node_tree gvc nt ->
  forall (owns : Nd -> bool) n, small_nodes gvc (nt n) ->
  forall k, let yielded := firstn k (postorder (positions (nt n))) in
  if existsb (fun p => owns (pos_here p)) (removelast yielded)
  then calls (opost_next gvc owns) k (opost_new n []) ⇓ UB
  else exists s, calls (opost_next gvc owns) k (opost_new n []) ⇓
         Ok (map (option_map (fun p => no_children (context_at gvc p))) (map (nth_error (postorder (positions (nt n)))) (seq 0 k)), s).
Proof. intros Nd V gvc nt H owns n Hs k; exact (post_calls gvc owns nt H n Hs k). Qed.
Print Assumptions C49_postorder_next.

(** Reading [children()] of each context: the memory was released before the context is yielded. *)
Theorem C49_postorder_children : forall Nd V (gvc : Nd -> V * list Nd) nt, node_tree gvc nt ->
  forall (owns : Nd -> bool) n, small_nodes gvc (nt n) ->
  forall k, let yielded := firstn k (postorder (positions (nt n))) in
  if existsb (fun p => owns (pos_here p)) yielded
  then calls (opost_next_reading gvc owns) k (opost_new n []) ⇓ UB
  else exists s, calls (opost_next_reading gvc owns) k (opost_new n []) ⇓
         Ok (map (nth_error (map (context_at gvc) (postorder (positions (nt n))))) (seq 0 k), s).
Proof. intros Nd V gvc nt H owns n Hs k; exact (post_reading gvc owns nt H n Hs k). Qed.
Print Assumptions C49_postorder_children.

(** Dropping the iterator after [k] calls: undefined behaviour if any node yielded so far, or any ancestor of one, has a
    container that owns memory. *)
Theorem C49_postorder_drop : forall Nd V (gvc : Nd -> V * list Nd) nt, node_tree gvc nt ->
  forall (owns : Nd -> bool) n, small_nodes gvc (nt n) ->
  forall k, let yielded := firstn k (postorder (positions (nt n))) in
  if existsb owns (flat_map (fun p => pos_above p ++ [pos_here p]) yielded)
  then use_and_drop (opost_next gvc owns) opost_drop k (opost_new n []) ⇓ UB
  else exists h, use_and_drop (opost_next gvc owns) opost_drop k (opost_new n []) ⇓
         Ok (map (option_map (fun p => no_children (context_at gvc p))) (map (nth_error (postorder (positions (nt n)))) (seq 0 k)), h).
Proof. intros Nd V gvc nt H owns n Hs k; exact (post_drop gvc owns nt H n Hs k). Qed.
Print Assumptions C49_postorder_drop.

(** With containers that own nothing, as slices and arrays of references, nothing goes wrong. *)
Theorem C49_postorder_slices : forall Nd V (gvc : Nd -> V * list Nd) nt, node_tree gvc nt ->
  forall n, small_nodes gvc (nt n) ->
  forall k, exists s, calls (opost_next_reading gvc (fun _ => false)) k (opost_new n []) ⇓
    Ok (map (nth_error (map (context_at gvc) (postorder (positions (nt n))))) (seq 0 k), s).
Proof.
  intros Nd V gvc nt H n Hs k; pose proof (C49_postorder_children Nd V gvc nt H (fun _ => false) n Hs k) as E; cbv zeta in E.
  replace (existsb _ _) with false in E; [exact E|]; clear E; induction (firstn _ _) as [|p l IH]; [reflexivity|exact IH].
Qed.
Print Assumptions C49_postorder_slices.

(** With [Vec]s, for every tree of more than one node and every number of calls but zero, dropping the iterator is undefined
    behaviour. *)
Theorem C49_postorder_vec_refuted : forall Nd V (gvc : Nd -> V * list Nd) nt, node_tree gvc nt ->
  forall n, small_nodes gvc (nt n) -> nkids gvc n <> [] ->
  forall k, 1 <= k -> use_and_drop (opost_next gvc (vec_owns gvc)) opost_drop k (opost_new n []) ⇓ UB.
Proof.
  intros Nd V gvc nt H n Hs Hk k H1; pose proof (C49_postorder_drop Nd V gvc nt H (vec_owns gvc) n Hs k) as E; cbv zeta in E.
  replace (existsb _ _) with true in E; [exact E|]; symmetry; apply existsb_exists; exists n.
  split; [|unfold vec_owns; destruct (nkids gvc n); [congruence|reflexivity]].
  destruct (postorder (positions (nt n))) as [|p l] eqn:El.
  { rewrite H in El; cbn in El; apply app_eq_nil in El; destruct El; discriminate. }
  destruct k as [|k]; [lia|]; cbn [firstn flat_map]; apply in_or_app; left.
  destruct (below_root (nt n) [] [] p) as (r & Er); [unfold positions in El; rewrite El; left; reflexivity|].
  rewrite Er, H; left; reflexivity.
Qed.
Print Assumptions C49_postorder_vec_refuted.

(** The smallest such program: a root with one leaf.  Stopping after the leaf, and reading the children of the root. *)
Example C49_vec_ex : let t := TNode 1 [TNode 2 []] in
  use_and_drop (opost_next tree_gvc (vec_owns tree_gvc)) opost_drop 1 (opost_new t []) 9 = UB /\
  calls (opost_next_reading tree_gvc (vec_owns tree_gvc)) 2 (opost_new t []) 9 = UB /\
  exists l s, calls (opost_next tree_gvc (vec_owns tree_gvc)) 3 (opost_new t []) 9 = Ok (l, s).
Proof. vm_compute; repeat split; do 2 eexists; reflexivity. Qed.
Example C49_hyps : node_tree tree_gvc (@subtrees nat) /\ small_nodes tree_gvc (subtrees ex_tree) /\ nkids tree_gvc ex_tree <> [].
Proof. split; [apply node_tree_tree|]; split; [repeat constructor; cbv; discriminate|discriminate]. Qed.
