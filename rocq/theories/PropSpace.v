(** * C56: what the iterators keep is bounded by the depth of the tree, or by two of its levels

    [after next k s0 s]: [s] is the state [k] calls of [next] after [s0]; such a state exists for every [k] wherever C01 to C31 say what
    the calls return.  Depth-first iterators: none of their vectors is ever longer than the tree is high, however many nodes
    it has.  Breadth-first iterators: the queue is no longer than two neighbouring levels have nodes.  The cache of values of the breadth-first iterators with
    ancestors or contexts is not counted here, nor what a vector holds while a call is running. *)
From Verif Require Import Prelim PrelimFacts Spec SpecFacts SpecPipe ModelNode NodeFacts ModelPre ModelPost ModelIn ModelBfs ModelLeaves ModelPipe ModelSpace ProofsSpace.

(** C56.  [dfs_preorder()]: the stack of children iterators. *)
Theorem C56_preorder : forall Nd V (gvc : Nd -> V * list Nd) nt, node_tree gvc nt -> forall n k s,
  after (pre_next gvc) k (pre_new n) s -> length (pre_stack s) <= height (nt n).
Proof. exact (@pre_space). Qed.
Print Assumptions C56_preorder.

Theorem C56_preorder_binary : forall Nd V (gvcb : Nd -> V * (option Nd * option Nd)) bt, node_btree gvcb bt -> forall n k s,
  after (pre_next (binary_gvc gvcb)) k (pre_new n) s -> length (pre_stack s) <= height (flat (bt n)).
Proof. intros Nd V gvcb bt Hb n; exact (pre_space _ _ (node_binary gvcb bt Hb) n). Qed.
Print Assumptions C56_preorder_binary.

(** C56.  [dfs_preorder().attach_ancestors()]: that stack and the ancestors. *)
Theorem C56_preorder_ancestors : forall Nd V (gvc : Nd -> V * list Nd) nt, node_tree gvc nt -> forall n k s s0,
  pre_attach_ancestors (pre_new n) = Ok s0 -> after (prea_next gvc) k s0 s -> length (pa_stack s) <= height (nt n) /\
    length (pa_items s) <= height (nt n).
Proof. intros Nd V gvc nt Hn n k s s0 E; injection E as <-; exact (prea_space gvc nt Hn n k s). Qed.
Print Assumptions C56_preorder_ancestors.

Theorem C56_preorder_ancestors_binary : forall Nd V (gvcb : Nd -> V * (option Nd * option Nd)) bt, node_btree gvcb bt -> forall n k s s0,
  pre_attach_ancestors (pre_new n) = Ok s0 -> after (prea_next (binary_gvc gvcb)) k s0 s -> length (pa_stack s) <= height (flat (bt n)) /\
    length (pa_items s) <= height (flat (bt n)).
Proof. intros Nd V gvcb bt Hb n k s s0 E; injection E as <-; exact (prea_space _ _ (node_binary gvcb bt Hb) n k s). Qed.
Print Assumptions C56_preorder_ancestors_binary.

(** C56.  [dfs_postorder()]: the stack of children iterators and that of the values not reported yet. *)
Theorem C56_postorder : forall Nd V (gvc : Nd -> V * list Nd) nt, node_tree gvc nt -> forall n k s,
  after (post_next gvc) k (post_new n) s -> length (po_stack s) <= height (nt n) /\
    length (po_items s) <= height (nt n).
Proof. exact (@post_space). Qed.
Print Assumptions C56_postorder.

Theorem C56_postorder_binary : forall Nd V (gvcb : Nd -> V * (option Nd * option Nd)) bt, node_btree gvcb bt -> forall n k s,
  after (post_next (binary_gvc gvcb)) k (post_new n) s -> length (po_stack s) <= height (flat (bt n)) /\
    length (po_items s) <= height (flat (bt n)).
Proof. intros Nd V gvcb bt Hb n; exact (post_space _ _ (node_binary gvcb bt Hb) n). Qed.
Print Assumptions C56_postorder_binary.

(** C56.  [dfs_postorder().attach_ancestors()]. *)
Theorem C56_postorder_ancestors : forall Nd V (gvc : Nd -> V * list Nd) nt, node_tree gvc nt -> forall n k s s0,
  post_attach_ancestors (post_new n) = Ok s0 -> after (posta_next gvc) k s0 s -> length (po_stack s) <= height (nt n) /\
    length (po_items s) <= height (nt n).
Proof. intros Nd V gvc nt Hn n k s s0 E; injection E as <-; exact (posta_space gvc nt Hn n k s). Qed.
Print Assumptions C56_postorder_ancestors.

Theorem C56_postorder_ancestors_binary : forall Nd V (gvcb : Nd -> V * (option Nd * option Nd)) bt, node_btree gvcb bt -> forall n k s s0,
  post_attach_ancestors (post_new n) = Ok s0 -> after (posta_next (binary_gvc gvcb)) k s0 s -> length (po_stack s) <= height (flat (bt n)) /\
    length (po_items s) <= height (flat (bt n)).
Proof. intros Nd V gvcb bt Hb n k s s0 E; injection E as <-; exact (posta_space _ _ (node_binary gvcb bt Hb) n k s). Qed.
Print Assumptions C56_postorder_ancestors_binary.

(** C56.  [dfs_preorder().attach_context()]: children iterators, path, ancestors. *)
Theorem C56_preorder_context : forall Nd V (gvc : Nd -> V * list Nd) nt, node_tree gvc nt -> forall n k s s0,
  pre_attach_context (pre_new n) = Ok s0 -> after (prec_next gvc) k s0 s -> length (pc_stack s) <= height (nt n) /\
    length (pc_path s) <= height (nt n) /\
    length (pc_anc s) <= height (nt n).
Proof. intros Nd V gvc nt Hn n k s s0 E; injection E as <-; exact (prec_space gvc nt Hn n k s). Qed.
Print Assumptions C56_preorder_context.

Theorem C56_preorder_context_binary : forall Nd V (gvcb : Nd -> V * (option Nd * option Nd)) bt, node_btree gvcb bt -> forall n k s s0,
  pre_attach_context (pre_new n) = Ok s0 -> after (precb_next gvcb pair_iter) k s0 s -> length (pc_stack s) <= height (flat (bt n)) /\
    length (pc_path s) <= height (flat (bt n)) /\
    length (pc_anc s) <= height (flat (bt n)).
Proof. intros Nd V gvcb bt Hb n k s s0 E; injection E as <-; exact (precb_space gvcb bt Hb n k s). Qed.
Print Assumptions C56_preorder_context_binary.

(** C56.  [dfs_postorder_iter().attach_context()] and the mutable version: with a container of children for each level. *)
Theorem C56_postorder_context : forall Nd V (gvc : Nd -> V * list Nd) nt, node_tree gvc nt -> forall n k s s0,
  post_attach_context (post_new n) = Ok s0 -> after (postc_next gvc) k s0 s -> length (ModelPost.pt_stack s) <= height (nt n) /\
    length (pt_conts s) <= height (nt n) /\
    length (ModelPost.pt_path s) <= height (nt n) /\
    length (pt_anc s) <= height (nt n).
Proof. intros Nd V gvc nt Hn n k s s0 E; injection E as <-; exact (postc_space gvc nt Hn n k s). Qed.
Print Assumptions C56_postorder_context.

Theorem C56_postorder_context_binary : forall Nd V (gvcb : Nd -> V * (option Nd * option Nd)) bt, node_btree gvcb bt -> forall n k s s0,
  post_attach_context (post_new n) = Ok s0 -> after (postcb_next gvcb pair_iter) k s0 s -> length (ModelPost.pt_stack s) <= height (flat (bt n)) /\
    length (pt_conts s) <= height (flat (bt n)) /\
    length (ModelPost.pt_path s) <= height (flat (bt n)) /\
    length (pt_anc s) <= height (flat (bt n)).
Proof. intros Nd V gvcb bt Hb n k s s0 E; injection E as <-; exact (postcb_space gvcb bt Hb n k s). Qed.
Print Assumptions C56_postorder_context_binary.

(** C56.  [dfs_postorder().attach_context()]. *)
Theorem C56_postorder_context_owned : forall Nd V (gvc : Nd -> V * list Nd) nt, node_tree gvc nt -> forall n k s s0,
  post_attach_context_owned (post_new n) = Ok s0 -> after (postco_next gvc) k s0 s -> length (pto_stack s) <= height (nt n) /\
    length (pto_path s) <= height (nt n) /\
    length (pto_anc s) <= height (nt n).
Proof. intros Nd V gvc nt Hn n k s s0 E; injection E as <-; exact (postco_space gvc nt Hn n k s). Qed.
Print Assumptions C56_postorder_context_owned.

Theorem C56_postorder_context_owned_binary : forall Nd V (gvcb : Nd -> V * (option Nd * option Nd)) bt, node_btree gvcb bt -> forall n k s s0,
  post_attach_context_owned (post_new n) = Ok s0 -> after (postcob_next gvcb pair_iter) k s0 s -> length (pto_stack s) <= height (flat (bt n)) /\
    length (pto_path s) <= height (flat (bt n)) /\
    length (pto_anc s) <= height (flat (bt n)).
Proof. intros Nd V gvcb bt Hb n k s s0 E; injection E as <-; exact (postcob_space gvcb bt Hb n k s). Qed.
Print Assumptions C56_postorder_context_owned_binary.

(** C56.  [dfs_inorder()]: the right children still to come and the values not reported yet. *)
Theorem C56_inorder : forall Nd V (gvcb : Nd -> V * (option Nd * option Nd)) bt, node_btree gvcb bt -> forall n k s,
  after (in_next gvcb) k (in_new n) s -> length (in_right s) <= height (flat (bt n)) /\
    length (in_items s) <= height (flat (bt n)).
Proof. exact (@in_space). Qed.
Print Assumptions C56_inorder.

(** C56.  [dfs_inorder().attach_ancestors()]. *)
Theorem C56_inorder_ancestors : forall Nd V (gvcb : Nd -> V * (option Nd * option Nd)) bt, node_btree gvcb bt -> forall n k s s0,
  in_attach_ancestors (in_new n) = Ok s0 -> after (ina_next gvcb) k s0 s -> length (ia_right s) <= height (flat (bt n)) /\
    length (ia_items s) <= height (flat (bt n)) /\
    length (ia_status s) <= height (flat (bt n)).
Proof. intros Nd V gvcb bt Hb n k s s0 E; injection E as <-; exact (ina_space gvcb bt Hb n k s). Qed.
Print Assumptions C56_inorder_ancestors.

(** C56.  [dfs_inorder_iter().attach_context()] and the mutable version. *)
Theorem C56_inorder_context : forall Nd V (gvcb : Nd -> V * (option Nd * option Nd)) bt, node_btree gvcb bt -> forall n k s s0,
  in_attach_context (in_new n) = Ok s0 -> after (inc_next gvcb) k s0 s -> length (ic_right s) <= height (flat (bt n)) /\
    length (ic_path s) <= height (flat (bt n)) /\
    length (ic_anc s) <= height (flat (bt n)) /\
    length (ic_conts s) <= height (flat (bt n)) /\
    length (ic_status s) <= height (flat (bt n)).
Proof. intros Nd V gvcb bt Hb n k s s0 E; injection E as <-; exact (inc_space gvcb bt Hb n k s). Qed.
Print Assumptions C56_inorder_context.

(** C56.  [dfs_inorder().attach_context()]. *)
Theorem C56_inorder_context_owned : forall Nd V (gvcb : Nd -> V * (option Nd * option Nd)) bt, node_btree gvcb bt -> forall n k s s0,
  in_attach_context_owned (in_new n) = Ok s0 -> after (inco_next gvcb) k s0 s -> length (io_right s) <= height (flat (bt n)) /\
    length (io_path s) <= height (flat (bt n)) /\
    length (io_anc s) <= height (flat (bt n)) /\
    length (io_status s) <= height (flat (bt n)).
Proof. intros Nd V gvcb bt Hb n k s s0 E; injection E as <-; exact (inco_space gvcb bt Hb n k s). Qed.
Print Assumptions C56_inorder_context_owned.

(** C56.  [leaves()] of an unused [dfs_preorder()]: its two stacks of children iterators together, and the values put aside. *)
Theorem C56_preorder_leaves : forall Nd V (gvc : Nd -> V * list Nd) nt, node_tree gvc nt -> forall n k s,
  after (dleaves_next gvc) k (pre_leaves (pre_new n)) s -> length (dl_top s) + length (dl_bottom s) <= height (nt n) /\
    length (dl_items s) <= height (nt n).
Proof. exact (@dl_space). Qed.
Print Assumptions C56_preorder_leaves.

Theorem C56_preorder_leaves_binary : forall Nd V (gvcb : Nd -> V * (option Nd * option Nd)) bt, node_btree gvcb bt -> forall n k s,
  after (dleaves_next (binary_gvc gvcb)) k (pre_leaves (pre_new n)) s -> length (dl_top s) + length (dl_bottom s) <= height (flat (bt n)) /\
    length (dl_items s) <= height (flat (bt n)).
Proof. intros Nd V gvcb bt Hb n; exact (dl_space _ _ (node_binary gvcb bt Hb) n). Qed.
Print Assumptions C56_preorder_leaves_binary.

(** C56.  [leaves()] of an unused [dfs_postorder()]. *)
Theorem C56_postorder_leaves : forall Nd V (gvc : Nd -> V * list Nd) nt, node_tree gvc nt -> forall n k s,
  after (dleaves_next gvc) k (post_leaves (post_new n)) s -> length (dl_top s) + length (dl_bottom s) <= height (nt n) /\
    length (dl_items s) <= height (nt n).
Proof. exact (@dl_space). Qed.
Print Assumptions C56_postorder_leaves.

Theorem C56_postorder_leaves_binary : forall Nd V (gvcb : Nd -> V * (option Nd * option Nd)) bt, node_btree gvcb bt -> forall n k s,
  after (dleaves_next (binary_gvc gvcb)) k (post_leaves (post_new n)) s -> length (dl_top s) + length (dl_bottom s) <= height (flat (bt n)) /\
    length (dl_items s) <= height (flat (bt n)).
Proof. intros Nd V gvcb bt Hb n; exact (dl_space _ _ (node_binary gvcb bt Hb) n). Qed.
Print Assumptions C56_postorder_leaves_binary.

(** C56.  [dfs_preorder().attach_ancestors().leaves()]. *)
Theorem C56_preorder_ancestors_leaves : forall Nd V (gvc : Nd -> V * list Nd) nt, node_tree gvc nt -> forall n k s,
  after (daleaves_next gvc) k (prea_leaves (prea_new n)) s -> length (da_new s) + length (da_old s) <= height (nt n) /\
    length (da_items s) <= height (nt n).
Proof. exact (@da_space). Qed.
Print Assumptions C56_preorder_ancestors_leaves.

Theorem C56_preorder_ancestors_leaves_binary : forall Nd V (gvcb : Nd -> V * (option Nd * option Nd)) bt, node_btree gvcb bt -> forall n k s,
  after (daleaves_next (binary_gvc gvcb)) k (prea_leaves (prea_new n)) s -> length (da_new s) + length (da_old s) <= height (flat (bt n)) /\
    length (da_items s) <= height (flat (bt n)).
Proof. intros Nd V gvcb bt Hb n; exact (da_space _ _ (node_binary gvcb bt Hb) n). Qed.
Print Assumptions C56_preorder_ancestors_leaves_binary.

(** C56.  [dfs_postorder().attach_ancestors().leaves()]. *)
Theorem C56_postorder_ancestors_leaves : forall Nd V (gvc : Nd -> V * list Nd) nt, node_tree gvc nt -> forall n k s,
  after (daleaves_next gvc) k (posta_leaves (post_new n)) s -> length (da_new s) + length (da_old s) <= height (nt n) /\
    length (da_items s) <= height (nt n).
Proof. exact (@da_space). Qed.
Print Assumptions C56_postorder_ancestors_leaves.

Theorem C56_postorder_ancestors_leaves_binary : forall Nd V (gvcb : Nd -> V * (option Nd * option Nd)) bt, node_btree gvcb bt -> forall n k s,
  after (daleaves_next (binary_gvc gvcb)) k (posta_leaves (post_new n)) s -> length (da_new s) + length (da_old s) <= height (flat (bt n)) /\
    length (da_items s) <= height (flat (bt n)).
Proof. intros Nd V gvcb bt Hb n; exact (da_space _ _ (node_binary gvcb bt Hb) n). Qed.
Print Assumptions C56_postorder_ancestors_leaves_binary.

(** C56.  [bfs()]: the queue of children iterators is no longer than two neighbouring levels have nodes. *)
Theorem C56_bfs : forall Nd V (gvc : Nd -> V * list Nd) nt, node_tree gvc nt -> forall n k s,
  after (bfs_next gvc) k (bfs_new n) s -> exists d, length (bfs_queue s) <= length (level d (nt n)) + length (level (S d) (nt n)).
Proof. exact (@bfs_space). Qed.
Print Assumptions C56_bfs.

Theorem C56_bfs_binary : forall Nd V (gvcb : Nd -> V * (option Nd * option Nd)) bt, node_btree gvcb bt -> forall n k s,
  after (bfs_next (binary_gvc gvcb)) k (bfs_new n) s -> exists d, length (bfs_queue s) <= length (level d (flat (bt n))) + length (level (S d) (flat (bt n))).
Proof. intros Nd V gvcb bt Hb n; exact (bfs_space _ _ (node_binary gvcb bt Hb) n). Qed.
Print Assumptions C56_bfs_binary.

(** C56.  [bfs().leaves()]: its two queues together. *)
Theorem C56_bfs_leaves : forall Nd V (gvc : Nd -> V * list Nd) nt, node_tree gvc nt -> forall n k s,
  after (bleaves_next gvc) k (bfs_leaves (bfs_new n)) s -> exists d, length (bl_old s) + length (bl_new s) <= length (level d (nt n)) + length (level (S d) (nt n)).
Proof. exact (@bl_space). Qed.
Print Assumptions C56_bfs_leaves.

Theorem C56_bfs_leaves_binary : forall Nd V (gvcb : Nd -> V * (option Nd * option Nd)) bt, node_btree gvcb bt -> forall n k s,
  after (bleaves_next (binary_gvc gvcb)) k (bfs_leaves (bfs_new n)) s -> exists d, length (bl_old s) + length (bl_new s) <= length (level d (flat (bt n))) + length (level (S d) (flat (bt n))).
Proof. intros Nd V gvcb bt Hb n; exact (bl_space _ _ (node_binary gvcb bt Hb) n). Qed.
Print Assumptions C56_bfs_leaves_binary.

(** C56.  [bfs().attach_ancestors().leaves()]: the queue. *)
Theorem C56_bfs_ancestors_leaves : forall Nd V (gvc : Nd -> V * list Nd) nt, node_tree gvc nt -> forall n k s,
  after (baleaves_next gvc) k (bfsa_leaves (bfsa_new gvc n)) s -> exists d, length (ba_queue s) <= length (level d (nt n)) + length (level (S d) (nt n)).
Proof. exact (@bal_space). Qed.
Print Assumptions C56_bfs_ancestors_leaves.

Theorem C56_bfs_ancestors_leaves_binary : forall Nd V (gvcb : Nd -> V * (option Nd * option Nd)) bt, node_btree gvcb bt -> forall n k s,
  after (baleaves_next (binary_gvc gvcb)) k (bfsa_leaves (bfsa_new (binary_gvc gvcb) n)) s -> exists d, length (ba_queue s) <= length (level d (flat (bt n))) + length (level (S d) (flat (bt n))).
Proof. intros Nd V gvcb bt Hb n; exact (bal_space _ _ (node_binary gvcb bt Hb) n). Qed.
Print Assumptions C56_bfs_ancestors_leaves_binary.

(** C56.  [bfs().attach_ancestors()]: the queue. *)
Theorem C56_bfs_ancestors : forall Nd V (gvc : Nd -> V * list Nd) nt, node_tree gvc nt -> forall n k s s0,
  bfs_attach_ancestors gvc (bfs_new n) = Ok s0 -> after (bfsa_next gvc) k s0 s -> exists d, length (ba_queue s) <= length (level d (nt n)) + length (level (S d) (nt n)).
Proof. intros Nd V gvc nt Hn n k s s0 E; injection E as <-; exact (ba_space gvc nt Hn n k s). Qed.
Print Assumptions C56_bfs_ancestors.

Theorem C56_bfs_ancestors_binary : forall Nd V (gvcb : Nd -> V * (option Nd * option Nd)) bt, node_btree gvcb bt -> forall n k s s0,
  bfs_attach_ancestors (binary_gvc gvcb) (bfs_new n) = Ok s0 -> after (bfsa_next (binary_gvc gvcb)) k s0 s -> exists d, length (ba_queue s) <= length (level d (flat (bt n))) + length (level (S d) (flat (bt n))).
Proof. intros Nd V gvcb bt Hb n k s s0 E; injection E as <-; exact (ba_space _ _ (node_binary gvcb bt Hb) n k s). Qed.
Print Assumptions C56_bfs_ancestors_binary.

(** C56.  [bfs().attach_context()]: the queue. *)
Theorem C56_bfs_context : forall Nd V (gvc : Nd -> V * list Nd) nt, node_tree gvc nt -> forall n k s s0,
  bfs_attach_context gvc (bfs_new n) = Ok s0 -> after (bfsc_next gvc) k s0 s -> exists d, length (bc_queue s) <= length (level d (nt n)) + length (level (S d) (nt n)).
Proof. intros Nd V gvc nt Hn n k s s0; exact (bfsc_space gvc nt Hn n k s0 s). Qed.
Print Assumptions C56_bfs_context.

Theorem C56_bfs_context_binary : forall Nd V (gvcb : Nd -> V * (option Nd * option Nd)) bt, node_btree gvcb bt -> forall n k s s0,
  bfs_attach_context_binary gvcb (bfs_new n) = Ok s0 -> after (bfscb_next gvcb pair_iter) k s0 s -> exists d, length (bc_queue s) <= length (level d (flat (bt n))) + length (level (S d) (flat (bt n))).
Proof. intros Nd V gvcb bt Hb n k s s0; exact (bfscb_space gvcb bt Hb n k s0 s). Qed.
Print Assumptions C56_bfs_context_binary.

(** C56.  Any chain of [map_tree], [prune], [prune_path] and [prune_depth] stages: there is one stack of children iterators, however
    many stages there are, and every vector in the object, the stages' own included ([held], ModelSpace.v), stays below the height. *)
Theorem C56_pipeline : forall Nd V (gvc : Nd -> V * list Nd) nt, node_tree gvc nt -> forall A (c : chain V A) n k s,
  let P := into_pipeline gvc n in
  after (p_next (tree_chain P c)) k (p_init (tree_chain P c)) s -> Forall (fun x => x <= height (nt n)) (held tree_depth [] P start_held c s).
Proof. intros Nd V gvc nt Hn A c n k s; exact (chain_space gvc nt Hn n c k s). Qed.
Print Assumptions C56_pipeline.

Theorem C56_pipeline_binary : forall Nd V (gvcb : Nd -> V * (option Nd * option Nd)) bt, node_btree gvcb bt -> forall A (c : chain V A) n k s,
  let P := into_pipeline_binary gvcb n in
  after (p_next (btree_chain P c)) k (p_init (btree_chain P c)) s -> Forall (fun x => x <= height (flat (bt n))) (held_binary tree_depth P start_held c s).
Proof. intros Nd V gvcb bt Hb A c n k s; exact (bchain_space gvcb bt Hb n c k s). Qed.
Print Assumptions C56_pipeline_binary.

(** The bounds are reached: the number of entries after each call. *)
Definition sizes {St O} (next : nat -> St -> Res (O * St)) (size : St -> nat) (s : St) (k : nat) : list nat :=
  map (fun j => match calls next j s 100 with Ok (_, s') => size s' | _ => 999 end) (seq 0 (S k)).

(** A tree of height 4 with 9 nodes, two on the second level, four on the third. *)
Definition ex_t : tree nat :=
  TNode 0 [TNode 1 [TNode 3 []; TNode 4 [TNode 7 []; TNode 8 []]]; TNode 2 [TNode 5 []; TNode 6 []]].
Example C56_ex : height ex_t = 4 /\ map (fun d => length (level d ex_t)) [0; 1; 2; 3] = [1; 2; 4; 2] /\
  sizes (pre_next tree_gvc) (fun s => length (pre_stack s)) (pre_new ex_t) 10 = [0; 1; 2; 3; 3; 4; 4; 2; 3; 3; 0] /\
  sizes (post_next tree_gvc) (fun s => length (po_stack s)) (post_new ex_t) 10 = [0; 2; 3; 3; 2; 1; 2; 2; 1; 0; 0] /\
  sizes (bfs_next tree_gvc) (fun s => length (bfs_queue s)) (bfs_new ex_t) 10 = [0; 1; 2; 3; 3; 4; 4; 5; 4; 5; 0] /\
  sizes (dleaves_next tree_gvc) (fun s => length (dl_top s) + length (dl_bottom s)) (pre_leaves (pre_new ex_t)) 7 = [0; 2; 3; 3; 2; 2; 0; 0].
Proof. repeat split; vm_compute; reflexivity. Qed.

Definition ex_b : btree nat :=
  BNode 0 (Some (BNode 1 None (Some (BNode 3 (Some (BNode 5 None None)) None)))) (Some (BNode 2 (Some (BNode 4 None None)) None)).
Example C56_ex_binary : height (flat ex_b) = 4 /\
  sizes (in_next btree_gvcb) (fun s => length (in_right s)) (in_new ex_b) 7 = [1; 2; 3; 2; 1; 2; 1; 0] /\
  sizes (inc_next btree_gvcb) (fun s => length (ic_anc s)) (inc_new ex_b []) 7 = [0; 2; 4; 3; 1; 3; 2; 0] /\
  sizes (precb_next btree_gvcb pair_iter) (fun s => length (pc_stack s)) (prec_new ex_b []) 7 = [0; 0; 1; 2; 3; 1; 2; 0].
Proof. repeat split; vm_compute; reflexivity. Qed.

Definition ex_chain : chain nat nat :=
  c_prune (c_map (c_prune_depth (c_prune c_start tt (fun g v => (g, v =? 3))) 2) tt (fun g v => (g, 10 * v))) tt (fun g v => (g, v =? 50)).
Example C56_ex_pipeline :
  map (fun k => match calls (p_next (tree_chain (into_pipeline tree_gvc ex_t) ex_chain)) k (p_init (tree_chain (into_pipeline tree_gvc ex_t) ex_chain)) 100 with
    Ok (_, s) => held tree_depth [] (into_pipeline tree_gvc ex_t) start_held ex_chain s | _ => [] end) (seq 0 6) =
  [[0; 0; 0; 0; 0; 0]; [0; 0; 0; 0; 0; 0]; [1; 1; 1; 1; 1; 1]; [2; 2; 2; 2; 2; 2]; [1; 1; 1; 1; 1; 1]; [2; 2; 2; 2; 2; 2]].
Proof. vm_compute; reflexivity. Qed.
