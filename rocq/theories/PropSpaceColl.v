(** * C56 for collections: the iterators over a collection keep what one tree's iterator keeps

    The object owns the caller's iterator over the collection and, in [co_cur] or [cc_cur], the iterator of one tree.  However many
    trees there are, after any number of calls the vectors in it are no longer than some tree of the collection is high; the path of a context has
    one entry more, the index of the tree.  Breadth first: the queue is no longer than two neighbouring levels of one tree have nodes. *)
From Verif Require Import Prelim PrelimFacts Spec SpecFacts SpecPipe ModelNode NodeFacts ModelPre ModelPost ModelIn ModelBfs ModelColl ModelPipe ModelPipeColl ModelSpace ProofsSpace ProofsSpaceColl.

(** C56.  [dfs_preorder_each()]. *)
Theorem C56_each_preorder : forall Nd V (gvc : Nd -> V * list Nd) nt, node_tree gvc nt -> forall trees k s,
  after (pre_each_next gvc) k (coll_new trees) s -> forall it, co_cur s = Some it ->
  exists n, In n trees /\ length (pre_stack it) <= height (nt n).
Proof. exact (@pre_each_space). Qed.
Print Assumptions C56_each_preorder.

(** C56.  [dfs_preorder_each()] of binary trees. *)
Theorem C56_each_preorder_binary : forall Nd V (gvcb : Nd -> V * (option Nd * option Nd)) bt, node_btree gvcb bt -> forall trees k s,
  after (pre_each_next (binary_gvc gvcb)) k (coll_new trees) s -> forall it, co_cur s = Some it ->
  exists n, In n trees /\ length (pre_stack it) <= height (flat (bt n)).
Proof. intros Nd V gvcb bt Hb trees; exact (pre_each_space _ _ (node_binary gvcb bt Hb) trees). Qed.
Print Assumptions C56_each_preorder_binary.

(** C56.  [dfs_postorder_each()]. *)
Theorem C56_each_postorder : forall Nd V (gvc : Nd -> V * list Nd) nt, node_tree gvc nt -> forall trees k s,
  after (post_each_next gvc) k (coll_new trees) s -> forall it, co_cur s = Some it ->
  exists n, In n trees /\ length (po_stack it) <= height (nt n) /\ length (po_items it) <= height (nt n).
Proof. exact (@post_each_space). Qed.
Print Assumptions C56_each_postorder.

(** C56.  [dfs_postorder_each()] of binary trees. *)
Theorem C56_each_postorder_binary : forall Nd V (gvcb : Nd -> V * (option Nd * option Nd)) bt, node_btree gvcb bt -> forall trees k s,
  after (post_each_next (binary_gvc gvcb)) k (coll_new trees) s -> forall it, co_cur s = Some it ->
  exists n, In n trees /\ length (po_stack it) <= height (flat (bt n)) /\ length (po_items it) <= height (flat (bt n)).
Proof. intros Nd V gvcb bt Hb trees; exact (post_each_space _ _ (node_binary gvcb bt Hb) trees). Qed.
Print Assumptions C56_each_postorder_binary.

(** C56.  [dfs_inorder_each()]. *)
Theorem C56_each_inorder : forall Nd V (gvcb : Nd -> V * (option Nd * option Nd)) bt, node_btree gvcb bt -> forall trees k s,
  after (in_each_next gvcb) k (coll_new trees) s -> forall it, co_cur s = Some it ->
  exists n, In n trees /\ length (in_right it) <= height (flat (bt n)) /\ length (in_items it) <= height (flat (bt n)).
Proof. exact (@in_each_space). Qed.
Print Assumptions C56_each_inorder.

(** C56.  [bfs_each()]. *)
Theorem C56_each_bfs : forall Nd V (gvc : Nd -> V * list Nd) nt, node_tree gvc nt -> forall trees k s,
  after (bfs_each_next gvc) k (coll_new trees) s -> forall it, co_cur s = Some it ->
  exists n, In n trees /\ exists d, length (bfs_queue it) <= length (level d (nt n)) + length (level (S d) (nt n)).
Proof. exact (@bfs_each_space). Qed.
Print Assumptions C56_each_bfs.

(** C56.  [bfs_each()] of binary trees. *)
Theorem C56_each_bfs_binary : forall Nd V (gvcb : Nd -> V * (option Nd * option Nd)) bt, node_btree gvcb bt -> forall trees k s,
  after (bfs_each_next (binary_gvc gvcb)) k (coll_new trees) s -> forall it, co_cur s = Some it ->
  exists n, In n trees /\ exists d, length (bfs_queue it) <= length (level d (flat (bt n))) + length (level (S d) (flat (bt n))).
Proof. intros Nd V gvcb bt Hb trees; exact (bfs_each_space _ _ (node_binary gvcb bt Hb) trees). Qed.
Print Assumptions C56_each_bfs_binary.

(** C56.  [dfs_preorder_each().attach_context()]. *)
Theorem C56_each_preorder_context : forall Nd V (gvc : Nd -> V * list Nd) nt, node_tree gvc nt -> forall trees k s s0,
  coll_attach (coll_new trees : coll Nd (pre_iter Nd)) = Ok s0 -> after (prec_each_next gvc) k s0 s -> forall it, cc_cur s = Some it ->
  exists n, In n trees /\ length (pc_stack it) <= height (nt n) /\ length (pc_path it) <= 1 + height (nt n) /\ length (pc_anc it) <= height (nt n).
Proof. intros Nd V gvc nt Hn trees k s s0; exact (prec_each_space gvc nt Hn trees _ k s0 s). Qed.
Print Assumptions C56_each_preorder_context.

(** C56.  [dfs_preorder_each().attach_context()] of binary trees. *)
Theorem C56_each_preorder_context_binary : forall Nd V (gvcb : Nd -> V * (option Nd * option Nd)) bt, node_btree gvcb bt -> forall trees k s s0,
  coll_attach (coll_new trees : coll Nd (pre_iter Nd)) = Ok s0 -> after (precb_each_next gvcb) k s0 s -> forall it, cc_cur s = Some it ->
  exists n, In n trees /\ length (pc_stack it) <= height (flat (bt n)) /\ length (pc_path it) <= 1 + height (flat (bt n)) /\ length (pc_anc it) <= height (flat (bt n)).
Proof. intros Nd V gvcb bt Hn trees k s s0; exact (precb_each_space gvcb bt Hn trees _ k s0 s). Qed.
Print Assumptions C56_each_preorder_context_binary.

(** C56.  [dfs_postorder_iter_each().attach_context()] and the mutable version. *)
Theorem C56_each_postorder_context : forall Nd V (gvc : Nd -> V * list Nd) nt, node_tree gvc nt -> forall trees k s s0,
  coll_attach (coll_new trees : coll Nd (post_iter Nd V)) = Ok s0 -> after (postc_each_next gvc) k s0 s -> forall it, cc_cur s = Some it ->
  exists n, In n trees /\ length (ModelPost.pt_stack it) <= height (nt n) /\ length (pt_conts it) <= height (nt n) /\
    length (ModelPost.pt_path it) <= 1 + height (nt n) /\ length (pt_anc it) <= height (nt n).
Proof. intros Nd V gvc nt Hn trees k s s0; exact (postc_each_space gvc nt Hn trees _ k s0 s). Qed.
Print Assumptions C56_each_postorder_context.

(** C56.  [dfs_postorder_iter_each().attach_context()] and the mutable version, of binary trees. *)
Theorem C56_each_postorder_context_binary : forall Nd V (gvcb : Nd -> V * (option Nd * option Nd)) bt, node_btree gvcb bt -> forall trees k s s0,
  coll_attach (coll_new trees : coll Nd (post_iter Nd V)) = Ok s0 -> after (postcb_each_next gvcb) k s0 s -> forall it, cc_cur s = Some it ->
  exists n, In n trees /\ length (ModelPost.pt_stack it) <= height (flat (bt n)) /\ length (pt_conts it) <= height (flat (bt n)) /\
    length (ModelPost.pt_path it) <= 1 + height (flat (bt n)) /\ length (pt_anc it) <= height (flat (bt n)).
Proof. intros Nd V gvcb bt Hn trees k s s0; exact (postcb_each_space gvcb bt Hn trees _ k s0 s). Qed.
Print Assumptions C56_each_postorder_context_binary.

(** C56.  [dfs_postorder_each().attach_context()]. *)
Theorem C56_each_postorder_context_owned : forall Nd V (gvc : Nd -> V * list Nd) nt, node_tree gvc nt -> forall trees k s s0,
  coll_attach (coll_new trees : coll Nd (post_iter Nd V)) = Ok s0 -> after (postco_each_next gvc) k s0 s -> forall it, cc_cur s = Some it ->
  exists n, In n trees /\ length (pto_stack it) <= height (nt n) /\ length (pto_path it) <= 1 + height (nt n) /\ length (pto_anc it) <= height (nt n).
Proof. intros Nd V gvc nt Hn trees k s s0; exact (postco_each_space gvc nt Hn trees _ k s0 s). Qed.
Print Assumptions C56_each_postorder_context_owned.

(** C56.  [dfs_postorder_each().attach_context()] of binary trees. *)
Theorem C56_each_postorder_context_owned_binary : forall Nd V (gvcb : Nd -> V * (option Nd * option Nd)) bt, node_btree gvcb bt -> forall trees k s s0,
  coll_attach (coll_new trees : coll Nd (post_iter Nd V)) = Ok s0 -> after (postcob_each_next gvcb) k s0 s -> forall it, cc_cur s = Some it ->
  exists n, In n trees /\ length (pto_stack it) <= height (flat (bt n)) /\ length (pto_path it) <= 1 + height (flat (bt n)) /\ length (pto_anc it) <= height (flat (bt n)).
Proof. intros Nd V gvcb bt Hn trees k s s0; exact (postcob_each_space gvcb bt Hn trees _ k s0 s). Qed.
Print Assumptions C56_each_postorder_context_owned_binary.

(** C56.  [dfs_inorder_iter_each().attach_context()] and the mutable version. *)
Theorem C56_each_inorder_context : forall Nd V (gvcb : Nd -> V * (option Nd * option Nd)) bt, node_btree gvcb bt -> forall trees k s s0,
  coll_attach (coll_new trees : coll Nd (in_iter Nd V)) = Ok s0 -> after (inc_each_next gvcb) k s0 s -> forall it, cc_cur s = Some it ->
  exists n, In n trees /\ length (ic_right it) <= height (flat (bt n)) /\ length (ic_path it) <= 1 + height (flat (bt n)) /\
    length (ic_anc it) <= height (flat (bt n)) /\ length (ic_conts it) <= height (flat (bt n)) /\ length (ic_status it) <= height (flat (bt n)).
Proof. intros Nd V gvcb bt Hn trees k s s0; exact (inc_each_space gvcb bt Hn trees _ k s0 s). Qed.
Print Assumptions C56_each_inorder_context.

(** C56.  [dfs_inorder_each().attach_context()]. *)
Theorem C56_each_inorder_context_owned : forall Nd V (gvcb : Nd -> V * (option Nd * option Nd)) bt, node_btree gvcb bt -> forall trees k s s0,
  coll_attach (coll_new trees : coll Nd (in_iter Nd V)) = Ok s0 -> after (inco_each_next gvcb) k s0 s -> forall it, cc_cur s = Some it ->
  exists n, In n trees /\ length (io_right it) <= height (flat (bt n)) /\ length (io_path it) <= 1 + height (flat (bt n)) /\
    length (io_anc it) <= height (flat (bt n)) /\ length (io_status it) <= height (flat (bt n)).
Proof. intros Nd V gvcb bt Hn trees k s s0; exact (inco_each_space gvcb bt Hn trees _ k s0 s). Qed.
Print Assumptions C56_each_inorder_context_owned.

(** C56.  [bfs_each().attach_context()]: the queue. *)
Theorem C56_each_bfs_context : forall Nd V (gvc : Nd -> V * list Nd) nt, node_tree gvc nt -> forall trees k s s0,
  coll_attach (coll_new trees : coll Nd (bfs_iter Nd)) = Ok s0 -> after (bfsc_each_next gvc) k s0 s -> forall it, cc_cur s = Some it ->
  exists n, In n trees /\ exists d, length (bc_queue it) <= length (level d (nt n)) + length (level (S d) (nt n)).
Proof. intros Nd V gvc nt Hn trees k s s0; exact (bfsc_each_space gvc nt Hn trees _ k s0 s). Qed.
Print Assumptions C56_each_bfs_context.

(** C56.  [bfs_each().attach_context()] of binary trees: the queue. *)
Theorem C56_each_bfs_context_binary : forall Nd V (gvcb : Nd -> V * (option Nd * option Nd)) bt, node_btree gvcb bt -> forall trees k s s0,
  coll_attach (coll_new trees : coll Nd (bfs_iter Nd)) = Ok s0 -> after (bfscb_each_next gvcb) k s0 s -> forall it, cc_cur s = Some it ->
  exists n, In n trees /\ exists d, length (bc_queue it) <= length (level d (flat (bt n))) + length (level (S d) (flat (bt n))).
Proof. intros Nd V gvcb bt Hn trees k s s0; exact (bfscb_each_space gvcb bt Hn trees _ k s0 s). Qed.
Print Assumptions C56_each_bfs_context_binary.

(** C56.  Any chain of [map_tree_each], [prune_each], [prune_path_each] and [prune_depth_each] stages behind [into_pipeline()] of a
    collection: every vector in the object, the stages' own included, is no longer than one more than the height of the highest tree. *)
Theorem C56_each_pipeline : forall Nd V (gvc : Nd -> V * list Nd) nt, node_tree gvc nt -> forall A (c : chain V A) trees H k s,
  1 <= H -> (forall n, In n trees -> height (nt n) < H) -> let P := into_pipeline_each gvc trees in
  after (p_next (each_chain P c)) k (p_init (each_chain P c)) s -> Forall (fun x => x <= H) (held coll_depth [0%N] P each_held c s).
Proof. intros Nd V gvc nt Hn A c trees H k s; exact (each_chain_space gvc nt Hn trees H c k s). Qed.
Print Assumptions C56_each_pipeline.

Theorem C56_each_pipeline_binary : forall Nd V (gvcb : Nd -> V * (option Nd * option Nd)) bt, node_btree gvcb bt -> forall A (c : chain V A) trees H k s,
  (forall n, In n trees -> height (flat (bt n)) < H) -> let P := into_pipeline_each_binary gvcb trees in
  after (p_next (each_chain_binary P c)) k (p_init (each_chain_binary P c)) s -> Forall (fun x => x <= H) (held_binary coll_depth P each_held c s).
Proof. intros Nd V gvcb bt Hb A c trees H k s; exact (each_bchain_space gvcb bt Hb trees H c k s). Qed.
Print Assumptions C56_each_pipeline_binary.

(** The number of entries after each call: nothing is left of the trees before. *)
Definition each_sizes {St It O} (next : nat -> St -> Res (O * St)) (cur : St -> option It) (size : It -> nat) (s : St) (k : nat) : list nat :=
  map (fun j => match calls next j s 100 with Ok (_, s') => match cur s' with Some it => size it | None => 0 end | _ => 999 end) (seq 0 (S k)).

Definition each_t : list (tree nat) := [TNode 0 [TNode 1 [TNode 2 []]; TNode 3 []]; TNode 4 []; TNode 5 [TNode 6 [TNode 7 []]]].
Example C56_each_ex : map height each_t = [3; 1; 3] /\
  each_sizes (pre_each_next tree_gvc) co_cur (fun s => length (pre_stack s)) (coll_new each_t) 9 = [0; 1; 2; 3; 2; 1; 1; 2; 3; 0] /\
  each_sizes (post_each_next tree_gvc) co_cur (fun s => length (po_stack s)) (coll_new each_t) 9 = [0; 2; 1; 1; 0; 0; 2; 1; 0; 0] /\
  each_sizes (bfs_each_next tree_gvc) co_cur (fun s => length (bfs_queue s)) (coll_new each_t) 9 = [0; 1; 2; 3; 3; 1; 1; 2; 2; 0].
Proof. repeat split; vm_compute; reflexivity. Qed.

(** A context of a tree of height 3: at most 3 ancestors, and a path of up to 3 entries. *)
Example C56_each_ex_context : exists s0, coll_attach (coll_new each_t : coll (tree nat) (pre_iter (tree nat))) = Ok s0 /\
  each_sizes (prec_each_next tree_gvc) cc_cur (fun s => length (pc_anc s)) s0 9 = [0; 1; 2; 3; 2; 1; 1; 2; 3; 0] /\
  each_sizes (prec_each_next tree_gvc) cc_cur (fun s => length (pc_path s)) s0 9 = [0; 1; 2; 3; 2; 1; 1; 2; 3; 0].
Proof. eexists; repeat split; vm_compute; reflexivity. Qed.

Definition each_b : list (btree nat) := [BNode 0 (Some (BNode 1 None (Some (BNode 2 None None)))) None; BNode 3 None (Some (BNode 4 None None))].
Example C56_each_ex_binary : map (fun b => height (flat b)) each_b = [3; 2] /\
  each_sizes (in_each_next btree_gvcb) co_cur (fun s => length (in_right s)) (coll_new each_b) 6 = [0; 2; 2; 1; 1; 1; 0] /\
  exists s0, coll_attach (coll_new each_b : coll (btree nat) (in_iter (btree nat) nat)) = Ok s0 /\
    each_sizes (inc_each_next btree_gvcb) cc_cur (fun s => length (ic_path s)) s0 6 = [0; 2; 3; 1; 1; 2; 0].
Proof.
  split; [vm_compute; reflexivity|]; split; [vm_compute; reflexivity|].
  exists (mkCollc each_b usize_max None); split; [reflexivity|vm_compute; reflexivity].
Qed.

Definition each_c : chain nat nat := c_prune (c_prune_path c_start tt (fun g _ v => (g, v =? 3))) tt (fun g v => (g, v =? 2)).
Example C56_each_ex_pipeline : (forall n, In n each_t -> height n < 4) /\
  map (fun k => match calls (p_next (each_chain (into_pipeline_each tree_gvc each_t) each_c)) k (p_init (each_chain (into_pipeline_each tree_gvc each_t) each_c)) 100 with
    Ok (_, s) => held coll_depth [0%N] (into_pipeline_each tree_gvc each_t) each_held each_c s | _ => [] end) (seq 0 8) =
  [[0; 0; 1; 1]; [1; 1; 1; 1; 1; 0]; [2; 2; 2; 2; 2; 1]; [1; 1; 1; 1; 1; 0]; [1; 1; 1; 1; 1; 0]; [2; 2; 2; 2; 2; 1]; [3; 3; 3; 3; 3; 2]; [0; 0; 0; 0; 1; 0]].
Proof. split; [intros n [<-|[<-|[<-|[]]]]; cbn; lia|vm_compute; reflexivity]. Qed.
