(** * Property C44, continued: edits through [children_mut()] over a collection of trees. *)
From Verif Require Import Prelim PrelimFacts Spec SpecFacts SpecObs SpecEdit ModelNode NodeFacts ModelBfs ModelPre ModelEdit ModelColl ModelEditColl.
From Verif Require Import ProofsColl ProofsEdit ProofsEditMore ProofsEditColl PropTraversal PropEdit.

(** The edited trees are [ts].  The caller is shown the contexts of the nodes of these trees, one tree after the other, and leaves the children
    that the trees have there; then the traversal of the collection gives exactly these contexts and ends, with the caller's state carried from one tree to the next. *)
Theorem C44_each_preorder : forall Nd V G (gvc : Nd -> V * list Nd) (edit : G -> tree_context V (list Nd) -> G * list Nd) ts g g',
  Forall small_tree ts -> small_collection ts ->
  let at_nodes := each (fun i t => map (in_tree i) (preorder (positions (subtrees t)))) ts in
  edits_into edit (fun x => context_at gvc (node_at x)) kids_in g at_nodes g' ->
  exists s, coll_attach (coll_new (map root ts) : coll Nd (pre_iter Nd)) = Ok s /\
    yields_leaving (prec_each_next_edited gvc edit) (s, g) (map (fun x => context_at gvc (node_at x)) at_nodes) g'.
Proof.
  intros Nd V G gvc edit ts g g' Hs Hc at_nodes He; eexists; split; [reflexivity|].
  apply (edited_each prec_new (prec_advance gvc) prec_get pc_children prec_set_children edit root
    (fun i t => map (in_tree i) (preorder (positions (subtrees t)))) (fun x => context_at gvc (node_at x)) kids_in small_tree); auto.
  - intros i [v us]; discriminate.
  - intros i t h h' Ht Hi; pose proof (prec_edited gvc edit t h h' [i] Ht) as Hp.
    rewrite annotate_prefix, preorder_map in Hp; exact (Hp Hi).
Qed.
Print Assumptions C44_each_preorder.

Theorem C44_each_bfs : forall Nd V G (gvc : Nd -> V * list Nd) (edit : G -> tree_context V (list Nd) -> G * list Nd) ts g g',
  Forall small_tree ts -> small_collection ts ->
  let at_nodes := each (fun i t => map (in_tree i) (bfs (positions (subtrees t)))) ts in
  edits_into edit (fun x => context_at gvc (node_at x)) kids_in g at_nodes g' ->
  exists s, coll_attach (coll_new (map root ts) : coll Nd (bfs_iter Nd)) = Ok s /\
    yields_leaving (bfsc_each_next_edited gvc edit) (s, g) (map (fun x => context_at gvc (node_at x)) at_nodes) g'.
Proof.
  intros Nd V G gvc edit ts g g' Hs Hc at_nodes He; eexists; split; [reflexivity|].
  apply (edited_each (bfsc_start gvc) (bfsc_advance gvc) bfsc_get bc_children bfsc_set_children edit root
    (fun i t => map (in_tree i) (bfs (positions (subtrees t)))) (fun x => context_at gvc (node_at x)) kids_in small_tree); auto.
  - intros i [v us]; discriminate.
  - intros i t h h' Ht Hi; pose proof (bfsc_edited gvc edit t h h' [i] Ht) as Hp.
    rewrite annotate_prefix, bfs_map in Hp; unfold bfsc_start; rewrite (gv_eq gvc (root t)); exact (Hp Hi).
Qed.
Print Assumptions C44_each_bfs.

Theorem C44_each_preorder_binary : forall Nd V G (gvcb : Nd -> V * (option Nd * option Nd))
    (edit : G -> tree_context V (option Nd * option Nd) -> G * (option Nd * option Nd)) ts g g',
  small_collection ts ->
  let at_nodes := each (fun i t => map (in_tree i) (preorder (flat (bpositions (bsubtrees t))))) ts in
  edits_into edit (fun x => context_at gvcb (bnode_at x)) bkids_in g at_nodes g' ->
  exists s, coll_attach (coll_new (map broot ts) : coll Nd (pre_iter Nd)) = Ok s /\
    yields_leaving (precb_each_next_edited gvcb edit) (s, g) (map (fun x => context_at gvcb (bnode_at x)) at_nodes) g'.
Proof.
  intros Nd V G gvcb edit ts g g' Hc at_nodes He; eexists; split; [reflexivity|].
  apply (edited_each prec_new (precb_advance gvcb pair_iter) prec_get pc_children prec_set_children edit broot
    (fun i t => map (in_tree i) (preorder (flat (bpositions (bsubtrees t))))) (fun x => context_at gvcb (bnode_at x)) bkids_in (fun _ => True)); auto.
  - intros i [v l r]; discriminate.
  - intros i t h h' _ Hi; pose proof (precb_edited gvcb edit t h h' [i]) as Hp.
    rewrite bannotate_prefix, flat_btree_map, preorder_map in Hp; exact (Hp Hi).
  - apply Forall_forall; auto.
Qed.
Print Assumptions C44_each_preorder_binary.

Theorem C44_each_bfs_binary : forall Nd V G (gvcb : Nd -> V * (option Nd * option Nd))
    (edit : G -> tree_context V (option Nd * option Nd) -> G * (option Nd * option Nd)) ts g g',
  small_collection ts ->
  let at_nodes := each (fun i t => map (in_tree i) (bfs (flat (bpositions (bsubtrees t))))) ts in
  edits_into edit (fun x => context_at gvcb (bnode_at x)) bkids_in g at_nodes g' ->
  exists s, coll_attach (coll_new (map broot ts) : coll Nd (bfs_iter Nd)) = Ok s /\
    yields_leaving (bfscb_each_next_edited gvcb edit) (s, g) (map (fun x => context_at gvcb (bnode_at x)) at_nodes) g'.
Proof.
  intros Nd V G gvcb edit ts g g' Hc at_nodes He; eexists; split; [reflexivity|].
  apply (edited_each (bfsc_start gvcb) (bfscb_advance gvcb pair_iter) bfsc_get bc_children bfsc_set_children edit broot
    (fun i t => map (in_tree i) (bfs (flat (bpositions (bsubtrees t))))) (fun x => context_at gvcb (bnode_at x)) bkids_in (fun _ => True)); auto.
  - intros i [v l r]; discriminate.
  - intros i t h h' _ Hi; pose proof (bfscb_edited gvcb edit t h h' [i]) as Hp.
    rewrite bannotate_prefix, flat_btree_map, bfs_map in Hp; unfold bfsc_start; rewrite (gv_eq gvcb (broot t)); exact (Hp Hi).
  - apply Forall_forall; auto.
Qed.
Print Assumptions C44_each_bfs_binary.

(** A caller which counts the nodes of all trees together: it reverses the children of every root, and takes away those of the node it is shown fourth. *)
Definition ex_edit_each (g : nat) (c : tree_context nat (list (tree nat))) : nat * list (tree nat) :=
  let l := match c_children c with Some l => l | None => [] end in
  (S g, match c_path c with [_] => rev l | _ => if g =? 3 then [] else l end).
Definition ex_edited_each : list (tree (tree nat)) :=
  [TNode (TNode 1 [TNode 2 []]) [subtrees (TNode 2 [])];
   TNode (TNode 3 [TNode 4 []; TNode 5 [TNode 6 []]]) [TNode (TNode 5 [TNode 6 []]) []; subtrees (TNode 4 [])]].
Example C44_each_met : Forall small_tree ex_edited_each /\ small_collection ex_edited_each.
Proof. split; repeat constructor; cbv; discriminate. Qed.
Example C44_each_edits_met :
  edits_into ex_edit_each (fun x => context_at tree_gvc (node_at x)) kids_in 0
    (each (fun i t => map (in_tree i) (preorder (positions (subtrees t)))) ex_edited_each) 5.
Proof. repeat (econstructor; [vm_compute; reflexivity|]); constructor. Qed.
Example C44_each_edits_bfs_met :
  edits_into ex_edit_each (fun x => context_at tree_gvc (node_at x)) kids_in 0
    (each (fun i t => map (in_tree i) (bfs (positions (subtrees t)))) ex_edited_each) 5.
Proof. repeat (econstructor; [vm_compute; reflexivity|]); constructor. Qed.
Example C44_each_ex : exists s l, calls (prec_each_next_edited tree_gvc ex_edit_each) 7 (mkCollc (map root ex_edited_each) usize_max None, 0) 10 = Ok (l, (s, 5)) /\
  map (option_map (fun c => (c_path c, last (c_ancestors c) 0))) l = map (option_map (fun '(p, v) => (map N.of_nat p, v)))
    [Some ([0], 1); Some ([0;0], 2); Some ([1], 3); Some ([1;0], 5); Some ([1;1], 4); None; None].
Proof. vm_compute; do 2 eexists; split; reflexivity. Qed.
Definition ex_editb_each (g : nat) (c : tree_context nat (option (btree nat) * option (btree nat))) : nat * (option (btree nat) * option (btree nat)) :=
  let '(l, r) := match c_children c with Some p => p | None => (None, None) end in (S g, match c_path c with [_] => (r, l) | _ => (l, r) end).
Definition ex_editedb_each : list (btree (btree nat)) :=
  [BNode (BNode 1 (Some (BNode 2 None None)) None) None (Some (bsubtrees (BNode 2 None None)));
   BNode (BNode 3 (Some (BNode 4 None None)) (Some (BNode 5 None None))) (Some (bsubtrees (BNode 5 None None))) (Some (bsubtrees (BNode 4 None None)))].
Example C44_each_binary_met :
  edits_into ex_editb_each (fun x => context_at btree_gvcb (bnode_at x)) bkids_in 0
    (each (fun i t => map (in_tree i) (preorder (flat (bpositions (bsubtrees t))))) ex_editedb_each) 5 /\
  edits_into ex_editb_each (fun x => context_at btree_gvcb (bnode_at x)) bkids_in 0
    (each (fun i t => map (in_tree i) (bfs (flat (bpositions (bsubtrees t))))) ex_editedb_each) 5.
Proof. split; repeat (econstructor; [vm_compute; reflexivity|]); constructor. Qed.
