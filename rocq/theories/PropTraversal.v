(** * Properties C01-C05, C09-C15, C22: the traversal iterators.

    Statements only; each proof is one reference to a lemma.  What the words mean: [yields] in
    Prelim.v; trees, orders and positions in Spec.v; [context_at], [ancestors_at], [small_nodes] in SpecObs.v; the
    iterators themselves in Model*.v.  Except where said otherwise one iterator
    model stands for the owned, [&] and [&mut] versions. *)
From Coq Require Import Permutation.
From Verif Require Import Prelim PrelimFacts Spec SpecFacts SpecObs ModelNode ModelBfs ModelPre ModelPost ModelIn.
From Verif Require Import NodeFacts Slots ProofsPlain ProofsPre ProofsPost ProofsIn ProofsTree.

(** Trees used in the examples. *)
Definition ex_tree : tree nat :=
  TNode 1 [TNode 2 [TNode 4 []; TNode 5 [TNode 7 []]]; TNode 3 []; TNode 6 [TNode 8 []]].
Definition ex_btree : btree nat :=
  BNode 1 (Some (BNode 2 None (Some (BNode 4 (Some (BNode 6 None None)) None)))) (Some (BNode 3 (Some (BNode 5 None None)) None)).

(** The hypothesis on node types, [node_tree] / [node_btree], holds of the crate's own types. *)
Example node_tree_met : forall A, node_tree (@tree_gvc A) subtrees.
Proof. exact (@node_tree_tree). Qed.
Example node_btree_met : forall A, node_btree (@btree_gvcb A) bsubtrees.
Proof. exact (@node_btree_btree). Qed.
(** ... and so does the bound on the number of children. *)
Example small_nodes_met : small_nodes tree_gvc (subtrees ex_tree).
Proof. repeat constructor; cbv; discriminate. Qed.

(** ** C01 breadth-first order *)
Theorem C01_bfs : forall Nd V (gvc : Nd -> V * list Nd) nt, node_tree gvc nt ->
  forall n, yields (bfs_next gvc) (bfs_new n) (map (nval gvc) (bfs (nt n))).
Proof. exact (@bfs_yields). Qed.
Print Assumptions C01_bfs.

Theorem C01_bfs_binary : forall Nd V (gvcb : Nd -> V * (option Nd * option Nd)) bt, node_btree gvcb bt ->
  forall n, yields (bfs_next (binary_gvc gvcb)) (bfs_new n) (map (nval gvcb) (bfs (flat (bt n)))).
Proof.
  intros Nd V gvcb bt H n; rewrite <- (map_ext _ _ (nval_binary gvcb)); exact (bfs_yields _ _ (node_binary gvcb bt H) n).
Qed.
Print Assumptions C01_bfs_binary.

Theorem C01_bfs_Tree : forall A (t : tree A), yields (bfs_next tree_gvc) (bfs_new t) (bfs t).
Proof. intros A t; rewrite <- (values_tree (@bfs)) by apply @bfs_map; apply bfs_yields, node_tree_tree. Qed.
Print Assumptions C01_bfs_Tree.

Theorem C01_bfs_BinaryTree : forall A (t : btree A),
  yields (bfs_next (binary_gvc btree_gvcb)) (bfs_new t) (bfs (flat t)).
Proof.
  intros A t; rewrite <- (values_btree (@bfs)) by apply @bfs_map.
  apply (bfs_yields _ _ (node_binary _ _ node_btree_btree)).
Qed.
Print Assumptions C01_bfs_BinaryTree.

Example C01_ex : exists s, calls (bfs_next tree_gvc) 10 (bfs_new ex_tree) 10 =
  Ok ([Some 1; Some 2; Some 3; Some 6; Some 4; Some 5; Some 8; Some 7; None; None], s).
Proof. vm_compute; eexists; reflexivity. Qed.

(** ** C02 preorder *)
Theorem C02_preorder : forall Nd V (gvc : Nd -> V * list Nd) nt, node_tree gvc nt ->
  forall n, yields (pre_next gvc) (pre_new n) (map (nval gvc) (preorder (nt n))).
Proof. exact (@pre_yields). Qed.
Print Assumptions C02_preorder.

Theorem C02_preorder_binary : forall Nd V (gvcb : Nd -> V * (option Nd * option Nd)) bt, node_btree gvcb bt ->
  forall n, yields (pre_next (binary_gvc gvcb)) (pre_new n) (map (nval gvcb) (preorder (flat (bt n)))).
Proof.
  intros Nd V gvcb bt H n; rewrite <- (map_ext _ _ (nval_binary gvcb)); exact (pre_yields _ _ (node_binary gvcb bt H) n).
Qed.
Print Assumptions C02_preorder_binary.

Theorem C02_preorder_Tree : forall A (t : tree A), yields (pre_next tree_gvc) (pre_new t) (preorder t).
Proof. intros A t; rewrite <- (values_tree (@preorder)) by apply @preorder_map; apply pre_yields, node_tree_tree. Qed.
Print Assumptions C02_preorder_Tree.

Theorem C02_preorder_BinaryTree : forall A (t : btree A),
  yields (pre_next (binary_gvc btree_gvcb)) (pre_new t) (preorder (flat t)).
Proof.
  intros A t; rewrite <- (values_btree (@preorder)) by apply @preorder_map.
  apply (pre_yields _ _ (node_binary _ _ node_btree_btree)).
Qed.
Print Assumptions C02_preorder_BinaryTree.

Example C02_ex : exists s, calls (pre_next tree_gvc) 10 (pre_new ex_tree) 10 =
  Ok ([Some 1; Some 2; Some 4; Some 5; Some 7; Some 3; Some 6; Some 8; None; None], s).
Proof. vm_compute; eexists; reflexivity. Qed.

(** ** C03 postorder *)
Theorem C03_postorder : forall Nd V (gvc : Nd -> V * list Nd) nt, node_tree gvc nt ->
  forall n, yields (post_next gvc) (post_new n) (map (nval gvc) (postorder (nt n))).
Proof. exact (@post_yields). Qed.
Print Assumptions C03_postorder.

Theorem C03_postorder_binary : forall Nd V (gvcb : Nd -> V * (option Nd * option Nd)) bt, node_btree gvcb bt ->
  forall n, yields (post_next (binary_gvc gvcb)) (post_new n) (map (nval gvcb) (postorder (flat (bt n)))).
Proof.
  intros Nd V gvcb bt H n; rewrite <- (map_ext _ _ (nval_binary gvcb)); exact (post_yields _ _ (node_binary gvcb bt H) n).
Qed.
Print Assumptions C03_postorder_binary.

Theorem C03_postorder_Tree : forall A (t : tree A), yields (post_next tree_gvc) (post_new t) (postorder t).
Proof. intros A t; rewrite <- (values_tree (@postorder)) by apply @postorder_map; apply post_yields, node_tree_tree. Qed.
Print Assumptions C03_postorder_Tree.

Theorem C03_postorder_BinaryTree : forall A (t : btree A),
  yields (post_next (binary_gvc btree_gvcb)) (post_new t) (postorder (flat t)).
Proof.
  intros A t; rewrite <- (values_btree (@postorder)) by apply @postorder_map.
  apply (post_yields _ _ (node_binary _ _ node_btree_btree)).
Qed.
Print Assumptions C03_postorder_BinaryTree.

Example C03_ex : exists s, calls (post_next tree_gvc) 10 (post_new ex_tree) 10 =
  Ok ([Some 4; Some 7; Some 5; Some 2; Some 3; Some 8; Some 6; Some 1; None; None], s).
Proof. vm_compute; eexists; reflexivity. Qed.

(** ** C04 inorder *)
Theorem C04_inorder : forall Nd V (gvcb : Nd -> V * (option Nd * option Nd)) bt, node_btree gvcb bt ->
  forall n, yields (in_next gvcb) (in_new n) (map (nval gvcb) (inorder (bt n))).
Proof. exact (@in_yields). Qed.
Print Assumptions C04_inorder.

Theorem C04_inorder_BinaryTree : forall A (t : btree A), yields (in_next btree_gvcb) (in_new t) (inorder t).
Proof. intros A t; rewrite <- inorder_values; apply in_yields, node_btree_btree. Qed.
Print Assumptions C04_inorder_BinaryTree.

Example C04_ex : exists s, calls (in_next btree_gvcb) 8 (in_new ex_btree) 10 =
  Ok ([Some 2; Some 6; Some 4; Some 1; Some 5; Some 3; None; None], s).
Proof. vm_compute; eexists; reflexivity. Qed.

(** ** C05 every traversal is a permutation of the values of the tree.

    [l1 .. l3] are any lists the iterators yield; "the values of the tree" is the preorder listing. *)
Theorem C05_same_nodes : forall Nd V (gvc : Nd -> V * list Nd) nt, node_tree gvc nt -> forall n,
  exists lb lp lo,
    yields (bfs_next gvc) (bfs_new n) lb /\ yields (pre_next gvc) (pre_new n) lp /\
    yields (post_next gvc) (post_new n) lo /\
    Permutation lb (map (nval gvc) (preorder (nt n))) /\
    Permutation lp (map (nval gvc) (preorder (nt n))) /\
    Permutation lo (map (nval gvc) (preorder (nt n))).
Proof.
  intros Nd V gvc nt H n; do 3 eexists.
  split; [apply bfs_yields, H|]; split; [apply pre_yields, H|]; split; [apply post_yields, H|].
  repeat split; apply Permutation_map; auto using bfs_perm, postorder_perm.
Qed.
Print Assumptions C05_same_nodes.

Theorem C05_same_nodes_binary : forall A (t : btree A),
  exists lb lp lo li,
    yields (bfs_next (binary_gvc btree_gvcb)) (bfs_new t) lb /\
    yields (pre_next (binary_gvc btree_gvcb)) (pre_new t) lp /\
    yields (post_next (binary_gvc btree_gvcb)) (post_new t) lo /\
    yields (in_next btree_gvcb) (in_new t) li /\
    Permutation lb (preorder (flat t)) /\ Permutation lp (preorder (flat t)) /\
    Permutation lo (preorder (flat t)) /\ Permutation li (preorder (flat t)).
Proof.
  intros A t; do 4 eexists.
  split; [apply C01_bfs_BinaryTree|]; split; [apply C02_preorder_BinaryTree|]; split; [apply C03_postorder_BinaryTree|].
  split; [apply C04_inorder_BinaryTree|].
  repeat split; auto using bfs_perm, postorder_perm, inorder_perm.
Qed.
Print Assumptions C05_same_nodes_binary.

(** What an iterator yields is unique, so the lists above are the lists the user gets. *)
Theorem C05_yields_unique : forall S A (next : nat -> S -> Res (option A * S)) s l l',
  yields next s l -> yields next s l' -> l = l'.
Proof. exact (@yields_unique). Qed.
Print Assumptions C05_yields_unique.

(** ** C09 preorder with ancestors *)
Theorem C09_preorder_ancestors : forall Nd V (gvc : Nd -> V * list Nd) nt, node_tree gvc nt -> forall n,
  exists s, pre_attach_ancestors (pre_new n) = Ok s /\
    yields (prea_next gvc) s (map (ancestors_at gvc) (preorder (positions (nt n)))).
Proof. intros Nd V gvc nt H n; eexists; split; [reflexivity|apply prea_yields, H]. Qed.
Print Assumptions C09_preorder_ancestors.

Theorem C09_preorder_ancestors_binary : forall Nd V (gvcb : Nd -> V * (option Nd * option Nd)) bt, node_btree gvcb bt ->
  forall n, exists s, pre_attach_ancestors (pre_new n) = Ok s /\
    yields (prea_next (binary_gvc gvcb)) s (map (ancestors_at gvcb) (preorder (flat (bpositions (bt n))))).
Proof.
  intros Nd V gvcb bt H n; eexists; split; [reflexivity|].
  rewrite <- (ancestors_flat gvcb (@preorder)) by apply @preorder_map; apply (prea_yields _ _ (node_binary _ _ H)).
Qed.
Print Assumptions C09_preorder_ancestors_binary.

Example C09_ex : exists s, calls (prea_next tree_gvc) 9 (prea_new ex_tree) 10 =
  Ok ([Some [1]; Some [1;2]; Some [1;2;4]; Some [1;2;5]; Some [1;2;5;7]; Some [1;3]; Some [1;6]; Some [1;6;8]; None], s).
Proof. vm_compute; eexists; reflexivity. Qed.

(** ** C10, C11 preorder with context *)
Theorem C10_preorder_context : forall Nd V (gvc : Nd -> V * list Nd) nt, node_tree gvc nt ->
  forall n, small_nodes gvc (nt n) ->
  exists s, pre_attach_context (pre_new n) = Ok s /\
    yields (prec_next gvc) s (map (context_at gvc) (preorder (positions (nt n)))).
Proof. intros Nd V gvc nt H n Hs; eexists; split; [reflexivity|]; apply (prec_yields gvc nt [] n H Hs). Qed.
Print Assumptions C10_preorder_context.

Example C10_ex : exists s l, calls (prec_next tree_gvc) 9 (prec_new ex_tree []) 10 = Ok (l, s) /\
  map (option_map c_path) l = map (option_map (map N.of_nat))
    [Some []; Some [0]; Some [0;0]; Some [0;1]; Some [0;1;0]; Some [1]; Some [2]; Some [2;0]; None].
Proof. vm_compute; do 2 eexists; split; reflexivity. Qed.

Theorem C11_preorder_context_binary : forall Nd V (gvcb : Nd -> V * (option Nd * option Nd)) bt, node_btree gvcb bt ->
  forall n, exists s, pre_attach_context (pre_new n) = Ok s /\
    yields (precb_next gvcb pair_iter) s (map (context_at gvcb) (preorder (flat (bpositions (bt n))))).
Proof.
  intros Nd V gvcb bt H n; eexists; split; [reflexivity|].
  exact (precb_yields gvcb pair_iter _ _ [] (slot_law_binary gvcb bt H) (small_law_binary gvcb) n I).
Qed.
Print Assumptions C11_preorder_context_binary.

Example C11_ex : exists s l, calls (precb_next btree_gvcb pair_iter) 7 (prec_new ex_btree []) 10 = Ok (l, s) /\
  map (option_map c_path) l = map (option_map (map N.of_nat))
    [Some []; Some [0]; Some [0;1]; Some [0;1;0]; Some [1]; Some [1;0]; None].
Proof. vm_compute; do 2 eexists; split; reflexivity. Qed.

(** ** C12 postorder with ancestors *)
Theorem C12_postorder_ancestors : forall Nd V (gvc : Nd -> V * list Nd) nt, node_tree gvc nt -> forall n,
  exists s, post_attach_ancestors (post_new n) = Ok s /\
    yields (posta_next gvc) s (map (ancestors_at gvc) (postorder (positions (nt n)))).
Proof. intros Nd V gvc nt H n; eexists; split; [reflexivity|apply posta_yields, H]. Qed.
Print Assumptions C12_postorder_ancestors.

Theorem C12_postorder_ancestors_binary : forall Nd V (gvcb : Nd -> V * (option Nd * option Nd)) bt, node_btree gvcb bt ->
  forall n, exists s, post_attach_ancestors (post_new n) = Ok s /\
    yields (posta_next (binary_gvc gvcb)) s (map (ancestors_at gvcb) (postorder (flat (bpositions (bt n))))).
Proof.
  intros Nd V gvcb bt H n; eexists; split; [reflexivity|].
  rewrite <- (ancestors_flat gvcb (@postorder)) by apply @postorder_map; apply (posta_yields _ _ (node_binary _ _ H)).
Qed.
Print Assumptions C12_postorder_ancestors_binary.

Example C12_ex : exists s, calls (posta_next tree_gvc) 9 (post_new ex_tree) 10 =
  Ok ([Some [1;2;4]; Some [1;2;5;7]; Some [1;2;5]; Some [1;2]; Some [1;3]; Some [1;6;8]; Some [1;6]; Some [1]; None], s).
Proof. vm_compute; eexists; reflexivity. Qed.

(** ** C13 postorder with context: borrowed / mut (with children) and owned (without) *)
Theorem C13_postorder_context : forall Nd V (gvc : Nd -> V * list Nd) nt, node_tree gvc nt ->
  forall n, small_nodes gvc (nt n) ->
  exists s, post_attach_context (post_new n) = Ok s /\
    yields (postc_next gvc) s (map (context_at gvc) (postorder (positions (nt n)))).
Proof. intros Nd V gvc nt H n Hs; eexists; split; [reflexivity|]; apply (postc_yields gvc nt [] n H Hs). Qed.
Print Assumptions C13_postorder_context.

Theorem C13_postorder_context_owned : forall Nd V (gvc : Nd -> V * list Nd) nt, node_tree gvc nt ->
  forall n, small_nodes gvc (nt n) ->
  exists s, post_attach_context_owned (post_new n) = Ok s /\
    yields (postco_next gvc) s (map no_children (map (context_at gvc) (postorder (positions (nt n))))).
Proof. intros Nd V gvc nt H n Hs; eexists; split; [reflexivity|]; apply (postco_yields gvc nt [] n H Hs). Qed.
Print Assumptions C13_postorder_context_owned.

Theorem C13_postorder_context_binary : forall Nd V (gvcb : Nd -> V * (option Nd * option Nd)) bt, node_btree gvcb bt ->
  forall n, exists s, post_attach_context (post_new n) = Ok s /\
    yields (postcb_next gvcb pair_iter) s (map (context_at gvcb) (postorder (flat (bpositions (bt n))))).
Proof.
  intros Nd V gvcb bt H n; eexists; split; [reflexivity|].
  exact (postcb_yields gvcb pair_iter _ _ [] (slot_law_binary gvcb bt H) (small_law_binary gvcb) n I).
Qed.
Print Assumptions C13_postorder_context_binary.

Theorem C13_postorder_context_binary_owned : forall Nd V (gvcb : Nd -> V * (option Nd * option Nd)) bt, node_btree gvcb bt ->
  forall n, exists s, post_attach_context_owned (post_new n) = Ok s /\
    yields (postcob_next gvcb pair_iter) s (map no_children (map (context_at gvcb) (postorder (flat (bpositions (bt n)))))).
Proof.
  intros Nd V gvcb bt H n; eexists; split; [reflexivity|].
  exact (postcob_yields gvcb pair_iter _ _ [] n (slot_law_binary gvcb bt H) (small_law_binary gvcb) I).
Qed.
Print Assumptions C13_postorder_context_binary_owned.

Example C13_ex : exists s l, calls (postcb_next btree_gvcb pair_iter) 7 (postc_new ex_btree []) 10 = Ok (l, s) /\
  map (option_map c_path) l = map (option_map (map N.of_nat))
    [Some [0;1;0]; Some [0;1]; Some [0]; Some [1;0]; Some [1]; Some []; None].
Proof. vm_compute; do 2 eexists; split; reflexivity. Qed.

(** ** C14, C15 inorder with ancestors and with context *)
Theorem C14_inorder_ancestors : forall Nd V (gvcb : Nd -> V * (option Nd * option Nd)) bt, node_btree gvcb bt ->
  forall n, exists s, in_attach_ancestors (V:=V) (in_new n) = Ok s /\
    yields (ina_next gvcb) s (map (ancestors_at gvcb) (inorder (bpositions (bt n)))).
Proof. intros Nd V gvcb bt H n; eexists; split; [reflexivity|apply ina_yields, H]. Qed.
Print Assumptions C14_inorder_ancestors.

Example C14_ex : exists s, calls (ina_next btree_gvcb) 7 (ina_new ex_btree) 10 =
  Ok ([Some [1;2]; Some [1;2;4;6]; Some [1;2;4]; Some [1]; Some [1;3;5]; Some [1;3]; None], s).
Proof. vm_compute; eexists; reflexivity. Qed.

Theorem C15_inorder_context : forall Nd V (gvcb : Nd -> V * (option Nd * option Nd)) bt, node_btree gvcb bt ->
  forall n, exists s, in_attach_context (V:=V) (in_new n) = Ok s /\
    yields (inc_next gvcb) s (map (context_at gvcb) (inorder (bpositions (bt n)))).
Proof. intros Nd V gvcb bt H n; eexists; split; [reflexivity|apply (inc_yields gvcb bt [] H n)]. Qed.
Print Assumptions C15_inorder_context.

Theorem C15_inorder_context_owned : forall Nd V (gvcb : Nd -> V * (option Nd * option Nd)) bt, node_btree gvcb bt ->
  forall n, exists s, in_attach_context_owned (V:=V) (in_new n) = Ok s /\
    yields (inco_next gvcb) s (map no_children (map (context_at gvcb) (inorder (bpositions (bt n))))).
Proof. intros Nd V gvcb bt H n; eexists; split; [reflexivity|apply (inco_yields gvcb bt [] n H)]. Qed.
Print Assumptions C15_inorder_context_owned.

Example C15_ex : exists s l, calls (inc_next btree_gvcb) 7 (inc_new ex_btree []) 10 = Ok (l, s) /\
  map (option_map c_path) l = map (option_map (map N.of_nat))
    [Some [0]; Some [0;1;0]; Some [0;1]; Some []; Some [1;0]; Some [1]; None].
Proof. vm_compute; do 2 eexists; split; reflexivity. Qed.

(** ** C22 attach_* panics exactly when next() has been called at least once.

    [k] calls of [next()] on a new iterator always succeed (C01-C04) and lead to a state [s]. *)
Theorem C22_bfs : forall Nd V (gvc : Nd -> V * list Nd) nt, node_tree gvc nt -> forall n k,
  exists s, after (bfs_next gvc) k (bfs_new n) s /\
    (bfs_attach_ancestors gvc s = match k with 0 => Ok (bfsa_new gvc n) | _ => Panic end) /\
    (bfs_attach_context gvc s = match k with 0 => Ok (bfsc_new (nval gvc n) (nkids gvc n) []) | _ => Panic end).
Proof.
  intros Nd V gvc nt H n k; destruct (yields_after_ex _ k _ _ (bfs_yields gvc nt H n)) as [s Hs]; exists s.
  split; [exact Hs|]; destruct k.
  - pose proof (after_fun _ _ _ _ _ Hs (after_0 _ _)) as ->; unfold bfs_attach_ancestors, bfs_attach_context; cbn.
    rewrite (gv_eq gvc n); auto.
  - apply (call_inv_after _ _ _ _ _ (bfs_started gvc)) in Hs; unfold bfs_attach_ancestors, bfs_attach_context; rewrite Hs; auto.
Qed.
Print Assumptions C22_bfs.

Theorem C22_bfs_binary : forall Nd V (gvcb : Nd -> V * (option Nd * option Nd)) bt, node_btree gvcb bt -> forall n k,
  exists s, after (bfs_next (binary_gvc gvcb)) k (bfs_new n) s /\
    (bfs_attach_ancestors (binary_gvc gvcb) s = match k with 0 => Ok (bfsa_new (binary_gvc gvcb) n) | _ => Panic end) /\
    (bfs_attach_context_binary gvcb s = match k with 0 => Ok (bfsc_new (nval gvcb n) (nkids gvcb n) []) | _ => Panic end).
Proof.
  intros Nd V gvcb bt H n k; destruct (yields_after_ex _ k _ _ (bfs_yields _ _ (node_binary _ _ H) n)) as [s Hs]; exists s.
  split; [exact Hs|]; destruct k.
  - pose proof (after_fun _ _ _ _ _ Hs (after_0 _ _)) as ->; unfold bfs_attach_ancestors, bfs_attach_context_binary; cbn.
    rewrite (gv_eq gvcb n); auto.
  - apply (call_inv_after _ _ _ _ _ (bfs_started _)) in Hs; unfold bfs_attach_ancestors, bfs_attach_context_binary; rewrite Hs; auto.
Qed.
Print Assumptions C22_bfs_binary.

(** For preorder and postorder the binary versions have the same code ([gvc] is then [binary_gvc gvcb]). *)
Theorem C22_preorder : forall Nd V (gvc : Nd -> V * list Nd) nt I C, node_tree gvc nt -> forall n k,
  exists s, after (pre_next gvc) k (pre_new n) s /\
    (pre_attach_ancestors (V:=V) s = match k with 0 => Ok (prea_new n) | _ => Panic end) /\
    (pre_attach_context (V:=V) (I:=I) (C:=C) s = match k with 0 => Ok (prec_new n []) | _ => Panic end).
Proof.
  intros Nd V gvc nt I C H n k; destruct (yields_after_ex _ k _ _ (pre_yields gvc nt H n)) as [s Hs]; exists s.
  split; [exact Hs|]; destruct k.
  - pose proof (after_fun _ _ _ _ _ Hs (after_0 _ _)) as ->; auto.
  - apply (call_inv_after _ _ _ _ _ (pre_started gvc)) in Hs; unfold pre_attach_ancestors, pre_attach_context; rewrite Hs; auto.
Qed.
Print Assumptions C22_preorder.

Theorem C22_postorder : forall Nd V (gvc : Nd -> V * list Nd) nt I C, node_tree gvc nt -> forall n k,
  exists s, after (post_next gvc) k (post_new n) s /\
    (post_attach_ancestors s = match k with 0 => Ok (post_new n) | _ => Panic end) /\
    (post_attach_context_owned (I:=I) s = match k with 0 => Ok (postco_new n []) | _ => Panic end) /\
    (post_attach_context (I:=I) (C:=C) s = match k with 0 => Ok (postc_new n []) | _ => Panic end).
Proof.
  intros Nd V gvc nt I C H n k; destruct (yields_after_ex _ k _ _ (post_yields gvc nt H n)) as [s Hs]; exists s.
  split; [exact Hs|]; destruct k.
  - pose proof (after_fun _ _ _ _ _ Hs (after_0 _ _)) as ->; auto.
  - apply (call_inv_after _ _ _ _ _ (post_started gvc)) in Hs.
    unfold post_attach_ancestors, post_attach_context_owned, post_attach_context; rewrite Hs; auto.
Qed.
Print Assumptions C22_postorder.

Theorem C22_inorder : forall Nd V (gvcb : Nd -> V * (option Nd * option Nd)) bt, node_btree gvcb bt -> forall n k,
  exists s, after (in_next gvcb) k (in_new n) s /\
    (in_attach_ancestors s = match k with 0 => Ok (ina_new n) | _ => Panic end) /\
    (in_attach_context_owned s = match k with 0 => Ok (inco_new n []) | _ => Panic end) /\
    (in_attach_context s = match k with 0 => Ok (inc_new n []) | _ => Panic end).
Proof.
  intros Nd V gvcb bt H n k; destruct (yields_after_ex _ k _ _ (in_yields gvcb bt H n)) as [s Hs]; exists s.
  split; [exact Hs|]; destruct k.
  - pose proof (after_fun _ _ _ _ _ Hs (after_0 _ _)) as ->; auto.
  - apply (call_inv_after _ _ _ _ _ (in_started gvcb)) in Hs.
    unfold in_attach_ancestors, in_attach_context_owned, in_attach_context, in_attach; rewrite Hs; auto.
Qed.
Print Assumptions C22_inorder.

Example C22_ex : exists s, calls (pre_next tree_gvc) 20 (pre_new ex_tree) 10 = Ok s /\
  pre_attach_ancestors (V:=nat) (snd s) = Panic.
Proof. vm_compute; eexists; split; reflexivity. Qed.
