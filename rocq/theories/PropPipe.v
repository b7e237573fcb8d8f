(** * Properties C28-C36 and C38: map, prune, fold and chains of them, on one tree.

    [walk], [fold_up], [prune_at], [truncate], [apply_ops] and the language of chains are in SpecPipe.v; the adapters and
    consumers themselves in ModelPipe.v.  Closures are state machines ([G] is the state), so that "called once per node,
    in this order" can be read off the final state.  Owned, [&] and [&mut] versions share one model (ModelPipe.v). *)
From Verif Require Import Prelim PrelimFacts Spec SpecFacts SpecObs SpecPipe ModelNode ModelPre ModelPipe.
From Verif Require Import NodeFacts ProofsTree PipeCore PipeBase PipeChain PipeEnd ProofsPipe PipeFinal PipePure PipeSpecFacts PipeOps PropTraversal.

(** ** C34 a chain of stages, then [collect_tree] *)

(** n-ary, closures with state.  The size bound is needed by the [usize] counters of [Prune]/[PrunePath] only. *)
Theorem C34_chain : forall Nd V (gvc : Nd -> V * list Nd) nt, node_tree gvc nt ->
  forall A (c : chain V A) n, true_paths c = true ->
  (has_prune c = true -> (N.of_nat (length (preorder (nt n))) <= usize_max)%N) ->
  let '(gs, o) := walk (at_node (nval gvc) c) (clos_init c) (positions (nt n)) in
  exists s, collect_tree (tree_chain (into_pipeline gvc n) c) ⇓ Ok (o, s) /\ closures tree_depth [] (into_pipeline gvc n) c s = gs.
Proof.
  intros Nd V gvc nt H A c n Ht Hb; destruct (chain_collect gvc nt H A c n Ht Hb) as (s & E1 & E2).
  destruct (walk _ _ _) as [gs o]; eauto.
Qed.
Print Assumptions C34_chain.

Theorem C34_chain_binary : forall Nd V (gvcb : Nd -> V * (option Nd * option Nd)) bt, node_btree gvcb bt ->
  forall A (c : chain V A) n,
  let '(gs, o) := bwalk (at_node (nval gvcb) c) (clos_init c) (bpositions (bt n)) in
  exists s, bcollect_tree (btree_chain (into_pipeline_binary gvcb n) c) ⇓ Ok (o, s) /\
            closures_binary tree_depth (into_pipeline_binary gvcb n) c s = gs.
Proof.
  intros Nd V gvcb bt H A c n; destruct (bchain_collect gvcb bt H A c n) as (s & E1 & E2).
  destruct (bwalk _ _ _) as [gs o]; eauto.
Qed.
Print Assumptions C34_chain_binary.

(** Closures without state: the composition of the whole-tree operations, one after the other. *)
Theorem C34_composition : forall Nd V (gvc : Nd -> V * list Nd) nt, node_tree gvc nt ->
  forall A (c : ops V A) n, true_paths (stages c) = true ->
  (has_prune (stages c) = true -> (N.of_nat (length (preorder (nt n))) <= usize_max)%N) ->
  exists s, collect_tree (tree_chain (into_pipeline gvc n) (stages c)) ⇓ Ok (apply_ops c (tree_map (nval gvc) (nt n)), s).
Proof.
  intros Nd V gvc nt H A c n Ht Hb; destruct (chain_collect gvc nt H A (stages c) n Ht Hb) as (s & E1 & _).
  rewrite (ops_collect (nval gvc) c (nt n) Ht) in E1; eauto.
Qed.
Print Assumptions C34_composition.

Theorem C34_composition_binary : forall Nd V (gvcb : Nd -> V * (option Nd * option Nd)) bt, node_btree gvcb bt ->
  forall A (c : ops V A) n,
  exists s, bcollect_tree (btree_chain (into_pipeline_binary gvcb n) (stages c)) ⇓ Ok (bapply_ops c (btree_map (nval gvcb) (bt n)), s).
Proof.
  intros Nd V gvcb bt H A c n; destruct (bchain_collect gvcb bt H A (stages c) n) as (s & E1 & _).
  exists s; rewrite <- (bops_walk (nval gvcb) c (bt n)); rewrite bwalk_visx in E1.
  rewrite <- (bwalk_pure _ _ (pwith_ok _ _ _ (pvis_ok (nval gvcb) c)) (bpositions (bt n)) (clos_init (stages c))).
  destruct (bwalk _ _ _); exact E1.
Qed.
Print Assumptions C34_composition_binary.

(** A chain that uses every stage, with state in the closures, and what it gives on the example tree. *)
Definition ex_chain : chain nat nat :=
  c_prune (c_prune_depth (c_map (c_prune_path (c_map c_start 0 (fun g v => (g + 1, 10 * v + g))) tt
     (fun g p v => (g, match p with [2%N; 0%N] => true | _ => false end))) [] (fun g v => (v :: g, v + 1))) 2) 0 (fun g v => (g + 1, v =? 35)).
Example C34_ex : true_paths ex_chain = true /\ (N.of_nat (length (preorder (subtrees ex_tree))) <= usize_max)%N /\
  match collect_tree (tree_chain (into_pipeline tree_gvc ex_tree) ex_chain) 40 with
  | Ok (o, s) => Some (o, closures tree_depth [] (into_pipeline tree_gvc ex_tree) ex_chain s)
  | _ => None
  end = Some (Some (TNode 11 [TNode 22 [TNode 43 []; TNode 54 []]; TNode 66 []]), (tt, 7, tt, [65; 34; 53; 42; 21; 10], 6)).
Proof. split; [reflexivity|split; [vm_compute; discriminate|]]; vm_compute; reflexivity. Qed.

Definition ex_ops : ops nat nat := o_prune (o_map (o_prune_depth (o_prune_path o_start (fun p v => (v =? 4) && (length p =? 2))) 2) (fun v => v * 2)) (fun v => v =? 10).
Example C34_ex2 : apply_ops ex_ops ex_tree = Some (TNode 2 [TNode 4 []; TNode 6 []; TNode 12 [TNode 16 []]]) /\
  bapply_ops ex_ops ex_btree = Some (BNode 2 (Some (BNode 4 None None)) (Some (BNode 6 None None))) /\
  true_paths (stages ex_ops) = true.
Proof. vm_compute; repeat split. Qed.

(** ** C28 round trip *)
Theorem C28_round_trip : forall Nd V (gvc : Nd -> V * list Nd) nt, node_tree gvc nt ->
  forall n, exists s, collect_tree (into_pipeline gvc n) ⇓ Ok (Some (tree_map (nval gvc) (nt n)), s).
Proof.
  intros Nd V gvc nt H n; destruct (C34_composition Nd V gvc nt H V o_start n eq_refl) as (s & E); [discriminate|].
  exists s; exact E.
Qed.
Print Assumptions C28_round_trip.

Theorem C28_round_trip_binary : forall Nd V (gvcb : Nd -> V * (option Nd * option Nd)) bt, node_btree gvcb bt ->
  forall n, exists s, bcollect_tree (into_pipeline_binary gvcb n) ⇓ Ok (Some (btree_map (nval gvcb) (bt n)), s).
Proof.
  intros Nd V gvcb bt H n; destruct (C34_composition_binary Nd V gvcb bt H V o_start n) as (s & E); exists s; exact E.
Qed.
Print Assumptions C28_round_trip_binary.

(** The crate's own trees come back unchanged. *)
Theorem C28_round_trip_Tree : forall A (t : tree A), exists s, collect_tree (into_pipeline tree_gvc t) ⇓ Ok (Some t, s).
Proof.
  intros A t; destruct (C28_round_trip _ _ _ _ (@node_tree_tree A) t) as (s & E); exists s.
  rewrite (tree_map_ext _ _ _ nval_tree), subtrees_root in E; exact E.
Qed.
Print Assumptions C28_round_trip_Tree.

Theorem C28_round_trip_BinaryTree : forall A (t : btree A), exists s, bcollect_tree (into_pipeline_binary btree_gvcb t) ⇓ Ok (Some t, s).
Proof.
  intros A t; destruct (C28_round_trip_binary _ _ _ _ (@node_btree_btree A) t) as (s & E); exists s.
  rewrite (btree_map_ext _ _ _ nval_btree), bsubtrees_root in E; exact E.
Qed.
Print Assumptions C28_round_trip_BinaryTree.

Example C28_ex : exists s s', collect_tree (into_pipeline tree_gvc ex_tree) 30 = Ok (Some ex_tree, s) /\
  bcollect_tree (into_pipeline_binary btree_gvcb ex_btree) 30 = Ok (Some ex_btree, s').
Proof. eexists; eexists; split; vm_compute; reflexivity. Qed.

(** ** C29 map: same shape; the closure is run once per node, in preorder *)
Theorem C29_map : forall Nd V (gvc : Nd -> V * list Nd) nt, node_tree gvc nt ->
  forall B G (f : G -> V -> G * B) g n, exists t' s, op_map gvc f g n ⇓ Ok (t', s) /\ same_shape t' (nt n) /\
    map_accum f g (map (nval gvc) (preorder (nt n))) = (snd s, preorder t').
Proof. intros Nd V gvc nt H B G f g n; exact (op_map_ok gvc nt H f g n). Qed.
Print Assumptions C29_map.

Theorem C29_map_binary : forall Nd V (gvcb : Nd -> V * (option Nd * option Nd)) bt, node_btree gvcb bt ->
  forall B G (f : G -> V -> G * B) g n, exists t' s, bop_map gvcb f g n ⇓ Ok (t', s) /\ bsame_shape t' (bt n) /\
    map_accum f g (map (nval gvcb) (preorder (flat (bt n)))) = (snd s, preorder (flat t')).
Proof. intros Nd V gvcb bt H B G f g n; exact (bop_map_ok gvcb bt H f g n). Qed.
Print Assumptions C29_map_binary.

(** Closures without state. *)
Theorem C29_map_pure : forall Nd V (gvc : Nd -> V * list Nd) nt, node_tree gvc nt ->
  forall B (f : V -> B) n, exists s, op_map gvc (fun _ v => (tt, f v)) tt n ⇓ Ok (tree_map (fun m => f (nval gvc m)) (nt n), s).
Proof.
  intros Nd V gvc nt H B f n; destruct (C34_composition Nd V gvc nt H B (o_map o_start f) n eq_refl) as (s & E); [discriminate|].
  exists s; unfold op_map; eapply unwrap_fst_ok.
  cbn [apply_ops option_map] in E; rewrite tree_map_map in E; exact E.
Qed.
Print Assumptions C29_map_pure.

Theorem C29_map_pure_binary : forall Nd V (gvcb : Nd -> V * (option Nd * option Nd)) bt, node_btree gvcb bt ->
  forall B (f : V -> B) n, exists s, bop_map gvcb (fun _ v => (tt, f v)) tt n ⇓ Ok (btree_map (fun m => f (nval gvcb m)) (bt n), s).
Proof.
  intros Nd V gvcb bt H B f n; destruct (C34_composition_binary Nd V gvcb bt H B (o_map o_start f) n) as (s & E).
  exists s; unfold bop_map; eapply unwrap_fst_ok.
  cbn [bapply_ops option_map] in E; rewrite btree_map_map in E; exact E.
Qed.
Print Assumptions C29_map_pure_binary.

Example C29_ex : exists s, op_map tree_gvc (fun g v => (v :: g, v + length g)) [] ex_tree 40 =
  Ok (TNode 1 [TNode 3 [TNode 6 []; TNode 8 [TNode 11 []]]; TNode 8 []; TNode 12 [TNode 15 []]], s) /\ snd s = [8; 6; 3; 7; 5; 4; 2; 1].
Proof. eexists; split; vm_compute; reflexivity. Qed.

(** ** C30 prune, n-ary *)

(** Any closure: the walk that drops a node (unseen children included) as soon as the closure says so. *)
Theorem C30_prune : forall Nd V (gvc : Nd -> V * list Nd) nt, node_tree gvc nt ->
  forall G (f : G -> V -> G * bool) g n, (N.of_nat (length (preorder (nt n))) <= usize_max)%N ->
  let '(g', o) := walk (fun g v => let '(g1, b) := f g v in (g1, if b then Drop else Keep v true)) g (tree_map (nval gvc) (nt n)) in
  exists s, op_prune gvc f g n ⇓ Ok (o, s) /\ pr_clos s = g'.
Proof. intros Nd V gvc nt H G f g n Hb; exact (op_prune_ok gvc nt H f g n Hb). Qed.
Print Assumptions C30_prune.

(** A predicate: the maximal subtrees whose root satisfies it are gone; [None] iff the root satisfies it. *)
Theorem C30_prune_pure : forall Nd V (gvc : Nd -> V * list Nd) nt, node_tree gvc nt ->
  forall (f : V -> bool) n, (N.of_nat (length (preorder (nt n))) <= usize_max)%N ->
  exists o s, op_prune gvc (fun _ v => (tt, f v)) tt n ⇓ Ok (o, s) /\
    o = prune_tree f (tree_map (nval gvc) (nt n)) /\ (o = None <-> f (nval gvc n) = true).
Proof.
  intros Nd V gvc nt H f n Hb; destruct (C34_composition Nd V gvc nt H V (o_prune o_start f) n eq_refl) as (s & E); [intros _; exact Hb|].
  eexists; exists s; split; [exact E|split; [reflexivity|]].
  cbn [apply_ops obind]; rewrite (nt_unfold _ _ H n); unfold prune_tree; cbn [tree_map prune_at].
  destruct (f (nval gvc n)); split; congruence.
Qed.
Print Assumptions C30_prune_pure.

(** The closure is run in preorder, once on each node without a pruned strict ancestor. *)
Theorem C30_prune_calls : forall Nd V (gvc : Nd -> V * list Nd) nt, node_tree gvc nt ->
  forall (f : V -> bool) n, (N.of_nat (length (preorder (nt n))) <= usize_max)%N ->
  exists o s, op_prune gvc (fun log v => (log ++ [v], f v)) [] n ⇓ Ok (o, s) /\
    pr_clos s = examined f (tree_map (nval gvc) (nt n)).
Proof.
  intros Nd V gvc nt H f n Hb; pose proof (C30_prune Nd V gvc nt H (list V) (fun log v => (log ++ [v], f v)) [] n Hb) as E.
  pose proof (walk_examined f (tree_map (nval gvc) (nt n)) []) as X; cbn [app] in X.
  destruct (walk _ _ _) as [g' o]; destruct E as (s & E1 & E2); exists o, s; split; [exact E1|].
  rewrite E2; exact X.
Qed.
Print Assumptions C30_prune_calls.

Example C30_ex : exists s, op_prune tree_gvc (fun log v => (log ++ [v], (v =? 5) || (v =? 6))) [] ex_tree 40 =
  Ok (Some (TNode 1 [TNode 2 [TNode 4 []]; TNode 3 []]), s) /\ pr_clos s = [1; 2; 4; 5; 3; 6].
Proof. eexists; split; vm_compute; reflexivity. Qed.

(** ** C31 prune, binary: the sides are kept *)
Theorem C31_prune_binary : forall Nd V (gvcb : Nd -> V * (option Nd * option Nd)) bt, node_btree gvcb bt ->
  forall G (f : G -> V -> G * bool) g n,
  let '(g', o) := bwalk (fun g v => let '(g1, b) := f g v in (g1, if b then Drop else Keep v true)) g (btree_map (nval gvcb) (bt n)) in
  exists s, bop_prune gvcb f g n ⇓ Ok (o, s) /\ snd s = g'.
Proof. intros Nd V gvcb bt H G f g n; exact (bop_prune_ok gvcb bt H f g n). Qed.
Print Assumptions C31_prune_binary.

Theorem C31_prune_binary_pure : forall Nd V (gvcb : Nd -> V * (option Nd * option Nd)) bt, node_btree gvcb bt ->
  forall (f : V -> bool) n,
  exists o s, bop_prune gvcb (fun _ v => (tt, f v)) tt n ⇓ Ok (o, s) /\
    o = bprune_tree f (btree_map (nval gvcb) (bt n)) /\ (o = None <-> f (nval gvcb n) = true).
Proof.
  intros Nd V gvcb bt H f n; destruct (C34_composition_binary Nd V gvcb bt H V (o_prune o_start f) n) as (s & E).
  eexists; exists s; split; [exact E|split; [reflexivity|]].
  cbn [bapply_ops obind]; rewrite (bt_unfold _ _ H n); unfold bprune_tree; cbn [btree_map bprune_at].
  destruct (f (nval gvcb n)); split; congruence.
Qed.
Print Assumptions C31_prune_binary_pure.

Theorem C31_prune_binary_calls : forall Nd V (gvcb : Nd -> V * (option Nd * option Nd)) bt, node_btree gvcb bt ->
  forall (f : V -> bool) n,
  exists o s, bop_prune gvcb (fun log v => (log ++ [v], f v)) [] n ⇓ Ok (o, s) /\
    snd s = examined f (flat (btree_map (nval gvcb) (bt n))).
Proof.
  intros Nd V gvcb bt H f n; pose proof (C31_prune_binary Nd V gvcb bt H (list V) (fun log v => (log ++ [v], f v)) [] n) as E.
  pose proof (walk_examined f (flat (btree_map (nval gvcb) (bt n))) []) as X; cbn [app] in X; rewrite walk_flat in X.
  destruct (bwalk _ _ _) as [g' o]; destruct E as (s & E1 & E2); exists o, s; split; [exact E1|].
  rewrite E2; exact X.
Qed.
Print Assumptions C31_prune_binary_calls.

Example C31_ex : exists s, bop_prune btree_gvcb (fun log v => (log ++ [v], (v =? 6) || (v =? 5))) [] ex_btree 40 =
  Ok (Some (BNode 1 (Some (BNode 2 None (Some (BNode 4 None None)))) (Some (BNode 3 None None))), s) /\ snd s = [1; 2; 4; 6; 3; 5].
Proof. eexists; split; vm_compute; reflexivity. Qed.

(** ** C32 prune_depth *)
Theorem C32_prune_depth : forall Nd V (gvc : Nd -> V * list Nd) nt, node_tree gvc nt ->
  forall d n, exists s, op_prune_depth gvc d n ⇓ Ok (truncate (N.to_nat d) (tree_map (nval gvc) (nt n)), s).
Proof.
  intros Nd V gvc nt H d n; destruct (C34_composition Nd V gvc nt H V (o_prune_depth o_start d) n eq_refl) as (s & E); [discriminate|].
  exists s; unfold op_prune_depth; eapply unwrap_fst_ok; exact E.
Qed.
Print Assumptions C32_prune_depth.

Theorem C32_prune_depth_binary : forall Nd V (gvcb : Nd -> V * (option Nd * option Nd)) bt, node_btree gvcb bt ->
  forall d n, exists s, bop_prune_depth gvcb d n ⇓ Ok (btruncate (N.to_nat d) (btree_map (nval gvcb) (bt n)), s).
Proof.
  intros Nd V gvcb bt H d n; destruct (C34_composition_binary Nd V gvcb bt H V (o_prune_depth o_start d) n) as (s & E).
  exists s; unfold bop_prune_depth; eapply unwrap_fst_ok; exact E.
Qed.
Print Assumptions C32_prune_depth_binary.

(** The same, position by position: what is at path [p] of the result. *)
Theorem C32_prune_depth_positions : forall Nd V (gvc : Nd -> V * list Nd) nt, node_tree gvc nt ->
  forall d n, exists t s, op_prune_depth gvc d n ⇓ Ok (t, s) /\
  forall p, option_map root (subtree_at t p) =
    if length p <=? N.to_nat d then option_map root (subtree_at (tree_map (nval gvc) (nt n)) p) else None.
Proof.
  intros Nd V gvc nt H d n; destruct (C32_prune_depth Nd V gvc nt H d n) as (s & E).
  eexists; exists s; split; [exact E|]; intros p; apply truncate_at.
Qed.
Print Assumptions C32_prune_depth_positions.

Theorem C32_prune_depth_positions_binary : forall Nd V (gvcb : Nd -> V * (option Nd * option Nd)) bt, node_btree gvcb bt ->
  forall d n, exists t s, bop_prune_depth gvcb d n ⇓ Ok (t, s) /\
  forall p, option_map broot (bsubtree_at t p) =
    if length p <=? N.to_nat d then option_map broot (bsubtree_at (btree_map (nval gvcb) (bt n)) p) else None.
Proof.
  intros Nd V gvcb bt H d n; destruct (C32_prune_depth_binary Nd V gvcb bt H d n) as (s & E).
  eexists; exists s; split; [exact E|]; intros p; apply btruncate_at.
Qed.
Print Assumptions C32_prune_depth_positions_binary.

Example C32_ex : exists s s0 s', op_prune_depth tree_gvc 1 ex_tree 40 = Ok (TNode 1 [TNode 2 []; TNode 3 []; TNode 6 []], s) /\
  op_prune_depth tree_gvc 0 ex_tree 40 = Ok (TNode 1 [], s0) /\
  bop_prune_depth btree_gvcb 2 ex_btree 40 =
    Ok (BNode 1 (Some (BNode 2 None (Some (BNode 4 None None)))) (Some (BNode 3 (Some (BNode 5 None None)) None)), s').
Proof. do 3 eexists; split; [vm_compute; reflexivity|]; split; vm_compute; reflexivity. Qed.

(** ** C33 prune_path: the closure is given the path in the original tree *)
Theorem C33_prune_path : forall Nd V (gvc : Nd -> V * list Nd) nt, node_tree gvc nt ->
  forall G (f : G -> list N -> V -> G * bool) g n, (N.of_nat (length (preorder (nt n))) <= usize_max)%N ->
  let '(g', o) := walk (fun g x => let v := nval gvc (pos_here x) in
      let '(g1, b) := f g (map N.of_nat (pos_path x)) v in (g1, if b then Drop else Keep v true)) g (positions (nt n)) in
  exists s, op_prune_path gvc f g n ⇓ Ok (o, s) /\ pr_clos s = g'.
Proof. intros Nd V gvc nt H G f g n Hb; exact (op_prune_path_ok gvc nt H f g n Hb). Qed.
Print Assumptions C33_prune_path.

Theorem C33_prune_path_binary : forall Nd V (gvcb : Nd -> V * (option Nd * option Nd)) bt, node_btree gvcb bt ->
  forall G (f : G -> list N -> V -> G * bool) g n,
  let '(g', o) := bwalk (fun g x => let v := nval gvcb (pos_here x) in
      let '(g1, b) := f g (map N.of_nat (pos_path x)) v in (g1, if b then Drop else Keep v true)) g (bpositions (bt n)) in
  exists s, bop_prune_path gvcb f g n ⇓ Ok (o, s) /\ snd s = g'.
Proof. intros Nd V gvcb bt H G f g n; exact (bop_prune_path_ok gvcb bt H f g n). Qed.
Print Assumptions C33_prune_path_binary.

Theorem C33_prune_path_pure : forall Nd V (gvc : Nd -> V * list Nd) nt, node_tree gvc nt ->
  forall (f : list N -> V -> bool) n, (N.of_nat (length (preorder (nt n))) <= usize_max)%N ->
  exists s, op_prune_path gvc (fun _ p v => (tt, f p v)) tt n ⇓
    Ok (prune_at (fun p => f (map N.of_nat p)) [] (tree_map (nval gvc) (nt n)), s).
Proof.
  intros Nd V gvc nt H f n Hb; destruct (C34_composition Nd V gvc nt H V (o_prune_path o_start f) n eq_refl) as (s & E); [intros _; exact Hb|].
  exists s; exact E.
Qed.
Print Assumptions C33_prune_path_pure.

Theorem C33_prune_path_pure_binary : forall Nd V (gvcb : Nd -> V * (option Nd * option Nd)) bt, node_btree gvcb bt ->
  forall (f : list N -> V -> bool) n,
  exists s, bop_prune_path gvcb (fun _ p v => (tt, f p v)) tt n ⇓
    Ok (bprune_at (fun p => f (map N.of_nat p)) [] (btree_map (nval gvcb) (bt n)), s).
Proof.
  intros Nd V gvcb bt H f n; destruct (C34_composition_binary Nd V gvcb bt H V (o_prune_path o_start f) n) as (s & E).
  exists s; exact E.
Qed.
Print Assumptions C33_prune_path_pure_binary.

Example C33_ex : exists s s', op_prune_path tree_gvc (fun log p v => (log ++ [p], v =? 4)) [] ex_tree 40 =
  Ok (Some (TNode 1 [TNode 2 [TNode 5 [TNode 7 []]]; TNode 3 []; TNode 6 [TNode 8 []]]), s) /\
  pr_clos s = [[]; [0]; [0; 0]; [0; 1]; [0; 1; 0]; [1]; [2]; [2; 0]]%N /\
  bop_prune_path btree_gvcb (fun log p v => (log ++ [p], v =? 4)) [] ex_btree 40 =
  Ok (Some (BNode 1 (Some (BNode 2 None None)) (Some (BNode 3 (Some (BNode 5 None None)) None))), s') /\
  snd s' = [[]; [0]; [0; 1]; [1]; [1; 0]]%N.
Proof. do 2 eexists; split; [vm_compute; reflexivity|]; split; [vm_compute; reflexivity|]; split; vm_compute; reflexivity. Qed.

(** ** C35 fold *)
Theorem C35_fold : forall Nd V (gvc : Nd -> V * list Nd) nt, node_tree gvc nt ->
  forall G O (f : G -> list O -> V -> G * O) g n,
  let '(g', r) := fold_up f g (tree_map (nval gvc) (nt n)) in exists s, op_fold gvc f g n ⇓ Ok (r, g', s).
Proof. intros Nd V gvc nt H G O f g n; exact (op_fold_ok gvc nt H f g n). Qed.
Print Assumptions C35_fold.

Theorem C35_fold_binary : forall Nd V (gvcb : Nd -> V * (option Nd * option Nd)) bt, node_btree gvcb bt ->
  forall G O (f : G -> option O * option O -> V -> G * O) g n,
  let '(g', r) := bfold_up f g (btree_map (nval gvcb) (bt n)) in exists s, bop_fold gvcb f g n ⇓ Ok (r, g', s).
Proof. intros Nd V gvcb bt H G O f g n; exact (bop_fold_ok gvcb bt H f g n). Qed.
Print Assumptions C35_fold_binary.

(** The closure is run once per node, in postorder. *)
Theorem C35_fold_calls : forall Nd V (gvc : Nd -> V * list Nd) nt, node_tree gvc nt ->
  forall O (f : list O -> V -> O) n,
  exists r s, op_fold gvc (fun log os v => (log ++ [v], f os v)) [] n ⇓ Ok (r, map (nval gvc) (postorder (nt n)), s).
Proof.
  intros Nd V gvc nt H O f n; pose proof (C35_fold Nd V gvc nt H (list V) O (fun log os v => (log ++ [v], f os v)) [] n) as E.
  pose proof (fold_postorder f (tree_map (nval gvc) (nt n)) []) as X; cbn [app] in X; rewrite postorder_map in X.
  destruct (fold_up _ _ _) as [g' r]; cbn [fst] in X; subst g'; destruct E as (s & E); eauto.
Qed.
Print Assumptions C35_fold_calls.

Theorem C35_fold_calls_binary : forall Nd V (gvcb : Nd -> V * (option Nd * option Nd)) bt, node_btree gvcb bt ->
  forall O (f : option O * option O -> V -> O) n,
  exists r s, bop_fold gvcb (fun log os v => (log ++ [v], f os v)) [] n ⇓ Ok (r, map (nval gvcb) (postorder (flat (bt n))), s).
Proof.
  intros Nd V gvcb bt H O f n; pose proof (C35_fold_binary Nd V gvcb bt H (list V) O (fun log os v => (log ++ [v], f os v)) [] n) as E.
  pose proof (bfold_postorder f (btree_map (nval gvcb) (bt n)) []) as X; cbn [app] in X; rewrite flat_btree_map, postorder_map in X.
  destruct (bfold_up _ _ _) as [g' r]; cbn [fst] in X; subst g'; destruct E as (s & E); eauto.
Qed.
Print Assumptions C35_fold_calls_binary.

(** After a chain of stages: the fold of what the chain keeps ([None], and no call, when the root is pruned). *)
Theorem C35_fold_after_stages : forall Nd V (gvc : Nd -> V * list Nd) nt, node_tree gvc nt ->
  forall A (c : chain V A) n, true_paths c = true ->
  (has_prune c = true -> (N.of_nat (length (preorder (nt n))) <= usize_max)%N) ->
  forall G O (f : G -> list O -> A -> G * O) g,
  let '(gs, o) := walk (at_node (nval gvc) c) (clos_init c) (positions (nt n)) in
  exists s, fold_tree (tree_chain (into_pipeline gvc n) c) f g ⇓
    Ok (option_map (fun t => snd (fold_up f g t)) o, match o with Some t => fst (fold_up f g t) | None => g end, s) /\
    closures tree_depth [] (into_pipeline gvc n) c s = gs.
Proof. intros Nd V gvc nt H; exact (chain_fold gvc nt H). Qed.
Print Assumptions C35_fold_after_stages.

Theorem C35_fold_after_stages_binary : forall Nd V (gvcb : Nd -> V * (option Nd * option Nd)) bt, node_btree gvcb bt ->
  forall A (c : chain V A) n G O (f : G -> option O * option O -> A -> G * O) g,
  let '(gs, o) := bwalk (at_node (nval gvcb) c) (clos_init c) (bpositions (bt n)) in
  exists s, bfold_tree (btree_chain (into_pipeline_binary gvcb n) c) f g ⇓
    Ok (option_map (fun t => snd (bfold_up f g t)) o, match o with Some t => fst (bfold_up f g t) | None => g end, s) /\
    closures_binary tree_depth (into_pipeline_binary gvcb n) c s = gs.
Proof. intros Nd V gvcb bt H; exact (bchain_fold gvcb bt H). Qed.
Print Assumptions C35_fold_after_stages_binary.

Example C35_ex : exists s s', op_fold tree_gvc (fun log os v => (log ++ [v], fold_right plus v os)) [] ex_tree 40 =
  Ok (36, [4; 7; 5; 2; 3; 8; 6; 1], s) /\
  bop_fold btree_gvcb (fun log os v => (log ++ [os], v)) [] ex_btree 40 =
  Ok (1, [(None, None); (Some 6, None); (None, Some 4); (None, None); (Some 5, None); (Some 2, Some 3)], s').
Proof. do 2 eexists; split; vm_compute; reflexivity. Qed.

(** ** C36 fold_path *)
Theorem C36_fold_path : forall Nd V (gvc : Nd -> V * list Nd) nt, node_tree gvc nt ->
  forall G O (f : G -> list O -> list N -> V -> G * O) g n, small_nodes gvc (nt n) ->
  let '(g', r) := fold_up (fun g os x => f g os (map N.of_nat (pos_path x)) (nval gvc (pos_here x))) g (positions (nt n)) in
  exists s, op_fold_path gvc f g n ⇓ Ok (r, g', s).
Proof. intros Nd V gvc nt H G O f g n Hs; exact (op_fold_path_ok gvc nt H f g n Hs). Qed.
Print Assumptions C36_fold_path.

Theorem C36_fold_path_binary : forall Nd V (gvcb : Nd -> V * (option Nd * option Nd)) bt, node_btree gvcb bt ->
  forall G O (f : G -> option O * option O -> list N -> V -> G * O) g n,
  let '(g', r) := bfold_up (fun g os x => f g os (map N.of_nat (pos_path x)) (nval gvcb (pos_here x))) g (bpositions (bt n)) in
  exists s, bop_fold_path gvcb f g n ⇓ Ok (r, g', s).
Proof. intros Nd V gvcb bt H G O f g n; exact (bop_fold_path_ok gvcb bt H f g n). Qed.
Print Assumptions C36_fold_path_binary.

(** After stages that remove no subtree by value or path: the paths are those in the resulting tree. *)
Theorem C36_fold_path_after_stages : forall Nd V (gvc : Nd -> V * list Nd) nt, node_tree gvc nt ->
  forall A (c : chain V A) n, has_prune c = false -> small_nodes gvc (nt n) ->
  forall G O (f : G -> list O -> list N -> A -> G * O) g,
  exists gs t, walk (at_node (nval gvc) c) (clos_init c) (positions (nt n)) = (gs, Some t) /\
  let '(g', r) := fold_up (fun g os x => f g os (map N.of_nat (pos_path x)) (pos_here x)) g (positions t) in
  exists s, fold_path (tree_chain (into_pipeline gvc n) c) f g ⇓ Ok (Some r, g', s).
Proof. intros Nd V gvc nt H; exact (fold_path_chain gvc nt H). Qed.
Print Assumptions C36_fold_path_after_stages.

Example C36_ex : exists s s', op_fold_path tree_gvc (fun log os p v => (log ++ [p], tt)) [] ex_tree 40 =
  Ok (tt, [[0; 0]; [0; 1; 0]; [0; 1]; [0]; [1]; [2; 0]; [2]; []]%N, s) /\
  bop_fold_path btree_gvcb (fun log os p v => (log ++ [p], tt)) [] ex_btree 40 =
  Ok (tt, [[0; 1; 0]; [0; 1]; [0]; [1; 0]; [1]; []]%N, s').
Proof. do 2 eexists; split; vm_compute; reflexivity. Qed.

(** ** C38 paths after a prune *)

(** Binary: after any chain of stages, [fold_path] sees the paths in the resulting tree. *)
Theorem C38_paths_after_stages_binary : forall Nd V (gvcb : Nd -> V * (option Nd * option Nd)) bt, node_btree gvcb bt ->
  forall A (c : chain V A) n G O (f : G -> option O * option O -> list N -> A -> G * O) g,
  match snd (bwalk (at_node (nval gvcb) c) (clos_init c) (bpositions (bt n))) with
  | None => exists s, bfold_path (btree_chain (into_pipeline_binary gvcb n) c) f g ⇓ Ok (None, g, s)
  | Some t =>
      let '(g', r) := bfold_up (fun g os x => f g os (map N.of_nat (pos_path x)) (pos_here x)) g (bpositions t) in
      exists s, bfold_path (btree_chain (into_pipeline_binary gvcb n) c) f g ⇓ Ok (Some r, g', s)
  end.
Proof. intros Nd V gvcb bt H; exact (bfold_path_chain gvcb bt H). Qed.
Print Assumptions C38_paths_after_stages_binary.

(** n-ary: false as soon as a node has two children without children.  [paths_of t]: the paths that
    [.prune(f).fold_path(..)] is supposed to pass to its closure when the pruned tree is [t]. *)
Definition paths_of {A} (t : tree A) : list (list N) := map (fun x => map N.of_nat (pos_path x)) (postorder (positions t)).
Definition prune_then_fold_path (f : nat -> bool) (t : tree nat) (fuel : nat) : Res (option unit * list (list N)) :=
  '(o, log, _) <- fold_path (tree_chain (into_pipeline tree_gvc t) (c_prune c_start tt (fun _ v => (tt, f v))))
                    (fun log (_ : list unit) p _ => (log ++ [p], tt)) [] fuel ;;
  Ok (o, log).
Theorem C38_paths_after_prune_refuted : exists f t t',
  prune_tree f t = Some t' /\ prune_then_fold_path f t ⇓ Ok (Some tt, [[0]; [0]; []]%N) /\ paths_of t' = [[0]; [1]; []]%N.
Proof.
  exists (fun _ => false), (TNode 0 [TNode 1 []; TNode 2 []]), (TNode 0 [TNode 1 []; TNode 2 []]).
  split; [reflexivity|split; [|reflexivity]].
  exists 20; intros f Hf; replace f with (20 + (f - 20)) by lia; generalize (f - 20) as k; intros k; vm_compute; reflexivity.
Qed.
Print Assumptions C38_paths_after_prune_refuted.

(** The same with [prune_path] as the later stage: its closure is given the same wrong paths. *)
Theorem C38_prune_path_after_prune_refuted :
  (fun fuel => '(o, s) <- collect_tree (tree_chain (into_pipeline tree_gvc (TNode 0 [TNode 1 []; TNode 2 []]))
      (c_prune_path (c_prune c_start tt (fun _ v => (tt, false))) [] (fun log p v => (log ++ [p], false)))) fuel ;; Ok (o, pr_clos s)) ⇓
  Ok (Some (TNode 0 [TNode 1 []; TNode 2 []]), [[]; [0]; [0]]%N).
Proof.
  exists 20; intros f Hf; replace f with (20 + (f - 20)) by lia; generalize (f - 20) as k; intros k; vm_compute; reflexivity.
Qed.
Print Assumptions C38_prune_path_after_prune_refuted.
