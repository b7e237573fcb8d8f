(** * Property C37: map_path behind an n-ary [prune] or [prune_path].

    Those stages keep a path vector of their own, so the pointer of [map_path] points into that one: what it shows, and
    when it dangles, is [after_prunes] (SpecMapPathPrune.v), for trees of any depth. *)
From Verif Require Import Prelim PrelimFacts Spec SpecFacts SpecPipe SpecPipeColl SpecDrift SpecObs SpecMapPath SpecMapPathPrune ModelNode NodeFacts ModelPre ModelPipe
  ModelPipeColl ModelMapPath ModelMapPathPrune ProofsTree ProofsMapPathPruneFinal ProofsMapPathPruneDeep ProofsMapPathPruneEach PropTraversal PropMapPath.

(** [.(c1).map_path(f).(c2).collect_into_tree()] with a prune in [c1]: the walk of [after_prunes] says whether freed memory is
    read; if not, it gives the result and the closures' final states. *)
Theorem C37_behind_prune : forall Nd V (gvc : Nd -> V * list Nd) nt, node_tree gvc nt ->
  forall grow, (forall c, c < grow c) ->
  forall A B D G (c1 : chain V A) (f : G -> list N -> A -> G * B) (c2 : chain B D) n g, has_prune c1 = true ->
  (N.of_nat (length (preorder (nt n))) <= usize_max)%N ->
  let P := map_path_after grow gvc n c1 f g in
  let '((gs1, p, g', gs2, freed), o) :=
    walk (after_prunes grow (nval gvc) c1 f c2) (dclos_init [] c1, no_pointer, g, dclos_init [] c2, false) (positions (nt n)) in
  if freed then collect_tree (tree_chain P c2) ⇓ UB
  else exists s, collect_tree (tree_chain P c2) ⇓ Ok (o, s) /\
    mem_closures grow tree_depth [] (into_pipeline gvc n) c1 (fst (chain_first tree_depth [] P c2 s)) = dforget c1 gs1 /\
    snd (chain_first tree_depth [] P c2 s) = g' /\ closures tree_depth [] P c2 s = dforget c2 gs2.
Proof. intros Nd V gvc nt H grow Hg A B D G c1 f c2 n g Hp Hb; exact (behind_prune grow Hg gvc nt H c1 f c2 Hp n g Hb). Qed.
Print Assumptions C37_behind_prune.

(** If no node is deeper than the first capacity of the vector, no freed memory is read. *)
Theorem C37_behind_prune_shallow : forall Nd V (gvc : Nd -> V * list Nd) nt, node_tree gvc nt ->
  forall grow, (forall c, c < grow c) ->
  forall A B D G (c1 : chain V A) (f : G -> list N -> A -> G * B) (c2 : chain B D) n g, has_prune c1 = true ->
  (N.of_nat (length (preorder (nt n))) <= usize_max)%N -> Forall (fun p => length p <= grow 0) (node_paths (nt n)) ->
  exists o s, collect_tree (tree_chain (map_path_after grow gvc n c1 f g) c2) ⇓ Ok (o, s).
Proof. intros Nd V gvc nt H grow Hg A B D G c1 f c2 n g Hp; exact (behind_prune_shallow grow Hg gvc nt H c1 f c2 Hp n g). Qed.
Print Assumptions C37_behind_prune_shallow.

(** No result reaches below that depth: before such a node is handed out, freed memory has been read. *)
Theorem C37_behind_prune_deep : forall Nd V (gvc : Nd -> V * list Nd) nt, node_tree gvc nt ->
  forall grow, (forall c, c < grow c) ->
  forall A B D G (c1 : chain V A) (f : G -> list N -> A -> G * B) (c2 : chain B D) n g t s, has_prune c1 = true ->
  (N.of_nat (length (preorder (nt n))) <= usize_max)%N ->
  collect_tree (tree_chain (map_path_after grow gvc n c1 f g) c2) ⇓ Ok (Some t, s) -> Forall (fun p => length p <= grow 0) (node_paths t).
Proof. intros Nd V gvc nt H grow Hg A B D G c1 f c2 n g t s Hp; exact (behind_prune_deep grow Hg gvc nt H c1 f c2 Hp n g t s). Qed.
Print Assumptions C37_behind_prune_deep.

(** ** Collections

    [.(c1).map_path(f).(c2).trees()] of [into_pipeline_each()], with a prune in [c1].  If freed memory is read, some call of
    [next()] does it, and those before it return the trees of the walk, in order. *)
Theorem C37_each_behind_prune : forall Nd V (gvc : Nd -> V * list Nd) nt, node_tree gvc nt ->
  forall grow, (forall c, c < grow c) ->
  forall A B D G (c1 : chain V A) (f : G -> list N -> A -> G * B) (c2 : chain B D) trees g, has_prune c1 = true ->
  small_collection trees -> (N.of_nat (length (flat_map (fun n => preorder (nt n)) trees)) <= usize_max)%N ->
  let P := map_path_each_after grow gvc trees c1 f g in
  let C := each_chain P c2 in
  let '((gs1, p, g', gs2, freed), outs) :=
    walk_all (after_prunes_each grow (nval gvc) c1 f c2)
      (dclos_init [0%N] c1, first_pointer grow (reported c1 (dclos_init [0%N] c1) []), g, dclos_init [0%N] c2, false) (each_positions (map nt trees)) in
  if freed then exists k s, k <= length outs /\ calls (trees_next C) k (trees_new C) ⇓ Ok (map Some (firstn k outs), s) /\
    calls (trees_next C) (S k) (trees_new C) ⇓ UB
  else forall k, exists s ahead, calls (trees_next C) k (trees_new C) ⇓ Ok (map (nth_error outs) (seq 0 k), (s, ahead, tt)) /\
    (length outs < k ->
      mem_closures grow coll_depth [0%N] (into_pipeline_each gvc trees) c1 (fst (chain_first coll_depth [0%N] P c2 s)) = dforget c1 gs1 /\
      snd (chain_first coll_depth [0%N] P c2 s) = g' /\ closures coll_depth [0%N] P c2 s = dforget c2 gs2).
Proof. intros Nd V gvc nt H grow Hg A B D G c1 f c2 trees g Hp Hc Hb; exact (each_behind_prune grow Hg gvc nt H c1 f c2 Hp trees g Hc Hb). Qed.
Print Assumptions C37_each_behind_prune.

(** Paths are one longer than in one tree: if no node's depth reaches the first capacity, all the trees come out. *)
Theorem C37_each_behind_prune_shallow : forall Nd V (gvc : Nd -> V * list Nd) nt, node_tree gvc nt ->
  forall grow, (forall c, c < grow c) ->
  forall A B D G (c1 : chain V A) (f : G -> list N -> A -> G * B) (c2 : chain B D) trees g, has_prune c1 = true ->
  small_collection trees -> (N.of_nat (length (flat_map (fun n => preorder (nt n)) trees)) <= usize_max)%N ->
  Forall (fun n => Forall (fun p => length p < grow 0) (node_paths (nt n))) trees ->
  let C := each_chain (map_path_each_after grow gvc trees c1 f g) c2 in exists outs, yields (trees_next C) (trees_new C) outs.
Proof. intros Nd V gvc nt H grow Hg A B D G c1 f c2 trees g Hp; exact (each_behind_shallow grow Hg gvc nt H c1 f c2 Hp trees g). Qed.
Print Assumptions C37_each_behind_prune_shallow.

(** If [trees()] comes to its end, no tree that it returned reaches that depth. *)
Theorem C37_each_behind_prune_deep : forall Nd V (gvc : Nd -> V * list Nd) nt, node_tree gvc nt ->
  forall grow, (forall c, c < grow c) ->
  forall A B D G (c1 : chain V A) (f : G -> list N -> A -> G * B) (c2 : chain B D) trees g outs s, has_prune c1 = true ->
  small_collection trees -> (N.of_nat (length (flat_map (fun n => preorder (nt n)) trees)) <= usize_max)%N ->
  let C := each_chain (map_path_each_after grow gvc trees c1 f g) c2 in
  calls (trees_next C) (S (length outs)) (trees_new C) ⇓ Ok (map Some outs ++ [None], s) ->
  Forall (fun t => Forall (fun p => length p < grow 0) (node_paths t)) outs.
Proof. intros Nd V gvc nt H grow Hg A B D G c1 f c2 trees g outs s Hp; exact (each_behind_deep grow Hg gvc nt H c1 f c2 Hp trees g outs s). Qed.
Print Assumptions C37_each_behind_prune_deep.

(** ** Examples *)
Definition prune_4 : chain nat nat := c_prune c_start 0 (fun k v => (S k, v =? 4)).
Definition prune_none : chain nat nat := c_prune c_start tt (fun _ _ => (tt, false)).
Definition ex_wide : tree nat := TNode 1 [TNode 2 [TNode 3 []; TNode 4 [TNode 9 []]; TNode 8 []]; TNode 6 [TNode 5 []]; TNode 7 []].
(** 4 is cut off.  8 has the path [0; 2], the stage reports [0; 0], the pointer shows [0; 0]; 6 is given [1; 0]. *)
Example C37_behind_ex :
  let P := map_path_after std_grow tree_gvc ex_wide prune_4 pair_paths [] in
  exists s, collect_tree (tree_chain P same_pairs) 60 =
    Ok (Some (TNode ([], 1) [TNode ([], 2) [TNode ([0%N], 3) []; TNode ([0; 0]%N, 8) []]; TNode ([1; 0]%N, 6) [TNode ([1%N], 5) []]; TNode ([2; 0]%N, 7) []]), s) /\
    snd (chain_first tree_depth [] P same_pairs s) = [[]; []; [0]; [0; 0]; [1; 0]; [1]; [2; 0]]%N /\
    mem_closures std_grow tree_depth [] (into_pipeline tree_gvc ex_wide) prune_4 (fst (chain_first tree_depth [] P same_pairs s)) = (tt, 8).
Proof. cbv zeta; eexists; split; [|split]; vm_compute; reflexivity. Qed.
Example C37_behind_hyps : node_tree (@tree_gvc nat) subtrees /\ (forall c, c < std_grow c) /\ has_prune prune_4 = true /\
  (N.of_nat (length (preorder (subtrees ex_wide))) <= usize_max)%N /\ Forall (fun p => length p <= std_grow 0) (node_paths (subtrees ex_wide)).
Proof. split; [exact (node_tree_met nat)|]; split; [exact std_grow_grows|]; split; [reflexivity|]; split; [vm_compute; discriminate|vm_compute; repeat constructor]. Qed.
(** A node at depth 4 is fine, also with something behind it; at depth 5 the vector moves. *)
Example C37_behind_deep_ex :
  (exists t s, collect_tree (tree_chain (map_path_after std_grow tree_gvc (chain_of 4) prune_none pair_paths []) same_pairs) 60 = Ok (Some t, s)) /\
  collect_tree (tree_chain (map_path_after std_grow tree_gvc (chain_of 5) prune_none pair_paths []) same_pairs) 60 = UB.
Proof. split; [eexists; eexists|]; vm_compute; reflexivity. Qed.
(** Also if the deep node is cut off and something comes after it. *)
Example C37_behind_cut_ex :
  let deep := TNode 0 [TNode 0 [TNode 0 [TNode 0 [TNode 0 [TNode 4 []]]]]; TNode 1 []] in
  collect_tree (tree_chain (map_path_after std_grow tree_gvc deep prune_4 pair_paths []) same_pairs) 60 = UB.
Proof. vm_compute; reflexivity. Qed.
(** The path vector of the stage lives on from tree to tree: the second root is given [1; 0; 0], the slice that was taken at 8. *)
Definition prune_path_4 : chain nat nat := c_prune_path c_start 0 (fun k _ v => (S k, v =? 4)).
Definition two_trees : list (tree nat) := [TNode 1 [TNode 2 [TNode 3 []; TNode 4 [TNode 9 []]; TNode 8 []]]; TNode 6 [TNode 5 []]].
Example C37_each_behind_ex :
  let P := map_path_each_after std_grow tree_gvc two_trees prune_4 pair_paths [] in
  let C := each_chain P same_pairs in
  exists s ahead, calls (trees_next C) 3 (trees_new C) 60 =
    Ok ([Some (TNode ([], 1) [TNode ([0%N], 2) [TNode ([0; 0]%N, 3) []; TNode ([0; 0; 0]%N, 8) []]]); Some (TNode ([1; 0; 0]%N, 6) [TNode ([1%N], 5) []]); None], (s, ahead, tt)) /\
    snd (chain_first coll_depth [0%N] P same_pairs s) = [[]; [0]; [0; 0]; [0; 0; 0]; [1; 0; 0]; [1]]%N.
Proof. cbv zeta; eexists; eexists; split; vm_compute; reflexivity. Qed.
(** The vector of [prune_path] begins with a 0, so the first root is given [0] and not nothing. *)
Example C37_each_behind_path_ex :
  let C := each_chain (map_path_each_after std_grow tree_gvc two_trees prune_path_4 pair_paths []) same_pairs in
  exists s, calls (trees_next C) 1 (trees_new C) 60 =
    Ok ([Some (TNode ([0%N], 1) [TNode ([0%N], 2) [TNode ([0; 0]%N, 3) []; TNode ([0; 0; 0]%N, 8) []]])], s).
Proof. cbv zeta; eexists; vm_compute; reflexivity. Qed.
(** Depth 3 is fine; depth 4 is not, and it is the second call that reads freed memory. *)
Example C37_each_behind_deep_ex :
  let run n := let C := each_chain (map_path_each_after std_grow tree_gvc [TNode 1 []; chain_of n] prune_none pair_paths []) same_pairs in
    fun k => calls (trees_next C) k (trees_new C) 60 in
  (exists t u s, run 3 3 = Ok ([Some t; Some u; None], s)) /\ (exists t s, run 4 1 = Ok ([Some t], s)) /\ run 4 2 = UB.
Proof. cbv zeta; split; [|split]; [do 3 eexists|do 2 eexists|]; vm_compute; reflexivity. Qed.
Example C37_each_behind_hyps : small_collection two_trees /\
  (N.of_nat (length (flat_map (fun n => preorder (subtrees n)) two_trees)) <= usize_max)%N /\
  Forall (fun n => Forall (fun p => length p < std_grow 0) (node_paths (subtrees n))) two_trees /\
  has_prune prune_4 = true /\ has_prune prune_path_4 = true.
Proof.
  split; [unfold small_collection; vm_compute; discriminate|]; split; [vm_compute; discriminate|]; split; [|split; reflexivity].
  repeat (apply Forall_cons || apply Forall_nil); vm_compute; repeat constructor.
Qed.
