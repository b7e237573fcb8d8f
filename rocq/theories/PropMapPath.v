(** * Property C37: what map_path and map_path_each hand to their closure.

    The paths they should hand out are [node_paths] (SpecMapPath.v).  They hand out [stale_paths]: every node gets the
    path of the node before it in preorder, seen through a pointer taken before the iterator moved on.  If the path
    vector has been reallocated or dropped in between, that pointer dangles and the read is [UB].

    [grow] is the growth policy of [Vec]: any that grows ([std_grow], max (2 * c) 4, is the standard library's). *)
From Verif Require Import Prelim PrelimFacts Spec SpecFacts SpecPipe SpecPipeColl SpecObs SpecMapPath ModelNode NodeFacts ModelPre ModelPipe ModelPipeColl
  ModelMapPath ProofsTree ProofsMapPathEnd ProofsMapPathEach ProofsMapPathChain ProofsMapPathBehind PropTraversal PropColl.

(** The closure [f], applied to a path and a value. *)
Notation called f := (fun g pv => f g (fst pv) (snd pv)).

(** ** One tree *)

(** If no node but the last is as deep as the vector's first capacity, [map_path] keeps the shape and runs the closure
    once per node, in preorder, on the stale path and the node's value; [g'] is the closure's state at the end. *)
Theorem C37_map_path : forall Nd V (gvc : Nd -> V * list Nd) nt, node_tree gvc nt ->
  forall grow B G (f : G -> list N -> V -> G * B) g n, small_nodes gvc (nt n) -> ~ passes_depth (grow 0) (node_paths (nt n)) ->
  exists t' g', op_map_path grow f gvc g n ⇓ Ok (t', g') /\ same_shape t' (nt n) /\
  map_accum (called f) g (combine (map (map N.of_nat) (stale_paths stale [] (node_paths (nt n)))) (map (nval gvc) (preorder (nt n)))) = (g', preorder t').
Proof. intros Nd V gvc nt H grow B G f g n; exact (map_path_ok grow f gvc nt H n g). Qed.
Print Assumptions C37_map_path.

Theorem C37_map_path_binary : forall Nd V (gvcb : Nd -> V * (option Nd * option Nd)) bt, node_btree gvcb bt ->
  forall grow B G (f : G -> list N -> V -> G * B) g n, ~ passes_depth (grow 0) (bnode_paths (bt n)) ->
  exists t' g', bop_map_path grow f gvcb g n ⇓ Ok (t', g') /\ bsame_shape t' (bt n) /\
  map_accum (called f) g (combine (map (map N.of_nat) (stale_paths bstale [] (bnode_paths (bt n)))) (map (nval gvcb) (preorder (flat (bt n))))) = (g', preorder (flat t')).
Proof. intros Nd V gvcb bt H grow B G f g n; exact (bmap_path_ok grow f gvcb bt H n g). Qed.
Print Assumptions C37_map_path_binary.

(** Otherwise it reads freed memory, whatever the closure. *)
Theorem C37_map_path_use_after_free : forall Nd V (gvc : Nd -> V * list Nd) nt, node_tree gvc nt ->
  forall grow, (forall c, c < grow c) ->
  forall B G (f : G -> list N -> V -> G * B) g n, passes_depth (grow 0) (node_paths (nt n)) -> op_map_path grow f gvc g n ⇓ UB.
Proof. intros Nd V gvc nt H grow Hg B G f g n; exact (map_path_ub grow Hg f gvc nt H n g). Qed.
Print Assumptions C37_map_path_use_after_free.

Theorem C37_map_path_use_after_free_binary : forall Nd V (gvcb : Nd -> V * (option Nd * option Nd)) bt, node_btree gvcb bt ->
  forall grow, (forall c, c < grow c) ->
  forall B G (f : G -> list N -> V -> G * B) g n, passes_depth (grow 0) (bnode_paths (bt n)) -> bop_map_path grow f gvcb g n ⇓ UB.
Proof. intros Nd V gvcb bt H grow Hg B G f g n; exact (bmap_path_ub grow Hg f gvcb bt H n g). Qed.
Print Assumptions C37_map_path_use_after_free_binary.

(** A closure that records the paths it is given. *)
Definition record_paths {V} (g : list (list N)) (p : list N) (_ : V) : list (list N) * unit := (g ++ [p], tt).
Lemma record_accum {V} l : forall g (vs : list V), length l = length vs -> fst (map_accum (called record_paths) g (combine l vs)) = g ++ l.
Proof.
  induction l as [|p l IH]; intros g [|v vs] E; try discriminate; cbn; [rewrite app_nil_r; reflexivity|].
  specialize (IH (g ++ [p]) vs ltac:(cbn in E; lia)); cbn in IH; destruct (map_accum _ _ _); cbn in *; rewrite IH, <- app_assoc; reflexivity.
Qed.
Lemma stale_len st first ps : length (stale_paths st first ps) = length ps.
Proof.
  destruct ps as [|p ps]; cbn; [reflexivity|f_equal]; revert p; induction ps as [|q ps IH]; intros p; cbn; [reflexivity|rewrite IH; reflexivity].
Qed.

Lemma node_paths_len {A} (t : tree A) : length (node_paths t) = length (preorder t).
Proof. unfold node_paths; rewrite map_length, <- (map_length pos_here), <- preorder_map; unfold positions; rewrite annotate_here; reflexivity. Qed.
Lemma bnode_paths_len {A} (t : btree A) : length (bnode_paths t) = length (preorder (flat t)).
Proof.
  unfold bnode_paths; rewrite map_length; unfold bpositions.
  rewrite <- (map_length pos_here), <- preorder_map, <- flat_btree_map, bannotate_here; reflexivity.
Qed.

(** The recorded paths are the nodes' paths only if the tree is a single node: for every tree with a second node,
    [map_path] does not do what its documentation says. *)
Theorem C37_map_path_refuted : forall Nd V (gvc : Nd -> V * list Nd) nt, node_tree gvc nt ->
  forall grow, (forall c, c < grow c) -> forall n, small_nodes gvc (nt n) -> 2 <= length (preorder (nt n)) ->
  ~ exists t', op_map_path grow record_paths gvc [] n ⇓ Ok (t', map (map N.of_nat) (node_paths (nt n))).
Proof.
  intros Nd V gvc nt H grow Hg n Hs H2 (t' & Hc).
  assert (Hdec : {passes_depth (grow 0) (node_paths (nt n))} + {~ passes_depth (grow 0) (node_paths (nt n))})
    by (apply Exists_dec; intros q; apply le_dec).
  destruct Hdec as [Hp|Hp].
  - pose proof (conv_fun _ _ _ Hc (C37_map_path_use_after_free _ _ _ _ H grow Hg _ _ record_paths [] n Hp)); discriminate.
  - destruct (C37_map_path _ _ _ _ H grow _ _ record_paths [] n Hs Hp) as (t2 & g2 & Hc2 & _ & E).
    pose proof (conv_fun _ _ _ Hc Hc2) as E2; injection E2 as -> <-.
    pose proof (f_equal fst E) as E3; rewrite record_accum in E3.
    2:{ rewrite !map_length, stale_len; apply node_paths_len. }
    cbn [app fst] in E3; clear - H2 E3;
    destruct (nt n) as [v [|[w us] ts]]; [cbn in H2; lia|]; cbn in E3; discriminate.
Qed.
Print Assumptions C37_map_path_refuted.

Theorem C37_map_path_binary_refuted : forall Nd V (gvcb : Nd -> V * (option Nd * option Nd)) bt, node_btree gvcb bt ->
  forall grow, (forall c, c < grow c) -> forall n, 2 <= length (preorder (flat (bt n))) ->
  ~ exists t', bop_map_path grow record_paths gvcb [] n ⇓ Ok (t', map (map N.of_nat) (bnode_paths (bt n))).
Proof.
  intros Nd V gvcb bt H grow Hg n H2 (t' & Hc).
  assert (Hdec : {passes_depth (grow 0) (bnode_paths (bt n))} + {~ passes_depth (grow 0) (bnode_paths (bt n))})
    by (apply Exists_dec; intros q; apply le_dec).
  destruct Hdec as [Hp|Hp].
  - pose proof (conv_fun _ _ _ Hc (C37_map_path_use_after_free_binary _ _ _ _ H grow Hg _ _ record_paths [] n Hp)); discriminate.
  - destruct (C37_map_path_binary _ _ _ _ H grow _ _ record_paths [] n Hp) as (t2 & g2 & Hc2 & _ & E).
    pose proof (conv_fun _ _ _ Hc Hc2) as E2; injection E2 as -> <-.
    pose proof (f_equal fst E) as E3; rewrite record_accum in E3.
    2:{ rewrite !map_length, stale_len; apply bnode_paths_len. }
    cbn [app fst] in E3; clear - H2 E3.
    destruct (bt n) as [v [[w a b]|] [[x c d]|]]; try (cbn in H2; lia); cbn in E3; discriminate.
Qed.
Print Assumptions C37_map_path_binary_refuted.

(** The crate's own type: [stale_paths] on a concrete tree; a chain of 6 nodes is too deep, a chain of 5 is not. *)
Definition chain_of (k : nat) : tree nat := Nat.iter k (fun t => TNode k [t]) (TNode 0 []).
Example std_grow_grows c : c < std_grow c.
Proof. unfold std_grow; lia. Qed.
Example C37_ex : op_map_path std_grow record_paths tree_gvc [] ex_tree 40 =
  Ok (tree_map (fun _ => tt) ex_tree, [[]; []; [0]; [0; 1]; [0; 1]; [1; 1; 0]; [2]; [2]]%N) /\
  node_paths ex_tree = [[]; [0]; [0; 0]; [0; 1]; [0; 1; 0]; [1]; [2]; [2; 0]].
Proof. vm_compute; split; reflexivity. Qed.
Example C37_hyps : ~ passes_depth (std_grow 0) (node_paths (subtrees ex_tree)) /\ small_nodes tree_gvc (subtrees ex_tree) /\ 2 <= length (preorder (subtrees ex_tree)).
Proof.
  split; [|split; [exact small_nodes_met|vm_compute; lia]].
  intros Hp; vm_compute in Hp; repeat (apply Exists_cons in Hp as [Hp|Hp]; [lia|]); inversion Hp.
Qed.
Example C37_uaf_ex : passes_depth (std_grow 0) (node_paths (subtrees (chain_of 5))) /\ op_map_path std_grow record_paths tree_gvc [] (chain_of 5) 40 = UB.
Proof. split; [|vm_compute; reflexivity]. vm_compute; do 4 apply Exists_cons_tl; apply Exists_cons_hd; lia. Qed.
Example C37_uaf_next_ex : exists r, ~ passes_depth (std_grow 0) (node_paths (subtrees (chain_of 4))) /\ op_map_path std_grow record_paths tree_gvc [] (chain_of 4) 40 = Ok r.
Proof. eexists; split; [|vm_compute; reflexivity]. intros Hp; vm_compute in Hp; repeat (apply Exists_cons in Hp as [Hp|Hp]; [lia|]); inversion Hp. Qed.
Example C37_binary_ex : exists r, bop_map_path std_grow record_paths btree_gvcb [] ex_btree 40 = Ok r /\
  snd r = map (map N.of_nat) (stale_paths bstale [] (bnode_paths ex_btree)) /\ snd r <> map (map N.of_nat) (bnode_paths ex_btree) /\
  ~ passes_depth (std_grow 0) (bnode_paths (bsubtrees ex_btree)).
Proof.
  eexists; split; [vm_compute; reflexivity|]; split; [vm_compute; reflexivity|]; split; [vm_compute; discriminate|].
  intros Hp; vm_compute in Hp; repeat (apply Exists_cons in Hp as [Hp|Hp]; [lia|]); inversion Hp.
Qed.

(** ** Collections

    The paths begin with the index of the tree, and every tree has a vector of its own.  With two trees or more the
    first [next()] of the result reads freed memory: to know that the first tree is complete it moves to the second
    tree, and drops the first tree's vector. *)
Theorem C37_each_use_after_free : forall Nd V (gvc : Nd -> V * list Nd) nt, node_tree gvc nt ->
  forall grow, (forall c, c < grow c) ->
  forall B G (f : G -> list N -> V -> G * B) g n1 n2 ns, let P := map_path_each grow f gvc g (n1 :: n2 :: ns) in
  (fun k => trees_next P k (trees_new P)) ⇓ UB.
Proof. intros Nd V gvc nt H grow Hg B G f g n1 n2 ns; apply (map_path_each_ub grow Hg f gvc nt H); left; discriminate. Qed.
Print Assumptions C37_each_use_after_free.

Theorem C37_each_use_after_free_binary : forall Nd V (gvcb : Nd -> V * (option Nd * option Nd)) bt, node_btree gvcb bt ->
  forall grow, (forall c, c < grow c) ->
  forall B G (f : G -> list N -> V -> G * B) g n1 n2 ns, let P := bmap_path_each grow f gvcb g (n1 :: n2 :: ns) in
  (fun k => btrees_next P k (trees_new P)) ⇓ UB.
Proof. intros Nd V gvcb bt H grow Hg B G f g n1 n2 ns; apply (bmap_path_each_ub grow Hg f gvcb bt H); left; discriminate. Qed.
Print Assumptions C37_each_use_after_free_binary.

(** One tree: as [map_path], with the index in front (but not for the root, which gets the empty path). *)
Theorem C37_each_one : forall Nd V (gvc : Nd -> V * list Nd) nt, node_tree gvc nt ->
  forall grow, (forall c, c < grow c) ->
  forall B G (f : G -> list N -> V -> G * B) g n, let P := map_path_each grow f gvc g [n] in
  let paths := map (cons 0) (node_paths (nt n)) in
  (passes_depth (grow 0) paths -> (fun k => trees_next P k (trees_new P)) ⇓ UB) /\
  (small_nodes gvc (nt n) -> ~ passes_depth (grow 0) paths ->
   exists t' g', yields (trees_next P) (trees_new P) [t'] /\ same_shape t' (nt n) /\
   map_accum (called f) g (combine (map (map N.of_nat) (stale_paths stale [] paths)) (map (nval gvc) (preorder (nt n)))) = (g', preorder t')).
Proof.
  intros Nd V gvc nt H grow Hg B G f g n; split; [intros Hp; apply (map_path_each_ub grow Hg f gvc nt H); right; exact Hp|].
  exact (map_path_each_one grow f gvc nt H n g).
Qed.
Print Assumptions C37_each_one.

Theorem C37_each_one_binary : forall Nd V (gvcb : Nd -> V * (option Nd * option Nd)) bt, node_btree gvcb bt ->
  forall grow, (forall c, c < grow c) ->
  forall B G (f : G -> list N -> V -> G * B) g n, let P := bmap_path_each grow f gvcb g [n] in
  let paths := map (cons 0) (bnode_paths (bt n)) in
  (passes_depth (grow 0) paths -> (fun k => btrees_next P k (trees_new P)) ⇓ UB) /\
  (~ passes_depth (grow 0) paths ->
   exists t' g', yields (btrees_next P) (trees_new P) [t'] /\ bsame_shape t' (bt n) /\
   map_accum (called f) g (combine (map (map N.of_nat) (stale_paths bstale [] paths)) (map (nval gvcb) (preorder (flat (bt n))))) = (g', preorder (flat t'))).
Proof.
  intros Nd V gvcb bt H grow Hg B G f g n; split; [intros Hp; apply (bmap_path_each_ub grow Hg f gvcb bt H); right; exact Hp|].
  exact (bmap_path_each_one grow f gvcb bt H n g).
Qed.
Print Assumptions C37_each_one_binary.

(** No tree: nothing. *)
Theorem C37_each_none : forall Nd V (gvc : Nd -> V * list Nd) (gvcb : Nd -> V * (option Nd * option Nd)) grow B G (f : G -> list N -> V -> G * B) g,
  (let P := map_path_each grow f gvc g [] in yields (trees_next P) (trees_new P) []) /\
  (let P := bmap_path_each grow f gvcb g [] in yields (btrees_next P) (trees_new P) []).
Proof. intros; split; [apply map_path_each_none|apply bmap_path_each_none]. Qed.
Print Assumptions C37_each_none.

Example C37_each_ex : (let P := map_path_each std_grow record_paths tree_gvc [] [TNode 1 []; TNode 2 []] in trees_next P 20 (trees_new P)) = UB /\
  (let P := map_path_each std_grow record_paths tree_gvc [] [ex_tree] in trees_next P 30 (trees_new P)) = UB /\
  (let P := map_path_each std_grow (fun (_ : unit) p (_ : nat) => (tt, p)) tree_gvc tt [TNode 1 [TNode 2 [TNode 3 []]; TNode 4 [TNode 5 []; TNode 6 []]]] in
   exists s, calls (trees_next P) 2 (trees_new P) 30 =
     Ok ([Some (TNode []%N [TNode [0]%N [TNode [0; 0]%N []]; TNode [0; 1; 0]%N [TNode [0; 1]%N []; TNode [0; 1; 1]%N []]]); None], s)).
Proof. split; [vm_compute; reflexivity|]. split; [vm_compute; reflexivity|]. cbv zeta; eexists; vm_compute; reflexivity. Qed.

(** ** Stages behind map_path

    [into_pipeline().map_path(f)] followed by any chain of map, prune, prune_path and prune_depth.  If no node is as
    deep as the vector's first capacity, the result is the walk of [after_map_path]: a pruned subtree is not visited,
    the closure [f] is given stale paths (those of the node visited before, pruned or not), the stages behind are given
    true ones.  [g'] and [gs] are the closures' final states. *)
Theorem C37_chain : forall Nd V (gvc : Nd -> V * list Nd) nt, node_tree gvc nt ->
  forall grow B G (f : G -> list N -> V -> G * B) A (c : chain B A) n g,
  small_nodes gvc (nt n) -> Forall (fun p => length p < grow 0) (node_paths (nt n)) ->
  true_paths c = true -> (has_prune c = true -> (N.of_nat (length (preorder (nt n))) <= usize_max)%N) ->
  let P := map_path (vt_pipeline grow gvc n) (fun s => vec_slice (vt_path s)) (fun s => vec_read (vt_path s)) f g in
  let '((q, g', gs), o) := walk (after_map_path stale (nval gvc) f (@length nat) c) ([], g, clos_init c) (positions (nt n)) in
  exists s, collect_tree (tree_chain P c) ⇓ Ok (o, s) /\ snd (chain_first tree_depth [] P c s) = g' /\ closures tree_depth [] P c s = gs.
Proof. intros Nd V gvc nt H grow B G f A c n g; exact (map_path_chain grow f c gvc nt H n g). Qed.
Print Assumptions C37_chain.

Theorem C37_chain_binary : forall Nd V (gvcb : Nd -> V * (option Nd * option Nd)) bt, node_btree gvcb bt ->
  forall grow B G (f : G -> list N -> V -> G * B) A (c : chain B A) n g, Forall (fun p => length p < grow 0) (bnode_paths (bt n)) ->
  let P := map_path (vtb_pipeline grow gvcb n) (fun s => vec_slice (vt_path s)) (fun s => vec_read (vt_path s)) f g in
  let '((q, g', gs), o) := bwalk (after_map_path bstale (nval gvcb) f (@length nat) c) ([], g, clos_init c) (bpositions (bt n)) in
  exists s, bcollect_tree (btree_chain P c) ⇓ Ok (o, s) /\ snd (chain_first_binary tree_depth P c s) = g' /\ closures_binary tree_depth P c s = gs.
Proof. intros Nd V gvcb bt H grow B G f A c n g; exact (bmap_path_chain grow f c gvcb bt H n g). Qed.
Print Assumptions C37_chain_binary.

(** The same for a collection of one tree: the paths begin with its index 0, the root has depth 0. *)
Theorem C37_each_chain : forall Nd V (gvc : Nd -> V * list Nd) nt, node_tree gvc nt ->
  forall grow B G (f : G -> list N -> V -> G * B) A (c : chain B A) n g,
  small_nodes gvc (nt n) -> Forall (fun p => S (length p) < grow 0) (node_paths (nt n)) ->
  true_paths c = true -> (has_prune c = true -> (N.of_nat (length (preorder (nt n))) <= usize_max)%N) ->
  let P := map_path_each grow f gvc g [n] in
  let C := each_chain P c in
  let '((q, g', gs), o) := walk (after_map_path stale (nval gvc) f (fun p => pred (length p)) c) ([], g, clos_init c) (annotate [0] [] (nt n)) in
  forall k, exists s ahead, calls (trees_next C) k (trees_new C) ⇓ Ok (map (nth_error (opt_list o)) (seq 0 k), (s, ahead, tt)) /\
    (1 < k -> snd (chain_first coll_depth [0%N] P c s) = g' /\ closures coll_depth [0%N] P c s = gs).
Proof. intros Nd V gvc nt H grow B G f A c n g; exact (map_path_each_chain grow f c gvc nt H n g). Qed.
Print Assumptions C37_each_chain.

Theorem C37_each_chain_binary : forall Nd V (gvcb : Nd -> V * (option Nd * option Nd)) bt, node_btree gvcb bt ->
  forall grow B G (f : G -> list N -> V -> G * B) A (c : chain B A) n g, Forall (fun p => S (length p) < grow 0) (bnode_paths (bt n)) ->
  let P := bmap_path_each grow f gvcb g [n] in
  let C := each_chain_binary P c in
  let '((q, g', gs), o) := bwalk (after_map_path bstale (nval gvcb) f (fun p => pred (length p)) c) ([], g, clos_init c) (bannotate [0] [] (bt n)) in
  forall k, exists s ahead, calls (btrees_next C) k (trees_new C) ⇓ Ok (map (nth_error (opt_list o)) (seq 0 k), (s, ahead, tt)) /\
    (1 < k -> snd (chain_first_binary coll_depth P c s) = g' /\ closures_binary coll_depth P c s = gs).
Proof. intros Nd V gvcb bt H grow B G f A c n g; exact (bmap_path_each_chain grow f c gvcb bt H n g). Qed.
Print Assumptions C37_each_chain_binary.

(** The hypotheses are met: pairs (path handed out, value), then subtrees whose root has the value 3 or 4 are pruned. *)
Definition pair_paths (g : list (list N)) (p : list N) (v : nat) : list (list N) * (list N * nat) := (g ++ [p], (p, v)).
Definition prune_34 : chain (list N * nat) (list N * nat) := c_prune c_start tt (fun _ pv => (tt, (3 <=? snd pv) && (snd pv <=? 4))).
Definition ex_shallow : tree nat := TNode 1 [TNode 3 [TNode 2 []]; TNode 4 [TNode 5 []; TNode 6 []]; TNode 7 [TNode 8 []]].
Example C37_chain_hyps : Forall (fun p => S (length p) < std_grow 0) (node_paths (subtrees ex_shallow)) /\ small_nodes tree_gvc (subtrees ex_shallow) /\
  true_paths prune_34 = true /\ (N.of_nat (length (preorder (subtrees ex_shallow))) <= usize_max)%N.
Proof.
  split; [vm_compute; repeat constructor|]; split; [|split; [reflexivity|vm_compute; discriminate]].
  unfold small_nodes; repeat constructor; vm_compute; discriminate.
Qed.
Example C37_chain_ex :
  (let P := map_path (vt_pipeline std_grow tree_gvc ex_shallow) (fun s => vec_slice (vt_path s)) (fun s => vec_read (vt_path s)) pair_paths [] in
   exists s, collect_tree (tree_chain P prune_34) 60 = Ok (Some (TNode ([], 1) [TNode ([2%N], 7) [TNode ([2%N], 8) []]]), s) /\
     snd (chain_first tree_depth [] P prune_34 s) = [[]; []; [1]; [2]; [2]]%N) /\
  (let P := map_path_each std_grow pair_paths tree_gvc [] [ex_shallow] in
   exists s, calls (trees_next (each_chain P prune_34)) 2 (trees_new (each_chain P prune_34)) 60 =
     Ok ([Some (TNode ([], 1) [TNode ([0; 2]%N, 7) [TNode ([0; 2]%N, 8) []]]); None], s)).
Proof. split; cbv zeta; [eexists; split; vm_compute; reflexivity|eexists; vm_compute; reflexivity]. Qed.
Example C37_chain_binary_ex :
  let P := map_path (vtb_pipeline std_grow btree_gvcb ex_btree) (fun s => vec_slice (vt_path s)) (fun s => vec_read (vt_path s)) pair_paths [] in
  exists r s, bcollect_tree (btree_chain P prune_34) 60 = Ok (Some r, s) /\ length (preorder (flat r)) < length (preorder (flat ex_btree)) /\
    Forall (fun p => length p < std_grow 0) (bnode_paths (bsubtrees ex_btree)).
Proof. cbv zeta; eexists _, _; split; [vm_compute; reflexivity|split; [vm_compute; lia|vm_compute; repeat constructor]]. Qed.

(** ** Stages before map_path

    A chain [c1] of stages, then map_path with [f], then a chain [c2].  The pointer is taken before [c1] moves on, and
    [c1] may visit several nodes (and leave them out) before it shows one: [f] is given what has become of the path by
    then.  N-ary: [c1] of map and prune_depth ([prune] and [prune_path] have a path of their own).  Binary: any [c1]. *)
Theorem C37_around : forall Nd V (gvc : Nd -> V * list Nd) nt, node_tree gvc nt ->
  forall grow A B D G (c1 : chain V A) (f : G -> list N -> A -> G * B) (c2 : chain B D) n g,
  small_nodes gvc (nt n) -> Forall (fun p => length p < grow 0) (node_paths (nt n)) ->
  has_prune c1 = false -> true_paths c2 = true -> (has_prune c2 = true -> (N.of_nat (length (preorder (nt n))) <= usize_max)%N) ->
  let P := map_path_on grow c1 f gvc g n in
  let '((gs1, q, g', gs2), o) := walk (around_map_path stale (nval gvc) c1 f c2) (clos_init c1, [], g, clos_init c2) (positions (nt n)) in
  exists s, collect_tree (tree_chain P c2) ⇓ Ok (o, s) /\
    closures tree_depth [] (vt_pipeline grow gvc n) c1 (fst (chain_first tree_depth [] P c2 s)) = gs1 /\
    snd (chain_first tree_depth [] P c2 s) = g' /\ closures tree_depth [] P c2 s = gs2.
Proof. intros Nd V gvc nt H grow A B D G c1 f c2 n g; exact (map_path_behind grow c1 f c2 gvc nt H n g). Qed.
Print Assumptions C37_around.

Theorem C37_around_binary : forall Nd V (gvcb : Nd -> V * (option Nd * option Nd)) bt, node_btree gvcb bt ->
  forall grow A B D G (c1 : chain V A) (f : G -> list N -> A -> G * B) (c2 : chain B D) n g, Forall (fun p => length p < grow 0) (bnode_paths (bt n)) ->
  let P := bmap_path_on grow c1 f gvcb g n in
  let '((gs1, q, g', gs2), o) := bwalk (around_map_path bstale (nval gvcb) c1 f c2) (clos_init c1, [], g, clos_init c2) (bpositions (bt n)) in
  exists s, bcollect_tree (btree_chain P c2) ⇓ Ok (o, s) /\
    closures_binary tree_depth (vtb_pipeline grow gvcb n) c1 (fst (chain_first_binary tree_depth P c2 s)) = gs1 /\
    snd (chain_first_binary tree_depth P c2 s) = g' /\ closures_binary tree_depth P c2 s = gs2.
Proof. intros Nd V gvcb bt H grow A B D G c1 f c2 n g; exact (bmap_path_behind grow c1 f c2 gvcb bt H n g). Qed.
Print Assumptions C37_around_binary.

(** Binary, 4 and 5 pruned before: the pointer taken at 3 (at [0; 0]) shows [1; 1] when 6 (at [1]) is handed out. *)
Definition ex_bshallow : btree nat :=
  BNode 1 (Some (BNode 2 (Some (BNode 3 None None)) (Some (BNode 4 (Some (BNode 9 None None)) None))))
          (Some (BNode 6 (Some (BNode 5 None None)) (Some (BNode 7 None None)))).
Definition prune_45 : chain nat nat := c_prune c_start 0 (fun k v => (S k, (4 <=? v) && (v <=? 5))).
Definition same_pairs : chain (list N * nat) (list N * nat) := c_map c_start tt (fun _ pv => (tt, pv)).
Example C37_around_binary_ex :
  let P := bmap_path_on std_grow prune_45 pair_paths btree_gvcb [] ex_bshallow in
  Forall (fun p => length p < std_grow 0) (bnode_paths (bsubtrees ex_bshallow)) /\
  exists s, bcollect_tree (btree_chain P same_pairs) 60 =
    Ok (Some (BNode ([], 1) (Some (BNode ([], 2) (Some (BNode ([0%N], 3) None None)) None)) (Some (BNode ([1; 1]%N, 6) None (Some (BNode ([1%N], 7) None None))))), s) /\
    snd (chain_first_binary tree_depth P same_pairs s) = [[]; []; [0]; [1; 1]; [1]]%N /\
    closures_binary tree_depth (vtb_pipeline std_grow btree_gvcb ex_bshallow) prune_45 (fst (chain_first_binary tree_depth P same_pairs s)) = (tt, 7).
Proof. cbv zeta; split; [vm_compute; repeat constructor|]; eexists; split; [|split]; vm_compute; reflexivity. Qed.
(** N-ary, to depth 1. *)
Example C37_around_ex :
  let c1 : chain nat nat := c_map (c_prune_depth c_start 1) 0 (fun k v => (S k, v * 10)) in
  let P := map_path_on std_grow c1 pair_paths tree_gvc [] ex_shallow in
  has_prune c1 = false /\
  exists s, collect_tree (tree_chain P same_pairs) 60 = Ok (Some (TNode ([], 10) [TNode ([], 30) []; TNode ([1%N], 40) []; TNode ([2%N], 70) []]), s) /\
    snd (chain_first tree_depth [] P same_pairs s) = [[]; []; [1]; [2]]%N.
Proof. cbv zeta; split; [reflexivity|]; eexists; split; vm_compute; reflexivity. Qed.
