{"id": "C01", "title": "Breadth-first order is exact", "statement": "Calling next() repeatedly on bfs()/bfs_iter()/bfs_iter_mut() returns exactly the values of the tree in level order (all nodes of depth 0, then depth 1, ..., left to right within a level), then None on every further call; it never panics.", "quantifier": "every finite tree (any arity, shape, depth and values, including user node types that present such a tree) and every number of calls", "why_tests_cant": "The test-suite walks two fixed 11-node trees; the claim ranges over all shapes, so only an induction over trees settles it.", "anchors": ["tree_iterators_rs/src/bfs_iterators/mod.rs: bfs_next", "tree_iterators_rs/src/prelude.rs: bfs, bfs_iter, bfs_iter_mut"]}
{"id": "C02", "title": "Preorder is exact", "statement": "Calling next() repeatedly on dfs_preorder()/dfs_preorder_iter()/_mut() returns exactly the values of the tree with every node before its descendants and siblings' subtrees left to right, then None forever; it never panics.", "quantifier": "every finite tree (any arity, shape, depth and values, including user node types that present such a tree) and every number of calls", "why_tests_cant": "The test-suite walks two fixed 11-node trees; the claim ranges over all shapes, so only an induction over trees settles it.", "anchors": ["tree_iterators_rs/src/dfs_preorder_iterators/mod.rs: dfs_preorder_next", "tree_iterators_rs/src/prelude.rs: dfs_preorder"]}
{"id": "C03", "title": "Postorder is exact", "statement": "Calling next() repeatedly on dfs_postorder()/dfs_postorder_iter()/_mut() returns exactly the values of the tree with every node after all its descendants and subtrees left to right, then None forever; it never panics.", "quantifier": "every finite tree (any arity, shape, depth and values, including user node types that present such a tree) and every number of calls", "why_tests_cant": "The test-suite walks two fixed 11-node trees; the claim ranges over all shapes, so only an induction over trees settles it.", "anchors": ["tree_iterators_rs/src/dfs_postorder_iterators/mod.rs: dfs_postorder_next", "tree_iterators_rs/src/prelude.rs: dfs_postorder"]}
{"id": "C04", "title": "Inorder is exact", "statement": "Calling next() repeatedly on dfs_inorder()/dfs_inorder_iter()/_mut() returns exactly left subtree, node, right subtree order, then None forever; it never panics.", "quantifier": "every finite binary tree (any shape and values, including user node types that present such a tree) and every number of calls", "why_tests_cant": "The test-suite walks two fixed 11-node trees; the claim ranges over all shapes, so only an induction over trees settles it.", "anchors": ["tree_iterators_rs/src/dfs_inorder_iterators/mod.rs: dfs_inorder_next", "tree_iterators_rs/src/prelude.rs: dfs_inorder"]}
{"id": "C05", "title": "All traversals visit every node exactly once", "statement": "The sequences produced by the breadth-first, preorder, postorder and (binary) inorder iterators of the same tree are permutations of one another and of the multiset of node values; none is lost or duplicated.", "quantifier": "every finite tree (any arity, shape, depth and values, including user node types that present such a tree)", "why_tests_cant": "Agreement of four iterators must hold for all shapes; tests compare each with one literal list.", "anchors": ["tree_iterators_rs/src/prelude.rs: bfs, dfs_preorder, dfs_inorder, dfs_postorder"]}
{"id": "C06", "title": "Breadth-first attach_ancestors is exact", "statement": "Driving bfs().attach_ancestors() with advance()/get(), the i-th element is, for the i-th node in level order, the slice of values from the root down to that node inclusive; after the last node get() is None. No advance before exhaustion panics or reads uninitialised storage.", "quantifier": "every finite tree (any arity, shape, depth and values, including user node types that present such a tree) and every number of advances up to the end", "why_tests_cant": "The iterator uses iterative deepening with rotated queues; its correctness depends on arbitrary interleavings of exhausted and unexhausted subtrees.", "anchors": ["tree_iterators_rs/src/bfs_iterators/mod.rs: bfs_ancestors_streaming_iterator_impl, advance_dfs, pop_from_item_stack"]}
{"id": "C07", "title": "Breadth-first attach_context is exact (n-ary)", "statement": "Driving bfs().attach_context(), the i-th context has, for the i-th node in level order: path() = child indexes from the root to it, ancestors() = values from root to it inclusive, children() = its children; depth() = length of path; after the last node get() is None forever; no panic and no uninitialised read.", "quantifier": "every finite tree (any arity, shape, depth and values, including user node types that present such a tree) (each node has fewer than 2^64 children) and every number of advances", "why_tests_cant": "Path counters, ancestors and cached children are mutated incrementally over arbitrary histories of the deepening search.", "anchors": ["tree_iterators_rs/src/bfs_iterators/mod.rs: bfs_context_streaming_iterator_impl, advance_dfs, get_mut_context"]}
{"id": "C08", "title": "Breadth-first attach_context is exact (binary)", "statement": "Same as C07 for binary trees, with path components 0 for left and 1 for right even when the left child is absent, and children() the [left,right] pair.", "quantifier": "every finite binary tree (any shape and values, including user node types that present such a tree) and every number of advances", "why_tests_cant": "Index bookkeeping must be right for every pattern of absent children.", "anchors": ["tree_iterators_rs/src/bfs_iterators/mod.rs: bfs_context_binary_streaming_iterator_impl"]}
{"id": "C09", "title": "Preorder attach_ancestors is exact", "statement": "The i-th element of dfs_preorder().attach_ancestors() is the root-to-node slice of the i-th preorder node; then None forever; no panic.", "quantifier": "every finite tree (any arity, shape, depth and values, including user node types that present such a tree) and every number of advances", "why_tests_cant": "The test-suite walks two fixed 11-node trees; the claim ranges over all shapes, so only an induction over trees settles it.", "anchors": ["tree_iterators_rs/src/dfs_preorder_iterators/mod.rs: preorder_ancestors_streaming_iterator_impl"]}
{"id": "C10", "title": "Preorder attach_context is exact (n-ary)", "statement": "The i-th context of dfs_preorder().attach_context() has the path, root-to-node ancestors and children of the i-th preorder node; then None forever; no panic.", "quantifier": "every finite tree (any arity, shape, depth and values, including user node types that present such a tree) (each node has at most 2^64 children) and every number of advances", "why_tests_cant": "Path components start at usize::MAX and are wrapped on first use; correctness over all shapes needs the wrap-around arithmetic.", "anchors": ["tree_iterators_rs/src/dfs_preorder_iterators/mod.rs: preorder_context_streaming_iterator_impl"]}
{"id": "C11", "title": "Preorder attach_context is exact (binary)", "statement": "As C10 for binary trees with path components 0/1 naming left/right even when the left child is absent.", "quantifier": "every finite binary tree (any shape and values, including user node types that present such a tree) and every number of advances", "why_tests_cant": "The test-suite walks two fixed 11-node trees; the claim ranges over all shapes, so only an induction over trees settles it.", "anchors": ["tree_iterators_rs/src/dfs_preorder_iterators/mod.rs: preorder_binary_context_streaming_iterator_impl"]}
{"id": "C12", "title": "Postorder attach_ancestors is exact", "statement": "The i-th element of dfs_postorder().attach_ancestors() is the root-to-node slice of the i-th postorder node; then None forever; no panic.", "quantifier": "every finite tree (any arity, shape, depth and values, including user node types that present such a tree) and every number of advances", "why_tests_cant": "The test-suite walks two fixed 11-node trees; the claim ranges over all shapes, so only an induction over trees settles it.", "anchors": ["tree_iterators_rs/src/dfs_postorder_iterators/mod.rs: postorder_ancestors_streaming_iterator_impl"]}
{"id": "C13", "title": "Postorder attach_context is exact", "statement": "The i-th context of dfs_postorder[_iter[_mut]]().attach_context() has the path and ancestors of the i-th postorder node, and for the borrowed variants its children; then None forever; no panic. Holds for n-ary and binary trees (binary paths use 0/1 positions).", "quantifier": "every finite tree (any arity, shape, depth and values, including user node types that present such a tree), n-ary and binary, all three ownership variants, every number of advances", "why_tests_cant": "The test-suite walks two fixed 11-node trees; the claim ranges over all shapes, so only an induction over trees settles it.", "anchors": ["tree_iterators_rs/src/dfs_postorder_iterators/owned.rs", "tree_iterators_rs/src/dfs_postorder_iterators/borrow.rs", "tree_iterators_rs/src/dfs_postorder_iterators/mut_borrow.rs"]}
{"id": "C14", "title": "Inorder attach_ancestors is exact", "statement": "The i-th element of dfs_inorder().attach_ancestors() is the root-to-node slice of the i-th inorder node; then None forever; no panic.", "quantifier": "every finite binary tree (any shape and values, including user node types that present such a tree) and every number of advances", "why_tests_cant": "The test-suite walks two fixed 11-node trees; the claim ranges over all shapes, so only an induction over trees settles it.", "anchors": ["tree_iterators_rs/src/dfs_inorder_iterators/mod.rs: dfs_inorder_ancestors_streaming_iterator_impl"]}
{"id": "C15", "title": "Inorder attach_context is exact", "statement": "The i-th context of dfs_inorder[_iter[_mut]]().attach_context() has the 0/1 path and ancestors of the i-th inorder node, and for the borrowed variants its [left,right] children; then None forever; no panic.", "quantifier": "every finite binary tree (any shape and values, including user node types that present such a tree), all three ownership variants, every number of advances", "why_tests_cant": "The test-suite walks two fixed 11-node trees; the claim ranges over all shapes, so only an induction over trees settles it.", "anchors": ["tree_iterators_rs/src/dfs_inorder_iterators/owned.rs: advance", "tree_iterators_rs/src/dfs_inorder_iterators/borrow.rs: advance", "tree_iterators_rs/src/dfs_inorder_iterators/mut_borrow.rs"]}
{"id": "C16", "title": "leaves() of an unstarted depth-first iterator is exact", "statement": "dfs_preorder()/dfs_postorder()/dfs_inorder().leaves() called before any next() yields exactly the childless nodes left to right, then None forever; no panic.", "quantifier": "every finite tree (any arity, shape, depth and values, including user node types that present such a tree) and every number of calls", "why_tests_cant": "The test-suite walks two fixed 11-node trees; the claim ranges over all shapes, so only an induction over trees settles it.", "anchors": ["tree_iterators_rs/src/leaves_iterators/depth_first/mod.rs: dfs_next (leaves)", "tree_iterators_rs/src/dfs_preorder_iterators/owned.rs: leaves"]}
{"id": "C17", "title": "leaves() of a breadth-first iterator is exact at any point", "statement": "After any k calls to next() on bfs(), leaves() yields exactly the childless nodes among those not yet yielded, in level order, then None forever; no panic.", "quantifier": "every finite tree (any arity, shape, depth and values, including user node types that present such a tree), every k and every number of subsequent calls", "why_tests_cant": "Quantifies over every interruption point; no test interrupts the iterator part way.", "anchors": ["tree_iterators_rs/src/leaves_iterators/breadth_first/mod.rs: bfs_next (leaves)", "tree_iterators_rs/src/bfs_iterators/owned.rs: leaves"]}
{"id": "C18", "title": "leaves() of a partly consumed depth-first iterator", "statement": "Documentation: calling leaves() on a preorder/postorder/inorder iterator yields the leaves that have not yet been yielded. The code instead drops every remaining leaf whose parent the iterator has already entered (the parent, or a descendant of it, has been yielded). Claim (false) and exact behaviour (true) for every interruption point.", "quantifier": "every finite tree (any arity, shape, depth and values, including user node types that present such a tree), every k calls to next() before leaves()", "why_tests_cant": "The existing 'mid traversal' tests exhaust the iterator first; the claim is about every interruption point.", "anchors": ["tree_iterators_rs/src/leaves_iterators/depth_first/mod.rs: lines 33-38", "tree_iterators_rs/src/dfs_preorder_iterators/owned.rs: leaves", "tree_iterators_rs/src/dfs_postorder_iterators/owned.rs: leaves", "tree_iterators_rs/src/dfs_inorder_iterators/owned.rs: leaves"]}
{"id": "C19", "title": "attach_ancestors().leaves() of an unstarted depth-first iterator is exact", "statement": "dfs_preorder/dfs_postorder/dfs_inorder().attach_ancestors().leaves() before any advance yields exactly the root-to-leaf slices of the childless nodes left to right, then None; no panic.", "quantifier": "every finite tree (any arity, shape, depth and values, including user node types that present such a tree) and every number of advances", "why_tests_cant": "The test-suite walks two fixed 11-node trees; the claim ranges over all shapes, so only an induction over trees settles it.", "anchors": ["tree_iterators_rs/src/leaves_iterators/ancestors_depth_first/mod.rs"]}
{"id": "C20", "title": "attach_ancestors().leaves() of a breadth-first iterator is exact at any point", "statement": "After any k advances of bfs().attach_ancestors(), leaves() yields exactly the root-to-leaf slices of the childless nodes not yet yielded, in level order, then None; no panic and no uninitialised read.", "quantifier": "every finite tree (any arity, shape, depth and values, including user node types that present such a tree), every k, every number of advances", "why_tests_cant": "Hands the half-finished deepening state to a second iterator; quantifies over every hand-over point.", "anchors": ["tree_iterators_rs/src/leaves_iterators/ancestors_breadth_first/mod.rs"]}
{"id": "C21", "title": "attach_ancestors().leaves() of a partly consumed depth-first iterator", "statement": "After k advances, attach_ancestors().leaves() should yield the root-to-leaf slices of the remaining leaves. The code yields wrong ancestor slices, can return None before the end and can change the order of the leaves. But it never panics or hangs, and a caller that keeps calling past None sees every remaining leaf exactly once as the last element of a slice.", "quantifier": "every finite tree (any arity, shape, depth and values, including user node types that present such a tree), every k", "why_tests_cant": "Every interruption point of every tree.", "anchors": ["tree_iterators_rs/src/leaves_iterators/ancestors_depth_first/mod.rs", "tree_iterators_rs/src/dfs_preorder_iterators/mod.rs", "tree_iterators_rs/src/dfs_postorder_iterators/owned.rs", "tree_iterators_rs/src/dfs_inorder_iterators/owned.rs"]}
{"id": "C22", "title": "attach_context/attach_ancestors panic rule", "statement": "attach_context() and attach_ancestors() on an iterator panic exactly when at least one call to next() has been made, and otherwise return an iterator at the start of the tree.", "quantifier": "every finite tree (any arity, shape, depth and values, including user node types that present such a tree) and every number of earlier next() calls", "why_tests_cant": "'exactly when' over all histories of calls.", "anchors": ["tree_iterators_rs/src/bfs_iterators/owned.rs", "tree_iterators_rs/src/dfs_preorder_iterators/owned.rs", "tree_iterators_rs/src/dfs_postorder_iterators/owned.rs: attach_*", "tree_iterators_rs/src/dfs_inorder_iterators/owned.rs: attach_*"]}
{"id": "C23", "title": "Collection iterators concatenate", "statement": "bfs_each/dfs_preorder_each/dfs_postorder_each/dfs_inorder_each (owned, mut, borrowed) yield the concatenation, in collection order, of the single-tree sequences, then None forever; no panic.", "quantifier": "every finite list of trees (empty list included) and every number of calls", "why_tests_cant": "Any number of trees of any shape.", "anchors": ["tree_iterators_rs/src/collection_iterators.rs: next", "tree_iterators_rs/src/prelude.rs: *_each"]}
{"id": "C24", "title": "Collection attach_context", "statement": "The contexts produced by collection attach_context() are the single-tree contexts with the tree's index prepended to path(), in collection order, then None forever; no panic.", "quantifier": "every finite list of trees and every number of advances", "why_tests_cant": "Index prefix maintained across arbitrarily many trees.", "anchors": ["tree_iterators_rs/src/collection_iterators.rs: context advance/get"]}
{"id": "C25", "title": "at_path agrees with child indexing", "statement": "at_path/at_path_ref/at_path_mut(path) returns Some(subtree) iff following the indexes from the root through children (for binary: 0=left, 1=right, anything else or absent child = None) succeeds, and the returned node is that subtree; the empty path returns the node itself; never panics.", "quantifier": "every finite tree (any arity, shape, depth and values, including user node types that present such a tree) and every path of any length with any indexes", "why_tests_cant": "All paths on all trees.", "anchors": ["tree_iterators_rs/src/prelude.rs: at_path 192, 761", "tree_iterators_rs/src/prelude.rs: at_path_mut", "tree_iterators_rs/src/prelude.rs: at_path_ref"]}
{"id": "C26", "title": "Collection at_path", "statement": "Collection at_path(path) is None for the empty path; otherwise the first index selects the tree and the remainder is followed inside it.", "quantifier": "every finite list of trees and every path", "why_tests_cant": "All paths, all collections.", "anchors": ["tree_iterators_rs/src/prelude.rs: OwnedIntoIteratorOfTrees::at_path 3593"]}
{"id": "C27", "title": "Context paths lead back to the node", "statement": "For every context produced by any attach_context() iterator, at_path(ctx.path()) on the same tree returns the node whose value is the last element of ctx.ancestors() and whose children are ctx.children().", "quantifier": "every finite tree (any arity, shape, depth and values, including user node types that present such a tree) and every element of every context iterator", "why_tests_cant": "Relates two independent APIs over all trees.", "anchors": ["tree_iterators_rs/src/prelude.rs: at_path", "tree_iterators_rs/src/tree_context.rs"]}
{"id": "C28", "title": "Pipeline round-trip", "statement": "into_pipeline().collect_tree() returns Some(tree) structurally equal to the original (n-ary: children in order; binary: same left/right positions); owned, borrowed and mut variants.", "quantifier": "every finite tree (any arity, shape, depth and values, including user node types that present such a tree), n-ary and binary", "why_tests_cant": "The test-suite walks two fixed 11-node trees; the claim ranges over all shapes, so only an induction over trees settles it.", "anchors": ["tree_iterators_rs/src/tree_iterators/mod.rs: collect_tree", "tree_iterators_rs/src/dfs_preorder_iterators/mod.rs: path tracking next"]}
{"id": "C29", "title": "map preserves shape and calls the closure once per node in preorder", "statement": "map(f) returns the tree of the same shape whose value at each position is the closure's result for that position's value, where a stateful closure is invoked exactly once per node in preorder.", "quantifier": "every finite tree (any arity, shape, depth and values, including user node types that present such a tree), every stateful closure", "why_tests_cant": "Arbitrary closures with state on arbitrary trees.", "anchors": ["tree_iterators_rs/src/tree_iterators/map.rs", "tree_iterators_rs/src/tree_iterators/mod.rs: map_tree", "tree_iterators_rs/src/prelude.rs: map"]}
{"id": "C30", "title": "prune removes exactly the selected subtrees (n-ary)", "statement": "prune(f) returns the tree with every maximal subtree whose root satisfies f removed, order of the remaining children kept; None iff the root satisfies f. The closure is called in preorder exactly once on each node having no pruned ancestor.", "quantifier": "every finite tree (any arity, shape, depth and values, including user node types that present such a tree), every (stateful) closure", "why_tests_cant": "The test-suite walks two fixed 11-node trees; the claim ranges over all shapes, so only an induction over trees settles it.", "anchors": ["tree_iterators_rs/src/tree_iterators/prune.rs: Prune", "tree_iterators_rs/src/prelude.rs: prune 1005"]}
{"id": "C31", "title": "prune keeps positions (binary)", "statement": "As the n-ary prune, and every remaining node keeps its left/right position.", "quantifier": "every finite binary tree (any shape and values, including user node types that present such a tree), every (stateful) closure", "why_tests_cant": "The test-suite walks two fixed 11-node trees; the claim ranges over all shapes, so only an induction over trees settles it.", "anchors": ["tree_iterators_rs/src/tree_iterators/prune.rs: BinaryPrune", "tree_iterators_rs/src/prelude.rs: prune 472"]}
{"id": "C32", "title": "prune_depth truncates exactly", "statement": "prune_depth(d) returns the tree consisting of exactly the nodes of depth at most d, in the same positions; never None, never panics.", "quantifier": "every finite tree (any arity, shape, depth and values, including user node types that present such a tree) and every d", "why_tests_cant": "The test-suite walks two fixed 11-node trees; the claim ranges over all shapes, so only an induction over trees settles it.", "anchors": ["tree_iterators_rs/src/tree_iterators/prune_depth.rs", "tree_iterators_rs/src/prelude.rs: prune_depth"]}
{"id": "C33", "title": "prune_path gives the closure the node's path", "statement": "prune_path(f) behaves like prune with the closure additionally receiving the node's path in the original tree.", "quantifier": "every finite tree (any arity, shape, depth and values, including user node types that present such a tree), n-ary and binary, every (stateful) closure", "why_tests_cant": "The test-suite walks two fixed 11-node trees; the claim ranges over all shapes, so only an induction over trees settles it.", "anchors": ["tree_iterators_rs/src/tree_iterators/prune_path.rs", "tree_iterators_rs/src/prelude.rs: prune_path"]}
{"id": "C34", "title": "Pipelines compose", "statement": "Any chain of map_tree / prune / prune_depth / prune_path stages followed by collect_tree equals the left-to-right composition of the corresponding whole-tree operations (pure closures); each stage's closure is run only on nodes that survive the earlier stages.", "quantifier": "every finite tree (any arity, shape, depth and values, including user node types that present such a tree), every finite chain of stages", "why_tests_cant": "All chains of all lengths.", "anchors": ["tree_iterators_rs/src/tree_iterators/mod.rs", "tree_iterators_rs/src/tree_iterators/map.rs", "tree_iterators_rs/src/tree_iterators/prune.rs", "tree_iterators_rs/src/tree_iterators/prune_depth.rs", "tree_iterators_rs/src/tree_iterators/prune_path.rs"]}
{"id": "C35", "title": "fold is the bottom-up fold", "statement": "fold(f) returns the catamorphism of the tree: f applied to the children's results (in order; binary: [left,right] with None for absent) and the node's value, with a stateful closure called exactly once per node in postorder; never panics.", "quantifier": "every finite tree (any arity, shape, depth and values, including user node types that present such a tree), n-ary and binary, every (stateful) closure", "why_tests_cant": "The test-suite walks two fixed 11-node trees; the claim ranges over all shapes, so only an induction over trees settles it.", "anchors": ["tree_iterators_rs/src/tree_iterators/mod.rs: fold_tree", "tree_iterators_rs/src/prelude.rs: fold"]}
{"id": "C36", "title": "fold_path passes the node's path", "statement": "fold_path(f) is fold where the closure additionally receives the path of the node being folded.", "quantifier": "every finite tree (any arity, shape, depth and values, including user node types that present such a tree), n-ary and binary, every (stateful) closure", "why_tests_cant": "The test-suite walks two fixed 11-node trees; the claim ranges over all shapes, so only an induction over trees settles it.", "anchors": ["tree_iterators_rs/src/tree_iterators/mod.rs: fold_path", "tree_iterators_rs/src/prelude.rs: fold_path"]}
{"id": "C37", "title": "What map_path hands to its closure", "statement": "map_path(f) keeps the shape and calls f exactly once per node, in preorder, with the node's value. One expects the path argument to be the node's path. It is not: the closure is given the path of the previous node in preorder, through a pointer taken before the iterator moved on. For every tree with two or more nodes the paths handed out are therefore not the nodes' paths; as soon as some node other than the last is as deep as the first capacity of the path vector, freed memory is read. map_path_each reads freed memory on its first result for every collection of two or more trees. Inside a chain the same holds: for trees shallower than the first capacity of the vector, what map_path's closure sees behind map, prune_depth (and, for binary trees, prune and prune_path) stages is the path buffer as the previous step left it, and every stage behind map_path sees the true paths and the mapped values. Behind an n-ary prune or prune_path the pointer points into the path vector of that stage: the closure sees that stage's buffer as the previous kept node left it, overwritten by what the stage wrote since; no tree without nodes deeper than the first capacity reads freed memory, and no result ever reaches below that depth, because freed memory is read first. Over a collection that stage's vector lives on from tree to tree: the closure sees at a root what the last node of the tree before it left, several trees alone do not lead to a read of freed memory, and the depth that is safe is one less.", "quantifier": "every finite tree and collection (any arity, shape, depth and values, including user node types that present such a tree), every stateful closure, every growth policy of Vec that grows; every chain of stages behind it; before it every chain with an n-ary prune or prune_path (trees and collections of any depth), every other chain for one tree shallower than the first capacity", "why_tests_cant": "Needs a memory model of Vec growth over all depths; there are no tests of map_path.", "anchors": ["tree_iterators_rs/src/tree_iterators/map_path.rs", "tree_iterators_rs/src/tree_collection_iterators/map_path.rs", "tree_iterators_rs/src/tree_iterators/prune.rs", "tree_iterators_rs/src/tree_iterators/prune_path.rs"]}
{"id": "C38", "title": "Paths seen after a prune stage", "statement": "After prune/prune_path, later stages (fold_path, prune_path) should see the node's path (in the pruned tree). The n-ary adapters report the same last component for consecutive leaf siblings.", "quantifier": "every finite tree (any arity, shape, depth and values, including user node types that present such a tree), every closure", "why_tests_cant": "All trees and closures.", "anchors": ["tree_iterators_rs/src/tree_iterators/prune.rs: current_path", "tree_iterators_rs/src/tree_iterators/prune_path.rs: current_path"]}
{"id": "C39", "title": "Collection pipelines act tree by tree", "statement": "map_each/prune_each/prune_depth_each/prune_path_each over a collection yield, in order, the single-tree results (trees whose root is pruned are skipped), the closure state threading through the trees; then None forever; no panic.", "quantifier": "every finite list of trees, every (stateful) closure", "why_tests_cant": "The test-suite walks two fixed 11-node trees; the claim ranges over all shapes, so only an induction over trees settles it.", "anchors": ["tree_iterators_rs/src/tree_collection_iterators/trees.rs", "tree_iterators_rs/src/tree_collection_iterators/map.rs", "tree_iterators_rs/src/tree_collection_iterators/prune.rs", "tree_iterators_rs/src/tree_collection_iterators/prune_depth.rs", "tree_iterators_rs/src/tree_collection_iterators/prune_path.rs"]}
{"id": "C40", "title": "Collection folds act tree by tree", "statement": "fold_each/fold_path_each yield, in order, the fold of each tree; for fold_path_each paths carry the tree index as first component; then None forever; no panic.", "quantifier": "every finite list of trees, n-ary and binary, every (stateful) closure", "why_tests_cant": "The test-suite walks two fixed 11-node trees; the claim ranges over all shapes, so only an induction over trees settles it.", "anchors": ["tree_iterators_rs/src/tree_collection_iterators/fold.rs", "tree_iterators_rs/src/tree_collection_iterators/fold_path.rs"]}
{"id": "C41", "title": "Streaming iterators stay exhausted", "statement": "After get() has become None, further advance() calls keep it None and do not panic. The breadth-first attach_ancestors() iterator panics instead on the second advance past the end.", "quantifier": "every finite tree (any arity, shape, depth and values, including user node types that present such a tree) and any number of extra advances", "why_tests_cant": "History property: arbitrarily many calls after exhaustion.", "anchors": ["tree_iterators_rs/src/bfs_iterators/mod.rs: 272-330", "tree_iterators_rs/src/dfs_preorder_iterators/mod.rs", "tree_iterators_rs/src/dfs_postorder_iterators/mod.rs", "tree_iterators_rs/src/dfs_inorder_iterators/mod.rs"]}
{"id": "C42", "title": "children() of a yielded context never panics", "statement": "Every context yielded by an attach_context() iterator has children() available. False for the owned postorder and owned inorder iterators, where it always panics.", "quantifier": "every finite tree (any arity, shape, depth and values, including user node types that present such a tree), every element of every context iterator", "why_tests_cant": "All yielded contexts of all trees.", "anchors": ["tree_iterators_rs/src/tree_context.rs: children", "tree_iterators_rs/src/dfs_postorder_iterators/owned.rs", "tree_iterators_rs/src/dfs_inorder_iterators/owned.rs"]}
{"id": "C43", "title": "Mutable iterators reach every node exactly once", "statement": "Writing through each reference yielded by bfs_iter_mut/dfs_preorder_iter_mut/dfs_postorder_iter_mut/dfs_inorder_iter_mut leaves the tree with the same shape and every value replaced by the written function of its old value (no node written twice or missed).", "quantifier": "every finite tree (any arity, shape, depth and values, including user node types that present such a tree) and every pure update function", "why_tests_cant": "The test-suite walks two fixed 11-node trees; the claim ranges over all shapes, so only an induction over trees settles it.", "anchors": ["tree_iterators_rs/src/prelude.rs: *_iter_mut", "tree_iterators_rs/src/bfs_iterators/mut_borrow.rs", "tree_iterators_rs/src/dfs_preorder_iterators/mut_borrow.rs"]}
{"id": "C44", "title": "Edits through children_mut are honoured", "statement": "If the caller replaces the children of the current context through children_mut() between advances of the preorder or breadth-first attach_context iterator, the remaining traversal is that of the tree with those replacements. The same holds over a collection of trees (preorder_each, bfs_each with attach_context): the caller's edits of one tree change that tree only, and the next tree starts where the caller's own state was left.", "quantifier": "every finite tree (any arity, shape, depth and values, including user node types that present such a tree) and every edit function of the current context that terminates", "why_tests_cant": "Arbitrary sequences of edits.", "anchors": ["tree_iterators_rs/src/tree_context.rs: children_mut", "tree_iterators_rs/src/dfs_preorder_iterators/mod.rs: 166-227", "tree_iterators_rs/src/bfs_iterators/mod.rs: 28-98", "tree_iterators_rs/src/collection_iterators.rs: get_mut 136-140, 319-323, 551-555, 856-860"]}
{"id": "C45", "title": "cloned() returns an equal tree", "statement": "Tree<&T>::cloned / BinaryTree<&T>::cloned return the tree of the same shape with each reference replaced by a clone of its target.", "quantifier": "every finite tree (any arity, shape, depth and values, including user node types that present such a tree)", "why_tests_cant": "The test-suite walks two fixed 11-node trees; the claim ranges over all shapes, so only an induction over trees settles it.", "anchors": ["tree_iterators_rs/src/prelude.rs: cloned 103-128, 137-155"]}
{"id": "C46", "title": "Depth, path and ancestors of a context agree", "statement": "For every yielded context depth() = path().len() (single tree) = ancestors().len()-1; the last ancestor is the node's value, and the ancestors are the values met along path() from the root.", "quantifier": "every finite tree (any arity, shape, depth and values, including user node types that present such a tree), every element of every context iterator", "why_tests_cant": "The test-suite walks two fixed 11-node trees; the claim ranges over all shapes, so only an induction over trees settles it.", "anchors": ["tree_iterators_rs/src/tree_context.rs: depth, path, ancestors"]}
{"id": "C47", "title": "Path wrap-around is harmless", "statement": "The usize::MAX starting marker used by the path counters never leaks: no reported path component is usize::MAX-derived and every reported component is smaller than the number of children of the parent.", "quantifier": "every finite tree (any arity, shape, depth and values, including user node types that present such a tree) with at most 2^64 - 1 children per node", "why_tests_cant": "Concerns 64-bit wrap-around arithmetic.", "anchors": ["tree_iterators_rs/src/dfs_preorder_iterators/mod.rs", "tree_iterators_rs/src/dfs_postorder_iterators/owned.rs"]}
{"id": "C48", "title": "attach_context on an exhausted collection iterator", "statement": "Documentation says attach_context() panics if next() has been called. For collection iterators it panics exactly while a tree is in progress: after exhaustion it returns an empty iterator instead.", "quantifier": "every finite list of trees and every number of next() calls before", "why_tests_cant": "All histories.", "anchors": ["tree_iterators_rs/src/collection_iterators.rs: 66-80"]}
{"id": "C49", "title": "Children containers that own memory", "statement": "Whatever container get_value_and_children returns (a Vec of references, for example), the attach_context() iterators release its memory exactly once, and children() of the current context can be read until the next call of next(). This holds for the preorder and breadth-first iterators. It fails for the borrowed and mutable postorder iterators of n-ary trees, which duplicate the container: reading children() of a node whose container owns memory reads released memory, and the following call of next() or the drop of the iterator releases it again.", "quantifier": "every finite tree of nodes of any type, every choice of which nodes have a container that owns memory, every number of next() calls before the iterator is dropped", "why_tests_cant": "Undefined behaviour need not show in a test; which trees and call counts trigger it ranges over all trees and histories, and the crate's own node types never trigger it.", "anchors": ["tree_iterators_rs/src/dfs_postorder_iterators/borrow.rs: BorrowedDFSPostorderIteratorWithContext", "tree_iterators_rs/src/dfs_postorder_iterators/mut_borrow.rs: MutBorrowedDFSPostorderIteratorWithContext", "tree_iterators_rs/src/dfs_preorder_iterators/mod.rs", "tree_iterators_rs/src/bfs_iterators/mod.rs"]}
{"id": "C50", "title": "Values inside the owned breadth-first context iterators", "statement": "bfs().attach_context() on an owned tree moves the values out of the nodes. No value is dropped twice, and a traversal that reached None has dropped every value exactly once. An iterator that is dropped earlier does not drop all values it took: each is either dropped or leaked, once, and after yielding the i-th child of a node the values of the children before it are always leaked.", "quantifier": "every finite n-ary or binary tree with nodes of any type, every number of next() calls before the iterator is dropped", "why_tests_cant": "Double drops and leaks of values held in MaybeUninit depend on the shape of the tree and on when the iterator is dropped; all shapes and all drop points are meant.", "anchors": ["tree_iterators_rs/src/bfs_iterators/mod.rs: 30-190, 434-460", "tree_iterators_rs/src/bfs_iterators/owned.rs: OwnedBFSIteratorWithContext, OwnedBinaryBFSIteratorWithContext"]}
{"id": "C51", "title": "Trees that are made while they are traversed", "statement": "A node may make its children when it is asked for them, so a tree may have endless paths and endless numbers of siblings, and a children iterator may give more children after it gave None. The first k calls of next() on a preorder or breadth-first iterator (plain, with ancestors, with context) return, and give what they give on the finite tree that is cut off below depth k and after k children of each node. The first k calls on a postorder or (binary) inorder iterator return and give what they give on a finite cut of the tree whenever the first k nodes of that cut are not cut themselves; what lies behind them need not be finite. If each children iterator reaches None after finitely many children and no path is endless, every iterator gives the whole tree, where a node's children are those before the first None. A postorder iterator cannot return from its first next() when going down along first children never ends, nor an inorder iterator when going down along left children never ends.", "quantifier": "every type of node, every get_value_and_children, every children iterator (infinite, not fused), every number of next() calls, every cut at least as deep and wide as that number", "why_tests_cant": "Infinite trees and arbitrary children iterators cannot be enumerated by tests; the claim is about every number of calls.", "anchors": ["tree_iterators_rs/src/prelude.rs: OwnedTreeNode, OwnedChildren (751), BorrowedTreeNode (1857), MutBorrowedTreeNode", "tree_iterators_rs/src/bfs_iterators/mod.rs", "tree_iterators_rs/src/dfs_preorder_iterators/mod.rs", "tree_iterators_rs/src/dfs_postorder_iterators/mod.rs", "tree_iterators_rs/src/dfs_inorder_iterators/mod.rs"]}
{"id": "C52", "title": "get_value_and_children is called once per node and no earlier than needed", "statement": "After k calls of next(), a preorder or breadth-first iterator has called get_value_and_children exactly on the first k nodes in its order, in that order and once each (the breadth-first iterators with ancestors and with context have called it on the root when they are made). A postorder iterator has called it exactly once on each node returned so far and on each ancestor of the last one. An inorder iterator has called it exactly once on each node returned so far and on each ancestor of the last one that has the last one in its left subtree. So at the end of a traversal it has been called once on each node, as the documentation of the postorder traversals promises.", "quantifier": "every type of node, every get_value_and_children and children iterator, every number of next() calls; trees that are finite where the calls look for postorder and inorder", "why_tests_cant": "A count on some trees does not show that no tree and no stopping point makes a second or an early call; children may be costly or made with side effects.", "anchors": ["tree_iterators_rs/src/prelude.rs: dfs_postorder and its variants (330, 866, 1438, 1973, 2544, 3076)", "tree_iterators_rs/src/bfs_iterators/mod.rs", "tree_iterators_rs/src/dfs_preorder_iterators/mod.rs", "tree_iterators_rs/src/dfs_postorder_iterators/mod.rs", "tree_iterators_rs/src/dfs_inorder_iterators/mod.rs"]}
{"id": "C53", "title": "Mutable references stay exclusive", "statement": "Whatever a caller does with the references it gets from the owned and mutable iterators, including moving them out of the current slice or context with get_mut(), ancestors_mut() and children_mut(), swapping them, keeping them and calling next() or leaves() later, the references it can use at one moment reach different parts of the tree. This holds for the plain, ancestors and leaves iterators, for breadth-first and preorder contexts, for owned contexts without children, and for collections. It fails for dfs_postorder_iter_mut().attach_context() and dfs_inorder_iter_mut().attach_context(): a child taken out of one context can be reached again through a later one. There each context by itself is still free of overlaps.", "quantifier": "every node type whose get_value_and_children splits a node into parts, every tree (finite or not), every sequence of calls, moves and writes by the caller, every set of references held before", "why_tests_cant": "Two live &mut references to one node are undefined behaviour that a test does not notice; the claim is about every possible caller.", "anchors": ["tree_iterators_rs/src/tree_context.rs: ancestors_mut, children_mut (50-52, 61-64)", "tree_iterators_rs/src/dfs_postorder_iterators/mut_borrow.rs: 145-198, 442-506", "tree_iterators_rs/src/dfs_inorder_iterators/mut_borrow.rs: 234-299", "tree_iterators_rs/src/bfs_iterators/mod.rs: get_mut_context, get_mut_ancestors", "tree_iterators_rs/src/dfs_preorder_iterators/mod.rs: get_mut_context, get_mut_ancestors", "tree_iterators_rs/src/collection_iterators.rs"]}
{"id": "C54", "title": "A caught panic of get_value_and_children costs one subtree", "statement": "If get_value_and_children panics on a node, and the caller catches the panic and goes on calling next(), then a plain iterator (breadth-first, preorder, postorder, inorder, leaves) gives every other node that it can reach, with its value and in the usual order; the call in whose place the node would have been returned is the one that panics, and only the node's descendants are missing. leaves() of such an iterator that has been used gives the remaining panics in their place and otherwise what it gives when nothing panics. The same holds, with the right slices, for attach_ancestors() of preorder, inorder and breadth-first iterators and for leaves() of the breadth-first one, fresh or used, and, with the right contexts, for inorder contexts (with children, or without them in the owned iterator). The others, of n-ary and of binary trees, borrowed and owned, are right up to and including the first panic, and a panic on the root ends them, but after it they go wrong: attach_ancestors() in postorder and leaves() of a depth-first iterator with ancestors then give slices without the ancestors, a preorder context loses an ancestor, a postorder context iterator ends early, and a breadth-first context iterator panics on the next call. Over a collection of trees the plain iterators give each tree as it is given alone; inorder contexts give everything, with the index of the tree in front of the path; the other contexts are right up to and including the first panic, and where only roots panic they give everything: a root that panics costs its own tree, and the trees after it keep their indices.", "quantifier": "every node type, every get_value_and_children, every set of nodes on which it panics, every finite tree, every finite collection of such trees, every number of next() calls", "why_tests_cant": "The state left behind depends on where in the tree the panic happens and on what the iterator had already changed; a test tries a few places.", "anchors": ["tree_iterators_rs/src/bfs_iterators/mod.rs: 5-98, 196-328", "tree_iterators_rs/src/dfs_preorder_iterators/mod.rs: 5-33, 116-150, 168-283", "tree_iterators_rs/src/dfs_postorder_iterators/mod.rs: 5-33, 49-78", "tree_iterators_rs/src/dfs_postorder_iterators/borrow.rs: 138-198, 411-465", "tree_iterators_rs/src/dfs_postorder_iterators/owned.rs: 135-179, 404-452", "tree_iterators_rs/src/dfs_inorder_iterators/mod.rs: 5-85", "tree_iterators_rs/src/dfs_inorder_iterators/owned.rs: 225-283", "tree_iterators_rs/src/leaves_iterators", "tree_iterators_rs/src/collection_iterators.rs: 32-48, 94-121, 145-414, 560-638, 772-"]}
{"id": "C55", "title": "What a pipeline leaves out is never made", "statement": "A pipeline over one tree (any chain of map, prune, prune_path and prune_depth, then collect_tree, fold_tree or fold_path) calls get_value_and_children once, in preorder, on each node that no stage before it has cut off, and on no other node; the children of a node that is pruned, or that is at the depth limit, are never asked for. So the call comes back, with the tree or the result of what is kept, on trees without bottom and on nodes with endlessly many children, provided the stages leave out enough; in particular prune_depth(d) works on every binary tree, and on every tree whose nodes above depth d have finitely many children. The same holds of a pipeline over a collection of such trees with trees, fold_trees or fold_path at its end: the results come tree by tree, and by the first None get_value_and_children has been called on exactly the nodes not cut off, once each and in order.", "quantifier": "every node type, every get_value_and_children and children iterator (finite or not), every chain of stages with closures that keep state, every consumer", "why_tests_cant": "That nothing below a pruned node is ever asked for, for any chain and any tree, is a claim about all executions, and the trees it matters for are infinite.", "anchors": ["tree_iterators_rs/src/dfs_preorder_iterators/mod.rs: 35-112", "tree_iterators_rs/src/dfs_preorder_iterators/owned.rs: 197-240, 503-546", "tree_iterators_rs/src/prelude.rs: into_pipeline", "tree_iterators_rs/src/tree_iterators/mod.rs: map, prune, prune_depth, prune_path, collect_tree, fold_tree, fold_path", "tree_iterators_rs/src/dfs_preorder_iterators/owned.rs: 54-125, 349-417", "tree_iterators_rs/src/tree_collection_iterators: Map, Prune, PrunePath, PruneDepth, Trees, Fold, FoldPath"]}
{"id": "C56", "title": "What iterators and pipelines keep grows with the depth of the tree, or with two of its levels, not with its size", "statement": "At every point of a traversal, before the first call, between calls and after the last, the vectors inside a depth-first iterator (children iterators, path, ancestors, values put aside, containers) have no more entries than the tree has levels, for preorder, postorder and inorder, plain, with ancestors, with context and leaves(). A pipeline has one stack of children iterators however many stages it has, and no vector in it or in its stages is longer than the tree is high. The queue of a breadth-first iterator is no longer than two neighbouring levels of the tree have nodes together. An iterator or pipeline over a collection holds no more than that for one tree of the collection, however many trees have gone before; its paths may have one entry more, the index of the tree.", "quantifier": "every finite tree, n-ary or binary, every collection of such trees, every number of calls, every chain of map, prune, prune_path and prune_depth stages", "why_tests_cant": "A bound on the stacks at every point of every traversal cannot be observed through the API, and a leak of one entry per node shows only on trees larger than those in tests.", "anchors": ["README.md: 61-63", "tree_iterators_rs/src/prelude.rs: into_pipeline", "tree_iterators_rs/src/dfs_preorder_iterators/mod.rs", "tree_iterators_rs/src/dfs_postorder_iterators/mod.rs", "tree_iterators_rs/src/dfs_inorder_iterators/mod.rs", "tree_iterators_rs/src/bfs_iterators/mod.rs", "tree_iterators_rs/src/leaves_iterators", "tree_iterators_rs/src/tree_iterators/prune.rs: Prune", "tree_iterators_rs/src/collection_iterators.rs"]}
{"id": "C57", "title": "Collections of trees that are made while they are traversed", "statement": "The trees of a collection may come from any iterator, also one that never ends or gives more trees after it gave None. The first k calls of next() on every _each iterator (breadth first, preorder, postorder, inorder, with and without context) give the items of the trees one tree after the other, and a None whenever the collection gives None; after that the next call asks the collection again. The collection is asked only as often as those k answers need, so a tree is never taken before the one before it is used up and one more item is wanted. In a context the path starts with the number of the collection's answer, a None counting as one. attach_context() panics iff the last call of next() gave an item; after a None it gives a context iterator over the rest of the collection that counts from 0 again. The trees themselves may be endless too, as may their rows of children: preorder and breadth-first iterators, with and without context, then give what they would give on trees cut off below depth k and after k children, and postorder and inorder iterators do so as long as the trees are finite where the k calls look. When the first tree goes down without end by its first (left) children, next() of the postorder (inorder) iterators does not come back.", "quantifier": "every iterator of trees (finite or not, fused or not), every number of calls, every node type; contexts: at most usize::MAX calls and child counts", "why_tests_cant": "The claim is about every prefix of traversals that may have no end, and about how often the user's iterator is asked.", "anchors": ["tree_iterators_rs/src/collection_iterators.rs: owned_collection_iterator_impl, owned_collection_context_iterator_impl and the binary, mut and borrowed variants", "tree_iterators_rs/src/prelude.rs: bfs_each, dfs_preorder_each, dfs_postorder_each, dfs_inorder_each"]}
{"id": "C58", "title": "Pipelines over collections of trees that are made while they are consumed", "statement": "The trees of a collection pipeline may come from any iterator, also one that never ends. If the collection first gives the trees t1..tn, then trees(), fold_trees() and fold_path() after any chain of map, prune, prune_path and prune_depth stages give the results of those trees (all but the last one) exactly as for a list of the trees (C39, C40). After k results (k > 0) the collection has been asked for exactly the trees up to the one that holds the (k+1)-st result's root: one tree is read ahead, or more if the trees in between are pruned away completely, and never one more than that. Without a pruning stage k results read exactly k+1 trees. If the collection then gives None for ever, the pipeline gives all results and None for ever.", "quantifier": "every iterator of trees (finite or not), every prefix of its answers, every number of calls, every chain of stages and closures with state, every node type; the n-ary chains as in C39/C40 (true paths; fold_path without prune before it)", "why_tests_cant": "The claim is about every prefix of every (possibly endless) iterator, every chain of stages and every moment at which the user stops; a test reads a finite list and compares results, and does not see how many trees have been taken", "anchors": ["tree_iterators_rs/src/dfs_preorder_iterators/owned.rs", "tree_iterators_rs/src/dfs_preorder_iterators/mut_borrow.rs", "tree_iterators_rs/src/dfs_preorder_iterators/borrow.rs", "tree_iterators_rs/src/tree_collection_iterators/trees.rs", "tree_iterators_rs/src/tree_collection_iterators/fold.rs", "tree_iterators_rs/src/tree_collection_iterators/fold_path.rs", "tree_iterators_rs/src/prelude.rs: into_pipeline, into_pipeline_mut, into_pipeline_ref of collections"]}
{"id": "C59", "title": "leaves() over trees that are made while they are traversed", "statement": "leaves() works on trees whose children iterators are any user iterators (endless, or giving more children after None) and that may have no bottom. Depth first (from a fresh preorder or postorder iterator, or an inorder iterator of a binary tree, with or without ancestors) the first k calls give the first k leaves from left to right as soon as the tree is finite up to there. Breadth first, leaves() called after i calls of next() gives the leaves among the nodes not yet returned, level by level, as soon as there are k of them among finitely many nodes; a leaf is a node whose children iterator gives None first. A call that gives a leaf has called get_value_and_children once on each node up to it (in postorder with its ancestors, or level by level) and on no other node. On a finite tree all leaves come, then None for ever, and each node is visited exactly once. If the way down along first children never ends (depth first), or if there is no leaf (breadth first), the first call does not come back. The breadth first iterator with ancestors asks the children iterator of a childless root again after its None; the claim holds for it only if that answer is None too. leaves() of a depth first iterator that has been advanced over a finite tree does what C18 and C21 say, whatever the children iterators are.", "quantifier": "every node type, every children iterator (finite or not, fused or not), every number of calls; leaves() on fresh depth first iterators, and after any number of calls breadth first", "why_tests_cant": "The claim is about every prefix of traversals that may have no end, about calls that never return and about how often user code is called.", "anchors": ["tree_iterators_rs/src/leaves_iterators/depth_first/mod.rs: next", "tree_iterators_rs/src/leaves_iterators/ancestors_depth_first/mod.rs: advance", "tree_iterators_rs/src/leaves_iterators/breadth_first/mod.rs: bfs_next, next", "tree_iterators_rs/src/leaves_iterators/ancestors_breadth_first/mod.rs: advance", "tree_iterators_rs/src/bfs_iterators/owned.rs: leaves", "tree_iterators_rs/src/dfs_preorder_iterators/owned.rs: leaves", "tree_iterators_rs/src/dfs_postorder_iterators/owned.rs: leaves", "tree_iterators_rs/src/dfs_inorder_iterators/owned.rs: leaves"]}
{"id": "C60", "title": "A caught panic of user code inside a pipeline", "statement": "If a closure of a pipeline (map, prune, prune_path) or get_value_and_children panics inside next(), and the caller catches the panic and goes on calling next(), the calls still give the nodes in preorder (of a collection: tree by tree): the call for the node concerned ends with the panic, all the stages after the one that panicked are left out for that node, and nothing is cut off by the panic (the children of the node are visited unless it was get_value_and_children that panicked). All other nodes are mapped, pruned and cut as if nothing had happened, every closure being called once per node that reaches it, with true paths; after a call that gives an item, current_path() has the right length (binary trees, and n-ary pipelines without prunes: it is the path, even after a panic). Then None for ever. In particular a panic in a stage before prune_depth switches its limit off for that node: the documented limit does not hold then.", "quantifier": "every tree and every collection of trees, every chain of stages, every stateful closure panicking on any calls, every set of nodes on which get_value_and_children panics, every number of calls", "why_tests_cant": "Each of the calls of user code may panic, in any combination; a test tries a few.", "anchors": ["tree_iterators_rs/src/tree_iterators/map.rs: next", "tree_iterators_rs/src/tree_iterators/prune.rs: next", "tree_iterators_rs/src/tree_iterators/prune_path.rs: next", "tree_iterators_rs/src/tree_iterators/prune_depth.rs: next", "tree_iterators_rs/src/dfs_preorder_iterators/mod.rs: next of the iterators with path tracking", "tree_iterators_rs/src/tree_collection_iterators/map.rs: next", "tree_iterators_rs/src/tree_collection_iterators/prune.rs: next", "tree_iterators_rs/src/tree_collection_iterators/prune_path.rs: next", "tree_iterators_rs/src/tree_collection_iterators/prune_depth.rs: next"]}
{"id": "C61", "title": "Trees put together from a collection after a caught panic", "statement": "If user code in a pipeline over a collection panics while trees() puts a tree together, and the caller catches the panic and goes on calling next(): every tree in which nothing panics should still come out whole and in order. That holds except for one case: trees() asks for the next tree's root before it hands a finished tree out, so a tree without any panic is lost if the root of the tree after it panics. Of the tree that panics, what had been read before the panic is lost, and what comes after the panic comes out as a tree of its own: no node deeper than in its own tree and each at most one level below the node before it (binary: on the side it had, the last one to arrive staying), so nodes may get below nodes that are not their ancestors. Then None for ever. Without panics all trees come out. A fold whose closure does not panic and does not depend on its own state gives, call by call, the folds of these trees. A fold with paths does so too, with the right paths in the trees that come out whole; after a panic the closure may be given a path that is not the node's. A fold closure that panics loses one more item, the one read ahead: if it panics on a root, the next tree loses its root (all of it, if it has only that).", "quantifier": "every collection of trees, every chain of stages, every stateful closure panicking on any calls, every set of nodes on which get_value_and_children panics, every number of calls", "why_tests_cant": "Each of the calls of user code may panic, in any combination; a test tries a few.", "anchors": ["tree_iterators_rs/src/tree_collection_iterators/trees.rs: Trees::next, BinaryTrees::next", "tree_iterators_rs/src/tree_collection_iterators/fold.rs: Fold::next, BinaryFold::next", "tree_iterators_rs/src/tree_collection_iterators/fold_path.rs: FoldPath::next, BinaryFoldPath::next"]}
