{
 "claims": [
  {
   "property": "C01",
   "status": "proved",
   "theorems": [
    "C01_bfs",
    "C01_bfs_binary",
    "C01_bfs_Tree",
    "C01_bfs_BinaryTree"
   ],
   "note": ""
  },
  {
   "property": "C02",
   "status": "proved",
   "theorems": [
    "C02_preorder",
    "C02_preorder_binary",
    "C02_preorder_Tree",
    "C02_preorder_BinaryTree"
   ],
   "note": ""
  },
  {
   "property": "C03",
   "status": "proved",
   "theorems": [
    "C03_postorder",
    "C03_postorder_binary",
    "C03_postorder_Tree",
    "C03_postorder_BinaryTree"
   ],
   "note": ""
  },
  {
   "property": "C04",
   "status": "proved",
   "theorems": [
    "C04_inorder",
    "C04_inorder_BinaryTree"
   ],
   "note": ""
  },
  {
   "property": "C05",
   "status": "proved",
   "theorems": [
    "C05_same_nodes",
    "C05_same_nodes_binary",
    "C05_yields_unique"
   ],
   "note": ""
  },
  {
   "property": "C06",
   "status": "proved",
   "theorems": [
    "C06_bfs_ancestors",
    "C06_bfs_ancestors_binary"
   ],
   "note": ""
  },
  {
   "property": "C07",
   "status": "proved",
   "theorems": [
    "C07_bfs_context"
   ],
   "note": ""
  },
  {
   "property": "C08",
   "status": "proved",
   "theorems": [
    "C08_bfs_context_binary"
   ],
   "note": ""
  },
  {
   "property": "C09",
   "status": "proved",
   "theorems": [
    "C09_preorder_ancestors",
    "C09_preorder_ancestors_binary"
   ],
   "note": ""
  },
  {
   "property": "C10",
   "status": "proved",
   "theorems": [
    "C10_preorder_context"
   ],
   "note": ""
  },
  {
   "property": "C11",
   "status": "proved",
   "theorems": [
    "C11_preorder_context_binary"
   ],
   "note": ""
  },
  {
   "property": "C12",
   "status": "proved",
   "theorems": [
    "C12_postorder_ancestors",
    "C12_postorder_ancestors_binary"
   ],
   "note": ""
  },
  {
   "property": "C13",
   "status": "proved",
   "theorems": [
    "C13_postorder_context",
    "C13_postorder_context_owned",
    "C13_postorder_context_binary",
    "C13_postorder_context_binary_owned"
   ],
   "note": ""
  },
  {
   "property": "C14",
   "status": "proved",
   "theorems": [
    "C14_inorder_ancestors"
   ],
   "note": ""
  },
  {
   "property": "C15",
   "status": "proved",
   "theorems": [
    "C15_inorder_context",
    "C15_inorder_context_owned"
   ],
   "note": ""
  },
  {
   "property": "C16",
   "status": "proved",
   "theorems": [
    "C16_leaves",
    "C16_leaves_binary"
   ],
   "note": "C16_leaves covers binary pre/postorder too; the _binary theorem restates them with binary nodes and adds inorder."
  },
  {
   "property": "C17",
   "status": "proved",
   "theorems": [
    "C17_bfs_leaves",
    "C17_bfs_leaves_binary"
   ],
   "note": ""
  },
  {
   "property": "C18",
   "status": "proved",
   "theorems": [
    "C18_preorder_leaves_refuted",
    "C18_postorder_leaves_refuted",
    "C18_inorder_leaves_refuted",
    "C18_preorder_leaves_exact",
    "C18_postorder_leaves_exact",
    "C18_leaves_exact_binary"
   ],
   "note": "The documented claim is refuted for the three orders; the _exact theorems give the true behaviour for every tree and every interruption point."
  },
  {
   "property": "C19",
   "status": "proved",
   "theorems": [
    "C19_ancestors_leaves",
    "C19_ancestors_leaves_binary"
   ],
   "note": ""
  },
  {
   "property": "C20",
   "status": "proved",
   "theorems": [
    "C20_bfs_ancestors_leaves",
    "C20_bfs_ancestors_leaves_binary"
   ],
   "note": ""
  },
  {
   "property": "C21",
   "status": "proved",
   "theorems": [
    "C21_preorder_refuted",
    "C21_postorder_refuted",
    "C21_inorder_refuted",
    "C21_premature_end_refuted",
    "C21_no_panic",
    "C21_preorder_complete",
    "C21_postorder_complete",
    "C21_inorder_complete",
    "C21_order_refuted"
   ],
   "note": "False as documented: wrong slices (preorder, postorder, inorder), an early None and leaves out of order are refuted by explicit trees. Proved for every tree, place and iterator: no panic, termination, and every remaining leaf is reported exactly once as the last element of a slice if the caller keeps calling past None (C21_*_complete)."
  },
  {
   "property": "C22",
   "status": "proved",
   "theorems": [
    "C22_bfs",
    "C22_bfs_binary",
    "C22_preorder",
    "C22_postorder",
    "C22_inorder"
   ],
   "note": "Preorder/postorder theorems cover the binary iterators with gvc := binary_gvc gvcb."
  },
  {
   "property": "C23",
   "status": "proved",
   "theorems": [
    "C23_bfs_each",
    "C23_preorder_each",
    "C23_postorder_each",
    "C23_inorder_each",
    "C23_each_binary"
   ],
   "note": ""
  },
  {
   "property": "C24",
   "status": "proved",
   "theorems": [
    "C24_bfs_context",
    "C24_preorder_context",
    "C24_postorder_context",
    "C24_postorder_owned_context",
    "C24_bfs_context_binary",
    "C24_preorder_context_binary",
    "C24_postorder_context_binary",
    "C24_postorder_owned_context_binary",
    "C24_inorder_context",
    "C24_inorder_owned_context"
   ],
   "note": ""
  },
  {
   "property": "C25",
   "status": "proved",
   "theorems": [
    "C25_at_path",
    "C25_at_path_binary",
    "C25_at_path_Tree",
    "C25_at_path_BinaryTree"
   ],
   "note": ""
  },
  {
   "property": "C26",
   "status": "proved",
   "theorems": [
    "C26_collection_at_path",
    "C26_collection_at_path_binary"
   ],
   "note": ""
  },
  {
   "property": "C27",
   "status": "proved",
   "theorems": [
    "C27_collection",
    "C27_collection_binary",
    "C27_path_leads_back",
    "C27_path_leads_back_binary",
    "C27_path_leads_back_owned",
    "C27_path_leads_back_binary_owned"
   ],
   "note": ""
  },
  {
   "property": "C28",
   "status": "proved",
   "theorems": [
    "C28_round_trip",
    "C28_round_trip_binary",
    "C28_round_trip_Tree",
    "C28_round_trip_BinaryTree"
   ],
   "note": ""
  },
  {
   "property": "C29",
   "status": "proved",
   "theorems": [
    "C29_map",
    "C29_map_binary",
    "C29_map_pure",
    "C29_map_pure_binary"
   ],
   "note": ""
  },
  {
   "property": "C30",
   "status": "proved",
   "theorems": [
    "C30_prune",
    "C30_prune_pure",
    "C30_prune_calls"
   ],
   "note": "At most usize::MAX nodes (the adapter's usize counters are incremented with overflow checks)."
  },
  {
   "property": "C31",
   "status": "proved",
   "theorems": [
    "C31_prune_binary",
    "C31_prune_binary_pure",
    "C31_prune_binary_calls"
   ],
   "note": ""
  },
  {
   "property": "C32",
   "status": "proved",
   "theorems": [
    "C32_prune_depth",
    "C32_prune_depth_binary",
    "C32_prune_depth_positions",
    "C32_prune_depth_positions_binary"
   ],
   "note": ""
  },
  {
   "property": "C33",
   "status": "proved",
   "theorems": [
    "C33_prune_path",
    "C33_prune_path_binary",
    "C33_prune_path_pure",
    "C33_prune_path_pure_binary"
   ],
   "note": ""
  },
  {
   "property": "C34",
   "status": "proved",
   "theorems": [
    "C34_chain",
    "C34_chain_binary",
    "C34_composition",
    "C34_composition_binary"
   ],
   "note": "n-ary chains: prune_path may not follow another prune (there its closure gets wrong paths; C38_collect_exact covers those chains), and chains with a prune assume at most usize::MAX nodes (the adapters' counters). Binary chains: no condition."
  },
  {
   "property": "C35",
   "status": "proved",
   "theorems": [
    "C35_fold",
    "C35_fold_binary",
    "C35_fold_calls",
    "C35_fold_calls_binary",
    "C35_fold_after_stages",
    "C35_fold_after_stages_binary"
   ],
   "note": ""
  },
  {
   "property": "C36",
   "status": "proved",
   "theorems": [
    "C36_fold_path",
    "C36_fold_path_binary",
    "C36_fold_path_after_stages"
   ],
   "note": "n-ary: at most usize::MAX children per node (indexes fit)."
  },
  {
   "property": "C37",
   "status": "proved",
   "theorems": [
    "C37_map_path",
    "C37_map_path_binary",
    "C37_map_path_use_after_free",
    "C37_map_path_use_after_free_binary",
    "C37_map_path_refuted",
    "C37_map_path_binary_refuted",
    "C37_each_use_after_free",
    "C37_each_use_after_free_binary",
    "C37_each_one",
    "C37_each_one_binary",
    "C37_each_none",
    "C37_chain",
    "C37_chain_binary",
    "C37_each_chain",
    "C37_each_chain_binary",
    "C37_around",
    "C37_around_binary",
    "C37_behind_prune",
    "C37_behind_prune_shallow",
    "C37_behind_prune_deep",
    "C37_each_behind_prune",
    "C37_each_behind_prune_shallow",
    "C37_each_behind_prune_deep"
   ],
   "note": "The expected claim (f gets the node's path) is false of the code: the _refuted theorems say so for every tree with two nodes. The other theorems give the exact behaviour, with the memory of the path vector modelled. Stages around map_path: behind an n-ary prune or prune_path the exact result for trees and collections of any depth, with any stages around it; otherwise for one tree shallower than the first capacity, deeper trees without further stages. For a collection that ends in freed memory the theorem says that some call of next() reads it, and what the calls before it return, not which call it is. Not modelled: map_path_each behind map or prune_depth alone or behind binary prunes; Rust's aliasing rules (stricter than freed memory)."
  },
  {
   "property": "C38",
   "status": "proved",
   "theorems": [
    "C38_collect_exact",
    "C38_fold_exact",
    "C38_fold_path_exact",
    "C38_prune_path_twice",
    "C38_prune_then_fold_path",
    "C38_two_prunes_values",
    "C38_paths_right_iff",
    "C38_paths_after_stages_binary",
    "C38_paths_after_prune_refuted",
    "C38_prune_path_after_prune_refuted"
   ],
   "note": "Binary: proved for every chain. n-ary: the claim is false of the code; the two _refuted theorems exhibit it. The _exact theorems say what every n-ary chain with a prune does and which paths each closure is given; C38_prune_path_twice and C38_prune_then_fold_path read these paths off the tree; C38_paths_right_iff says for which trees they are right."
  },
  {
   "property": "C39",
   "status": "proved",
   "theorems": [
    "C39_trees_exact",
    "C39_trees",
    "C39_trees_binary",
    "C39_composition",
    "C39_composition_binary",
    "C39_map_each",
    "C39_map_each_binary",
    "C39_map_each_pure",
    "C39_map_each_pure_binary",
    "C39_prune_each",
    "C39_prune_each_binary",
    "C39_prune_path_each",
    "C39_prune_path_each_binary",
    "C39_prune_depth_each",
    "C39_prune_depth_each_binary",
    "C39_round_trip"
   ],
   "note": "At most usize::MAX trees; n-ary chains with a prune also assume at most usize::MAX nodes in all (the adapters' counters). Chains where prune_path follows another prune (C38) are covered by C39_trees_exact."
  },
  {
   "property": "C40",
   "status": "proved",
   "theorems": [
    "C40_fold_each_exact",
    "C40_fold_path_each_exact",
    "C40_fold_each",
    "C40_fold_each_binary",
    "C40_fold_each_pure",
    "C40_fold_each_pure_binary",
    "C40_fold_each_calls",
    "C40_fold_each_calls_binary",
    "C40_fold_after_stages",
    "C40_fold_after_stages_binary",
    "C40_fold_path_after_stages",
    "C40_fold_path_each",
    "C40_fold_path_after_stages_binary",
    "C40_fold_path_each_binary",
    "C40_fold_path_after_prune_refuted"
   ],
   "note": "At most usize::MAX trees. n-ary fold_path after a prune passes wrong paths (C40_fold_path_after_prune_refuted, same cause as C38); C40_fold_path_each_exact says which."
  },
  {
   "property": "C41",
   "status": "proved",
   "theorems": [
    "C41_bfs_ancestors_refuted",
    "C41_context_exhausted",
    "C41_context_exhausted_binary",
    "C41_ancestors_exhausted",
    "C41_inorder_ancestors_exhausted"
   ],
   "note": "Breadth-first attach_ancestors is refuted: it panics at the second advance past the end. The others stay exhausted."
  },
  {
   "property": "C42",
   "status": "proved",
   "theorems": [
    "C42_children",
    "C42_children_binary",
    "C42_children_owned_refuted",
    "C42_children_binary_owned_refuted"
   ],
   "note": ""
  },
  {
   "property": "C43",
   "status": "proved",
   "theorems": [
    "C43_bfs",
    "C43_preorder",
    "C43_postorder",
    "C43_bfs_binary",
    "C43_preorder_binary",
    "C43_postorder_binary",
    "C43_inorder",
    "C43_bfs_each",
    "C43_preorder_each",
    "C43_postorder_each",
    "C43_bfs_each_binary",
    "C43_preorder_each_binary",
    "C43_postorder_each_binary",
    "C43_inorder_each",
    "C43_bfs_any_node",
    "C43_preorder_any_node",
    "C43_postorder_any_node",
    "C43_bfs_ancestors",
    "C43_bfs_ancestors_binary",
    "C43_preorder_ancestors",
    "C43_preorder_ancestors_binary",
    "C43_postorder_ancestors",
    "C43_postorder_ancestors_binary",
    "C43_inorder_ancestors"
   ],
   "note": "Mutable iterators of single trees and of collections, all orders, any closure; also the slices of attach_ancestors (pure updates). The borrowed tree is the memory and a reference is the path of its node; for user node types the references are any distinct keys."
  },
  {
   "property": "C44",
   "status": "proved",
   "theorems": [
    "C44_preorder_edited",
    "C44_bfs_edited",
    "C44_preorder_edited_binary",
    "C44_bfs_edited_binary",
    "C44_removals",
    "C44_removals_binary",
    "C44_each_preorder",
    "C44_each_bfs",
    "C44_each_preorder_binary",
    "C44_each_bfs_binary"
   ],
   "note": "Any caller with any state; the edited tree is a tree of nodes whose children are what the caller left there (so it must be finite). For callers which only remove or rearrange children the edited tree is shown to exist. Also over collections of trees (C44_each_*)."
  },
  {
   "property": "C45",
   "status": "proved",
   "theorems": [
    "C45_cloned",
    "C45_cloned_binary",
    "C45_cloned_pure",
    "C45_cloned_pure_binary"
   ],
   "note": "clone may have state; a reference is anything with a target."
  },
  {
   "property": "C46",
   "status": "proved",
   "theorems": [
    "C46_depth_path_ancestors",
    "C46_depth_path_ancestors_owned",
    "C46_depth_path_ancestors_binary",
    "C46_depth_path_ancestors_binary_owned"
   ],
   "note": ""
  },
  {
   "property": "C47",
   "status": "proved",
   "theorems": [
    "C47_path_components",
    "C47_path_components_owned",
    "C47_path_components_binary",
    "C47_path_components_binary_owned"
   ],
   "note": ""
  },
  {
   "property": "C48",
   "status": "proved",
   "theorems": [
    "C48_bfs",
    "C48_bfs_binary",
    "C48_preorder",
    "C48_preorder_binary",
    "C48_postorder",
    "C48_postorder_binary",
    "C48_inorder",
    "C48_panics_once_started_refuted"
   ],
   "note": ""
  },
  {
   "property": "C49",
   "status": "proved",
   "theorems": [
    "C49_preorder",
    "C49_bfs",
    "C49_postorder_next",
    "C49_postorder_children",
    "C49_postorder_drop",
    "C49_postorder_slices",
    "C49_postorder_vec_refuted"
   ],
   "note": "Preorder and breadth first: true for all containers. Borrowed/mutable postorder: the expected claim is refuted for every tree with more than one node whose containers own memory; the exact condition for undefined behaviour is proved for next(), children() and drop."
  },
  {
   "property": "C50",
   "status": "proved",
   "theorems": [
    "C50_each_value_once",
    "C50_each_value_once_binary",
    "C50_complete_traversal",
    "C50_complete_traversal_binary",
    "C50_early_drop_leaks_siblings",
    "C50_early_drop_leaks_left",
    "C50_early_drop_refuted"
   ],
   "note": "Each value is dropped or leaked exactly once for every tree and drop point; nothing is leaked by complete traversals. The expected claim \"an iterator dropped early leaks nothing\" is refuted for every n-ary tree whose root has two children; values of earlier siblings always leak (n-ary and binary)."
  },
  {
   "property": "C51",
   "status": "proved",
   "theorems": [
    "C51_preorder",
    "C51_bfs",
    "C51_whole",
    "C51_postorder",
    "C51_postorder_endless",
    "C51_binary",
    "C51_binary_postorder",
    "C51_binary_inherited",
    "C51_binary_inherited_postorder",
    "C51_inorder",
    "C51_inorder_whole",
    "C51_inorder_endless"
   ],
   "note": "For all children iterators (endless, not fused) of the iterators of one tree: preorder and breadth first on any tree up to k calls; postorder and inorder up to k calls when the tree is finite where they look; all orders on finite trees; the first postorder (inorder) call never returns on an endless path of first (left) children. Not covered: leaves and collections (their model uses finite trees); pipelines are C55."
  },
  {
   "property": "C52",
   "status": "proved",
   "theorems": [
    "C52_preorder",
    "C52_bfs",
    "C52_postorder",
    "C52_postorder_cut",
    "C52_exactly_once",
    "C52_binary",
    "C52_binary_postorder",
    "C52_binary_inherited",
    "C52_binary_inherited_postorder",
    "C52_inorder",
    "C52_inorder_exactly_once"
   ],
   "note": "The log of get_value_and_children calls after any number of next() calls, for preorder, breadth-first and postorder iterators (plain, ancestors, context) of n-ary trees, the context iterators of binary trees and the inorder iterators."
  },
  {
   "property": "C53",
   "status": "proved",
   "theorems": [
    "C53_plain",
    "C53_ancestors",
    "C53_context",
    "C53_binary",
    "C53_collections",
    "C53_collections_binary",
    "C53_trees",
    "C53_postorder_context_refuted",
    "C53_postorder_context_binary_refuted",
    "C53_inorder_context_refuted",
    "C53_postorder_inorder_one_context"
   ],
   "note": "For every caller: all iterators except the postorder and inorder mutable iterators with context, for which exclusiveness is refuted and only holds for one context at a time. Pipelines are not covered (into_pipeline_mut has no get_mut)."
  },
  {
   "property": "C54",
   "status": "proved",
   "theorems": [
    "C54_bfs",
    "C54_preorder",
    "C54_postorder",
    "C54_inorder",
    "C54_leaves",
    "C54_started_leaves",
    "C54_started_leaves_binary",
    "C54_preorder_ancestors",
    "C54_inorder_ancestors",
    "C54_bfs_ancestors",
    "C54_bfs_ancestors_leaves",
    "C54_inorder_context",
    "C54_binary",
    "C54_until_panic_ancestors",
    "C54_until_panic_context",
    "C54_root_panic",
    "C54_postorder_ancestors_refuted",
    "C54_ancestors_leaves_refuted",
    "C54_later_panic_refuted",
    "C54_preorder_context_refuted",
    "C54_postorder_context_refuted",
    "C54_bfs_context_refuted",
    "C54_no_panic",
    "C54_each",
    "C54_each_binary",
    "C54_each_inorder_context",
    "C54_each_until_panic_context",
    "C54_each_root_panic_context",
    "C54_each_no_panic",
    "C54_each_inorder_context_owned",
    "C54_each_until_panic_context_binary",
    "C54_each_until_panic_context_owned",
    "C54_each_root_panic_context_binary",
    "C54_each_root_panic_context_owned",
    "C54_each_no_panic_context",
    "C54_inorder_context_owned",
    "C54_until_panic_context_binary",
    "C54_until_panic_context_owned",
    "C54_root_panic_context",
    "C54_preorder_context_binary_refuted",
    "C54_postorder_context_binary_refuted",
    "C54_postorder_context_owned_refuted",
    "C54_bfs_context_binary_refuted",
    "C54_no_panic_context"
   ],
   "note": "The claim with its exceptions: for all trees and all sets of panicking nodes where it holds. For the iterators where it fails, proved for all trees up to and including the first panic, and refuted by families of trees for the calls after it. Iterators of one tree and of collections; what a collection's contexts give after a panic inside a tree is not described."
  },
  {
   "property": "C55",
   "status": "proved",
   "theorems": [
    "C55_collect",
    "C55_fold",
    "C55_fold_path",
    "C55_prune_depth",
    "C55_one_pass",
    "C55_finite",
    "C55_collect_binary",
    "C55_fold_binary",
    "C55_fold_path_binary",
    "C55_prune_depth_binary",
    "C55_one_pass_binary",
    "C55_finite_binary",
    "C55_each_trees",
    "C55_each_fold",
    "C55_each_fold_path",
    "C55_each_prune_depth",
    "C55_each_one_pass",
    "C55_each_finite",
    "C55_each_trees_binary",
    "C55_each_fold_binary",
    "C55_each_fold_path_binary",
    "C55_each_prune_depth_binary",
    "C55_each_one_pass_binary",
    "C55_each_finite_binary"
   ],
   "note": "One tree and collections (C55_each_*), n-ary and binary, owned, & and &mut (one model). n-ary: chains of C34 (true_paths), at most usize::MAX/2 visited nodes if a prune stage is used. The hypothesis is that the pass comes to an end (a derivation of `explored`); prune_depth needs none for binary trees. Not for map_path."
  },
  {
   "property": "C56",
   "status": "proved",
   "theorems": [
    "C56_preorder",
    "C56_preorder_binary",
    "C56_preorder_ancestors",
    "C56_preorder_ancestors_binary",
    "C56_postorder",
    "C56_postorder_binary",
    "C56_postorder_ancestors",
    "C56_postorder_ancestors_binary",
    "C56_preorder_context",
    "C56_preorder_context_binary",
    "C56_postorder_context",
    "C56_postorder_context_binary",
    "C56_postorder_context_owned",
    "C56_postorder_context_owned_binary",
    "C56_inorder",
    "C56_inorder_ancestors",
    "C56_inorder_context",
    "C56_inorder_context_owned",
    "C56_preorder_leaves",
    "C56_preorder_leaves_binary",
    "C56_postorder_leaves",
    "C56_postorder_leaves_binary",
    "C56_preorder_ancestors_leaves",
    "C56_preorder_ancestors_leaves_binary",
    "C56_postorder_ancestors_leaves",
    "C56_postorder_ancestors_leaves_binary",
    "C56_bfs",
    "C56_bfs_binary",
    "C56_bfs_leaves",
    "C56_bfs_leaves_binary",
    "C56_bfs_ancestors_leaves",
    "C56_bfs_ancestors_leaves_binary",
    "C56_bfs_ancestors",
    "C56_bfs_ancestors_binary",
    "C56_bfs_context",
    "C56_bfs_context_binary",
    "C56_pipeline",
    "C56_pipeline_binary",
    "C56_each_preorder",
    "C56_each_preorder_binary",
    "C56_each_postorder",
    "C56_each_postorder_binary",
    "C56_each_inorder",
    "C56_each_bfs",
    "C56_each_bfs_binary",
    "C56_each_preorder_context",
    "C56_each_preorder_context_binary",
    "C56_each_postorder_context",
    "C56_each_postorder_context_binary",
    "C56_each_postorder_context_owned",
    "C56_each_postorder_context_owned_binary",
    "C56_each_inorder_context",
    "C56_each_inorder_context_owned",
    "C56_each_bfs_context",
    "C56_each_bfs_context_binary",
    "C56_each_pipeline",
    "C56_each_pipeline_binary"
   ],
   "note": "Proved for the states between calls, for iterators that have not been used before leaves() or attach_*. For breadth-first iterators the queue of children iterators is bounded; the cache of values and the path of those with ancestors or context are not covered. Collections: the plain iterators, those with context and the pipelines; what trees(), fold_each and map_path_each keep is not counted."
  },
  {
   "property": "C57",
   "status": "proved",
   "theorems": [
    "C57_endless_binary_trees",
    "C57_bfs",
    "C57_preorder",
    "C57_postorder",
    "C57_inorder",
    "C57_binary",
    "C57_bfs_context",
    "C57_preorder_context",
    "C57_postorder_context",
    "C57_postorder_owned_context",
    "C57_bfs_context_binary",
    "C57_preorder_context_binary",
    "C57_postorder_context_binary",
    "C57_postorder_owned_context_binary",
    "C57_inorder_context",
    "C57_inorder_owned_context",
    "C57_attach_late",
    "C57_endless_trees",
    "C57_endless_trees_context",
    "C57_endless_binary_trees_context",
    "C57_endless_trees_postorder",
    "C57_endless_trees_postorder_context",
    "C57_endless_binary_trees_postorder_context",
    "C57_endless_trees_inorder",
    "C57_endless_trees_inorder_context",
    "C57_stuck_postorder",
    "C57_stuck_inorder"
   ],
   "note": "Trees that are themselves endless: in postorder and inorder under the condition that they are finite where the k calls look (otherwise next() does not come back, C51). The pipelines over collections (trees(), collect_trees, fold_trees) are not covered: they read the collection ahead."
  },
  {
   "property": "C58",
   "status": "proved",
   "theorems": [
    "C58_trees",
    "C58_trees_binary",
    "C58_fold_trees",
    "C58_fold_trees_binary",
    "C58_fold_path",
    "C58_fold_path_binary",
    "C58_one_ahead",
    "C58_one_ahead_binary"
   ],
   "note": "All six ends (trees, fold_trees, fold_path; n-ary and binary) over any iterator of trees and any chain of stages: the results of C39/C40 for every prefix of the trees, and the exact number of trees taken."
  },
  {
   "property": "C59",
   "status": "proved",
   "theorems": [
    "C59_binary_depth_first",
    "C59_binary_whole",
    "C59_depth_first",
    "C59_breadth_first",
    "C59_whole",
    "C59_mid",
    "C59_calls_depth_first",
    "C59_calls_breadth_first",
    "C59_exactly_once",
    "C59_endless",
    "C59_root_again_refuted",
    "C59_inorder",
    "C59_inorder_whole",
    "C59_calls_inorder",
    "C59_inorder_exactly_once",
    "C59_inorder_mid",
    "C59_inorder_endless"
   ],
   "note": "All four leaves() iterators over any children iterators, finite or not, with the calls of get_value_and_children and the calls that never come back. C59_root_again_refuted: the breadth first iterator with ancestors asks the children iterator of a childless root again. Inorder: C59_inorder, C59_inorder_whole, C59_calls_inorder, C59_inorder_exactly_once, C59_inorder_mid, C59_inorder_endless."
  },
  {
   "property": "C60",
   "status": "proved",
   "theorems": [
    "C60_chain",
    "C60_chain_path",
    "C60_chain_binary",
    "C60_prune_depth_refuted",
    "C60_no_panic",
    "C60_no_panic_binary",
    "C60_each_chain",
    "C60_each_chain_path",
    "C60_each_chain_binary",
    "C60_each_no_panic",
    "C60_each_no_panic_binary"
   ],
   "note": "All chains over one tree and over a collection, n-ary (no prune_path after another prune, as in C34) and binary. C60_prune_depth_refuted: a panic before prune_depth breaks its limit, for every tree. collect_tree and the folds of one tree lose everything with the panic, so there is nothing to say about them; the consumers of a collection: C61."
  },
  {
   "property": "C61",
   "status": "proved",
   "theorems": [
    "C61_fold_path",
    "C61_fold_path_binary",
    "C61_fold_path_refuted",
    "C61_trees",
    "C61_trees_binary",
    "C61_calm",
    "C61_lost_refuted",
    "C61_fold",
    "C61_fold_binary",
    "C61_fold_refuted"
   ],
   "note": "trees() over any chain, n-ary (no prune_path after another prune, as in C34) and binary: every result of every call, and the trees that come out whole. C61_lost_refuted: the tree before a root that panics is lost. C61_fold_refuted: a panic of the closure of fold_trees loses the root read ahead, shown for collections of two one-node trees. C61_fold and C61_fold_binary: with a closure that does not panic and whose results do not depend on its state, fold_trees gives the folds of these trees, panics in the pipeline included. C61_fold_path (n-ary chains without prunes) and C61_fold_path_binary: the same for the folds with paths; the trees that come out whole get the right paths, others may not (C61_fold_path_refuted). All else about folds whose closure panics is not described."
  }
 ]
}