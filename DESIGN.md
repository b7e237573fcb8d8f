# Formal model of tree-iterators-rs in Rocq (Coq 8.16.1)

This file was written before the proofs and is kept current.

## 1. What is modelled and how

The crate (`/repo/tree_iterators_rs/src`) is a `no_std` library of iterators
over trees.  Every traversal is an explicit state machine: a struct holding
stacks / queues of children iterators, and a `next` (or streaming `advance`)
method.  The model has one Gallina record per struct and one Gallina function
per method, each with a comment citing the file and lines it models.

* **Results.**  `Res A := Ok a | Panic | UB | OutOfFuel`.  Every `unwrap`,
  `expect`, `panic!`, out-of-range index is an explicit `Panic`; every
  `assume_init` of unwritten storage and every read through a dangling slice is
  an explicit `UB`.  A Rust `loop` is the combinator `loop body fuel s`, which
  returns `OutOfFuel` when the fuel is used up.  Theorems are stated with
  `f ⇓ r := exists F, forall fuel, F <= fuel -> f fuel = r`, so a theorem
  `f ⇓ Ok x` says: terminates, does not panic, no UB, and returns `x`.
* **Nodes.**  The traits are modelled by their one required method:
  `gvc : Node -> V * list Node` (`get_value_and_children`) and, for binary
  trees, `gvcb : Node -> V * (option Node * option Node)`.  Theorems quantify over
  *every* `Node`, `V` and `gvc` whose nodes are finite trees; the crate's own
  `Tree<T>` / `BinaryTree<T>` are instances, for which corollaries are stated.
  A children container / its `IntoIterator` is the finite list of its items
  (fused, as those of `Vec` and of arrays are); C51, C52 and C55 drop this and take any iterator.
* **Ownership.**  The owned / `&` / `&mut` variants are produced by the same macros (or by
  textual copies of the same code); one model covers the three, except where
  the code differs (postorder and inorder contexts), which gets one model each.
  For the `_mut` iterators (C43) the borrowed tree is the memory and the references that are
  yielded are places in it (paths); user code reads and writes through them while the iterator runs.
* **usize** is `N` with explicit `mod 2^64` where the code wraps (the
  `usize::MAX` marker of path counters); plain `+= 1` is checked and gives `Panic`
  on overflow (debug profile).
* **Closures** (`FnMut`) are state transformers `S -> args -> S * out`.
* **Vec / VecDeque** are lists.  A stack is a list whose head is the top; the
  comment at each definition gives the orientation.  Only for C37 is the memory of a `Vec`
  modelled (capacity, generation of the buffer), because there the property
  depends on reallocation.

The specification (`Spec.v`) contains no state machine: `tree`, `btree`,
`preorder`, `postorder`, `inorder`, `bfs` (concatenation of levels), `positions`
(each node decorated with its path and ancestors), `at_path`, `tree_map`,
`prune`, `fold`.

### Main statement shape

`yields next s l := forall k, exists s', calls next k s ⇓ Ok (map (nth_error l) (seq 0 k), s')`:
for every k, the first k calls of `next` terminate without panic/UB and the
i-th returns the i-th element of `l` (`None` past the end).  This covers order,
completeness, absence of duplicates and fusedness at the same time.  For streaming
iterators `next` is `advance` followed by `get`.

### Files

| file | content |
|---|---|
| `Prelim.v`, `PrelimFacts.v` | results, loops, `⇓`, `calls`, `yields` |
| `Spec.v`, `SpecObs.v`, `SpecPipe.v`, `SpecPipeColl.v`, `SpecMut.v`, `SpecMapPath.v`, `SpecEdit.v`, `SpecDrift.v`, `SpecLazy.v`, `SpecLazyLeaves.v`, `SpecExplore.v`, `SpecAlias.v`, `SpecUnwind.v`, `SpecUnwindPipe.v`, `SpecUnwindTrees.v` | independent specification: trees and traversals; observation of streaming iterators; whole-tree operations; the same on collections; updates through references; stale paths; edited traversals; paths reported behind several prunes; trees made while they are traversed, and their leaves; a pass over such a tree that leaves out enough to come to an end; exclusive references; what is seen when user code panics |
| `Model*.v` | the state machines, with citations: `ModelNode` (nodes), `ModelBfs/Pre/Post/In/Leaves` (iterators of one tree), `ModelColl` (iterators of collections), `ModelStream` (the same when the collection is any iterator), `ModelPipe` (pipelines of one tree), `ModelPipeColl` (pipelines of collections), `ModelMut` (memory behind `&mut` values, `cloned`), `ModelMapPath`, `ModelMapPathPrune` (`map_path` with the memory of its path vector), `ModelEdit`, `ModelEditColl` (a caller writing to `children_mut()`), `ModelOwn` (drops of children containers that own memory), `ModelDrops` (drops and leaks of values in breadth-first context iterators), `ModelLazy` (children iterators of any kind, calls of `get_value_and_children`), `ModelLazyLeaves` (the same for `leaves()`), `ModelLazyIn` (the same calls of the inorder iterators), `ModelLazyPipe` (the start of a pipeline over such iterators), `ModelAlias` (what a caller can move out of and into the current item), `ModelUnwind` (the state left behind when `get_value_and_children` panics), `ModelSpace` (the vectors in a pipeline object) |
| `Proofs*.v`, `NodeFacts`, `FuelMono`, `PermTac` (a tactic for permutations), `Slots`, `BfsCore`, `Pipe*.v` | invariants and proofs |
| `Prop*.v` | the property theorems, examples, `Print Assumptions` |
| `Conformance.v` | tests of the model, not proofs: the crate's test suite (`/repo/tests/src/*.rs`) and the examples of README.md, `doc_files` and the documentation comments, evaluated on the model. Every assertion of the test suite holds. Three documented outputs do not: README.md 454-470 (calls `dfs_preorder` for the inorder result), README.md 732-756 (`leaves()` after two calls loses 3 and 4: C18), prelude.rs 586-588 (paths of the binary `prune_path`; the root's path is empty) |

## 2. Plan per property

* C01–C04 plain iterators. Invariant: remaining output = function of the stacks/queue.
* C05 permutation of the specification traversals, transported by C01–C04.
* C06–C08, C20 breadth-first streaming (iterative deepening). Invariant: the state of the
  iterator (path of open nodes, cached expanded nodes each with a `None` marker that
  rotates) relates to the current level; each `advance` yields the next node at this level or moves down one
  level.
* C09–C15 depth-first streaming: stack invariants with path/ancestors zipped.
* C16–C19, C21 leaves. C18 and C21 are false as documented: `_refuted` theorems plus the
  exact behaviour (C18) and what remains true (C21: the last elements of the slices are a permutation of the
  leaves left, by a multiset invariant over both stacks and a decreasing weight).
* C22, C48 panic rule: for all k.
* C23, C24 collections: concatenation lemma over any inner machine.
* C25–C27 `at_path` against the specification.
* C28–C36 pipelines: adapters as records with `next/current_path/prune_current_subtree`;
  one general theorem: a chain of adapters over the base iterator equals a single-pass
  `walk`; `collect_tree`/`fold_tree` rebuild the tree.
* C37 memory model of the path buffer (contents past the length, capacity, identity of the allocation; growth policy a
  parameter): exact list of the paths handed out, exact condition for the use after free, and `_refuted` for the
  expected claim. `map_path` as the first stage of a longer chain, for trees shallower than the first capacity: the walk of `after_map_path` (`SpecMapPath.v`). With stages before it as well (`C37_around`, `C37_around_binary`): the walk of `around_map_path`; for n-ary trees the stages before it are `map` and `prune_depth`, for binary trees all stages. The proof needs a simulation with two relations (`simulates2`, `ProofsMapPathBehind.v`): after showing a node the pending children make the next path slice unpredictable until the caller has pruned or not. Behind an n-ary `prune`/`prune_path` (`PropMapPathPrune.v`): the vector of the last such stage is a buffer (`ModelMapPathPrune.v`), the walk of `after_prunes` (`SpecMapPathPrune.v`) says for trees of any depth what the pointer shows and whether freed memory is read; the simulation carries the pointer in the state of the walk (`simu`, `ProofsMapPathPruneUb.v`). Collections the same way (`after_prunes_each`); that `trees()` reads freed memory in one of its calls is shown by comparing it with a pipeline that goes on behind that point (`past_pipe`, `ProofsMapPathPruneEach.v`).
* C38 `_refuted`, and the exact behaviour: a simulation in which each prune stage carries the path it reported last (`drift` in `SpecDrift.v`), for chains of any length; read off the tree for two prunes; an `iff` for when the paths are right.
* C39, C40 collection pipelines.
* C41, C42 exhaustion and `children()`; both have a `_refuted` part.
* C43 the tree as memory: a user's loop that writes through every reference, for each order and
  for slices of ancestors. C44 the edited tree `t` (labels are nodes) is given by what
  the caller leaves at each context; lockstep with the unedited machine over `t`; over collections (`ModelEditColl`) by running the proof for one tree after another with the caller's state handed on. C45 corollary of C29. C46, C47 corollaries.
* C49 containers with a memory identity and a heap that logs releases. Postorder: a simulation with the C13 machine that tracks
  which released containers are still held, giving an exact condition for undefined behaviour; preorder and breadth first: invariant
  released + held = handed out. The simulations run at one fuel; `FuelMono` (more fuel never changes a result) lifts them to `⇓`.
* C50 the breadth-first context machine run with a log of dropped and leaked values; the log and the values held are a permutation of
  the values taken, by a simulation with the C07/C08 machine and its cache invariant (`BfsCore`).
* C51, C52 children iterators as states with a `poll` function; the machines keep a log of the calls of `get_value_and_children`. Preorder and breadth first need nothing of the tree; postorder and inorder only that the first k nodes of a finite cut are not cut themselves. The machine on the finite tree, labelled with what it stands for, is followed step by step by the one that calls the user's code.
  A simulation with the finite-tree machine over `cut d b n` that holds for as long as neither cut has been reached (each stored iterator agrees with its list of
  trees for as many steps as there are calls left), and for ever when the tree is finite. The log is read off the values yielded.

* C53 each reference is the list of cells it reaches. A cell's weight in a state counts the references to it, in the stacks, the cache and the current item; no call
  increases a weight, so no sequence of calls and of moves by the caller makes two references to one cell. Postorder and inorder contexts duplicate their children: `_refuted`,
  and the part that holds (one context at a time).
* C54 a node on which `get_value_and_children` panics is compared with a leaf without a value: a simulation between the machine of the other files on that tree and the
  machine that unwinds (for the breadth-first iterator with ancestors, with the tree that lacks those nodes). Where the state left behind is wrong, the two
  machines still agree up to and including the first panic (`yields_until_panic`, `ProofsUnwindUntil.v`), and `_refuted` for every tree in which the first child of the root panics. Contexts of binary trees and owned contexts (`ModelUnwindCtx.v`, `PropUnwindCtx.v`): the same, the owned ones by forgetting the children of the others. `C54_no_panic`, `C54_no_panic_context`, `C54_each_no_panic` and `C54_each_no_panic_context` tie the unwinding machines to the others. Collections (`ModelUnwindColl.v`, `PropUnwindColl.v`, `PropUnwindCollCtx.v`): the collection iterator over any inner iterator that goes on, or goes on unless it has panicked (`unfolds`); the inorder contexts of a tree begun with an index agree with those begun without until the end (`brel`).
* C55 the nodes that a pass visits form a finite tree even if the whole is endless; where the pass does not go on below a node that tree gets one more node, a "bomb", for whatever is there.
  The simulation of C28-C36 is repeated with a flag that says that no bomb has been met (`simg`, `PipeGood.v`); a pass in the sense of `explored` (`SpecExplore.v`) never meets one. `C55_finite` says that on a finite tree `explored` is the `walk` of C28-C36. Collections (`ProofsLazyPipeColl.v`): the same simulation with the index of the tree as the start of the path, one tree after another, then the consumers of C39 and C40.
* C56 an invariant of the states reachable by calls: a stack of children iterators `fits` if for each item still to come the number of levels up to it plus the height of its tree is at most the height of the whole; inorder: each Collections (PropSpaceColl.v): the object holds the iterator of one tree at a time and the invariant of that tree holds for it; contexts and pipelines start with the path `[index]`, so their paths may be one longer than the tree is high.
  node on the way pairs with its right child unless that has been entered (`owns`); breadth first: the queue is what is left of one level followed by the children of the reported part of the next (`queued`); pipelines: `kept`, preserved by every stage.
* C57 `ModelStream.v` is `ModelColl.v` with the list replaced by any iterator. `gives n` is `yields` for the first `n` calls; the induction is on the number of calls, with the items left of the current tree in front of what the next answers of the
  collection give (`enough`). `C57_attach_late` is an invariant of every call (`booked`). Endless trees with context (`PropStreamLazy.v`): the simulations of C51 (`follow`) started on the path `[i]` instead of `[]` (`ProofsStreamLazy.v`). For inorder contexts the simulation is that of `ProofsLazyIn.v` without its claim about the path (`ProofsStreamLazyIn.v`).
* C58 `ModelStreamPipe.v` is the start of the collection pipelines with the list replaced by any iterator; stages and ends are those of C39/C40. The proof is a simulation: the pipeline on the list of the first `i` trees leads, the one on the iterator follows it
  step by step (with the same fuel) as long as the leading one gives items (`follows`, lifted through every stage and every end). The upper bound on the trees asked for comes from the shortest list that gives one more result; the lower bound because the follower is past the `i`-th tree once a
  leading pipeline has come to the end of its `i` trees. `ex_gap_lost` shows what happens outside the theorem: a `None` of a collection that goes on after it ends the tree before it, but the user does not see it.
* C59 `ModelLazyLeaves.v` is `ModelLeaves.v` over the nodes and children iterators of `ModelLazy.v`. Depth first: an abstract walk over the stacks (`ab_next`) that enters nodes until it has come to a leaf; both iterators follow it. Breadth first: the iterator is a sieve
  of the plain (or ancestors) iterator of C51: each of its turns is one call of the other (`sieve_calls`), with peeked iterators standing for the ones they hold. Calls that do not come back: runs of turns of any length (`turns`), and monotone fuel. `leaves()` of a depth first iterator
  after some calls of `next()`: a finite tree of nodes leads, step by step, so C18 and C21 carry over (`C59_mid`, finite trees only). Inorder (`ModelLazyLeavesIn.v`): `leaves()` of a fresh inorder iterator is in the state of that of a fresh preorder one; on an advanced one the finite tree leads as above (`C59_inorder_mid`). The iterators that binary nodes inherit are instances of C51, C52, C57 and C59 with a children iterator of at most two nodes; `PropLazyBinary.v` states them on the binary tree itself (`bcut`, `bwhole`, `flat`), because stated through that children iterator they would also hold of one that gives the right child first.
* C60 `ModelUnwindPipe.v` is `ModelPipe.v` with items `Got`/`Unwound`. The stages are again transformers of walks (`vthen`), the invariant being that of C34 except that after a panic nothing is known of the path of an n-ary prune (`usim`). `delivers` speaks of all calls, of the paths and of the closures' states. `C60_no_panic` ties these machines to those of C34. Collections: `ModelUnwindPipeColl.v`, `PropUnwindPipeColl.v`, the same stages over the collection's path-tracking iterator.
* C61 `ModelUnwindTrees.v` is the consumer of `ModelPipeColl.v` with the calls of user code ending it. `handed` (`SpecUnwindTrees.v`) cuts the results of C60 at roots and panics; a tree is described by its values with their depths (`leveled`, injective), so that what a stack makes of nodes without their parents can be said without a stack (`settle`). Binary trees: the same trees with sides (`sides`). `spared` picks the trees that come out whole. Folds: the same stack of trees, each seen only through its root's value and the folds of its children; with paths, each node also carries the last segment of its path (`labelled`).

## 3. Trusted base

* The Coq 8.16.1 kernel (and `vm_compute`, used for the concrete witnesses).
* `Print Assumptions` is printed under every property theorem. For each of the 497 theorems
  in MANIFEST.json it says "Closed under the global context": no axioms.
* Axioms in the standard library files that are loaded, used by none of these theorems: in
  `Coq.ssr.ssrunder.Under_rel`, `Under_rel`, `Under_rel_from_rel`, `Under_relE`, `Over_rel`,
  `over_rel`, `over_rel_done` and `under_rel_done`.
* The reading of the Rust code recorded in the model's comments.  Nothing is extracted or
  executed against the crate.

## 4. Not modelled

* Allocation failure, `capacity`/performance (except C37, and C56 for the lengths of vectors). Drops are modelled only for children containers in the
  context iterators of one n-ary tree (C49) and for values in the breadth-first context iterators of one tree (C50, without the
  values of nodes not yet visited, which stay in the children containers); elsewhere values are dropped without being observed.
* Rust's aliasing rules beyond C53, which is about the references a caller can get hold of, not about those inside the iterator (for C37 only reads of freed memory count as undefined behaviour).
* `map_path` (C37) with stages before it that are not an n-ary prune: one tree shallower than the first capacity only. `map_path_each` with such stages before it is not modelled (with n-ary prunes before it, it is); stages behind `map_path_each` as first stage are covered for collections of one tree.
* serde derives, `Debug`, `Default`, deprecated re-exports.
* Panics of the user's code, except `get_value_and_children` in the iterators of one tree and of collections (C54, which leaves out what a collection's contexts give after a panic inside a tree) and all user code in the pipelines of one tree and of collections (C60; `trees()` of a collection after a panic: C61, and its folds with a closure that does not panic; folds of a collection with a closure that panics only in a refutation). Children iterators that are not fused or are infinite, outside the preorder, breadth-first, postorder and inorder iterators (C51, C52), `leaves()` (C59: depth first on an advanced iterator only for finite trees) of one tree, and the pipelines (C55); collections that are not lists, outside the `_each` iterators (C57) and the collection pipelines (C58: up to the first `None`, or `None` for ever).
* Code without behaviour of its own or that nothing calls: the unused type parameter of `prune_depth_each` (prelude.rs 3748), `Clone for TreeNodeVecDeque` (bfs_iterators/mod.rs 440), and the branch of the collections' `FoldPath::next` that overwrites the last path segment (fold_path.rs 72-73), which is modelled and, on runs from the start, never taken (proof of `ucfoldp_yield`).
* `size_hint`, and default methods of `Iterator` / `StreamingIterator` other than through `next`.
