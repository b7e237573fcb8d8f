(** * ModelNode: the node traits, the crate's own node types, contexts, [at_path]. *)
From Verif Require Import Prelim Spec.

(** ** [Tree<T>] and [BinaryTree<T>]
    prelude.rs 130-133 ([struct Tree]) is [Spec.tree]; prelude.rs 96-100
    ([struct BinaryTree]) is [Spec.btree].  [Box] is transparent. *)

(** [OwnedTreeNode/MutBorrowedTreeNode/BorrowedTreeNode for Tree<T>]:
    prelude.rs 3479-3521.  A [Vec] of children (owned, [&] or [&mut]) is the list of its items. *)
Definition tree_gvc {A} (t : tree A) : A * list (tree A) :=
  match t with TNode v ts => (v, ts) end.

(** [get_value_and_children_binary[_iter[_mut]] for BinaryTree<T>]: prelude.rs 3523-3586.
    The array [[Option<_>; 2]] is a pair. *)
Definition btree_gvcb {A} (t : btree A) : A * (option (btree A) * option (btree A)) :=
  match t with BNode v l r => (v, (l, r)) end.

(** [into_iter()] of the array [[Option<Node>; 2]]. *)
Definition pair_iter {Nd} (c : option Nd * option Nd) : list (option Nd) := [fst c; snd c].

(** [get_value_and_children] provided for binary nodes:
    prelude.rs 180-188 (and 1286-1296, 2394-2402 for the borrowed traits): the array is turned into
    an iterator over the children that are present ([flat_map(opt_to_opt)]). *)
Definition binary_gvc {Nd V} (gvcb : Nd -> V * (option Nd * option Nd)) (n : Nd) : V * list Nd :=
  let '(v, c) := gvcb n in (v, flat_map opt_list (pair_iter c)).

(** ** [TreeContext<Value, Children>]: tree_context.rs 1-65.
    [c_path] and [c_ancestors] are in the order of the Rust vectors (root first). *)
Record tree_context (V C : Type) : Type := mkCtx {
  c_path : list N;
  c_ancestors : list V;
  c_children : option C
}.
Arguments mkCtx {V C} c_path c_ancestors c_children.
Arguments c_path {V C} _.
Arguments c_ancestors {V C} _.
Arguments c_children {V C} _.

(** [depth()]: tree_context.rs, [self.ancestors().len() - 1] (checked subtraction). *)
Definition ctx_depth {V C} (c : tree_context V C) : Res nat :=
  match length (c_ancestors c) with 0 => Panic | S n => Ok n end.
(** [children()]: tree_context.rs, [self.children.as_ref().unwrap()]. *)
Definition ctx_children {V C} (c : tree_context V C) : Res C := unwrap (c_children c).

(** ** [at_path] *)

(** [Iterator::nth(i)] on an iterator over the list [l], for a [usize] index. *)
Fixpoint iter_nth {A} (l : list A) (i : N) : option A :=
  match l with
  | [] => None
  | x :: xs => if (i =? 0)%N then Some x else iter_nth xs (i - 1)%N
  end.

(** [OwnedTreeNode::at_path] prelude.rs 761-771; [at_path_mut] 1868; [at_path_ref] 2971. *)
Fixpoint at_path {Nd V} (gvc : Nd -> V * list Nd) (current : Nd) (path : list N) : option Nd :=
  match path with
  | [] => Some current
  | seg :: rest =>
      match iter_nth (snd (gvc current)) seg with
      | Some c => at_path gvc c rest
      | None => None
      end
  end.

(** [OwnedBinaryTreeNode::at_path] prelude.rs 192-202 ([nth(..)??]: out of range and absent child
    both give [None]); [at_path_mut] 1300; [at_path_ref] 2406. *)
Fixpoint at_path_binary {Nd V} (gvcb : Nd -> V * (option Nd * option Nd)) (current : Nd) (path : list N)
  : option Nd :=
  match path with
  | [] => Some current
  | seg :: rest =>
      match iter_nth (pair_iter (snd (gvcb current))) seg with
      | Some (Some c) => at_path_binary gvcb c rest
      | Some None => None
      | None => None
      end
  end.

(** [OwnedIntoIteratorOfTrees::at_path] prelude.rs 3593-3597 (and the mut / borrowed versions). *)
Definition coll_at_path {Nd V} (gvc : Nd -> V * list Nd) (trees : list Nd) (path : list N) : option Nd :=
  match path with
  | [] => None
  | seg :: rest =>
      match iter_nth trees seg with
      | Some t => at_path gvc t rest
      | None => None
      end
  end.

(** [OwnedIntoIteratorOfBinaryTrees::at_path] prelude.rs 3858-3862. *)
Definition coll_at_path_binary {Nd V} (gvcb : Nd -> V * (option Nd * option Nd)) (trees : list Nd) (path : list N)
  : option Nd :=
  match path with
  | [] => None
  | seg :: rest =>
      match iter_nth trees seg with
      | Some t => at_path_binary gvcb t rest
      | None => None
      end
  end.
