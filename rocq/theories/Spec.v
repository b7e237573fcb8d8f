(** * Spec: what the crate's operations are supposed to mean.

    This file contains no state machine and nothing taken from the
    implementation: only trees, and the textbook definitions of traversal
    orders, paths, ancestors, and so on. *)

From Coq Require Import List Arith NArith.
Import ListNotations.

(** ** Trees *)

(** An n-ary tree: a value and an ordered list of children. *)
Inductive tree (A : Type) : Type :=
| TNode (value : A) (children : list (tree A)).
Arguments TNode {A} value children.

(** A binary tree: a value, maybe a left child, maybe a right child. *)
Inductive btree (A : Type) : Type :=
| BNode (value : A) (left right : option (btree A)).
Arguments BNode {A} value left right.

Definition root {A} (t : tree A) : A := match t with TNode v _ => v end.
Definition subs {A} (t : tree A) : list (tree A) := match t with TNode _ ts => ts end.
Definition broot {A} (t : btree A) : A := match t with BNode v _ _ => v end.
Definition bleft {A} (t : btree A) : option (btree A) := match t with BNode _ l _ => l end.
Definition bright {A} (t : btree A) : option (btree A) := match t with BNode _ _ r => r end.

Definition opt_list {A} (o : option A) : list A := match o with Some a => [a] | None => [] end.

Fixpoint tree_map {A B} (f : A -> B) (t : tree A) : tree B :=
  match t with TNode v ts => TNode (f v) (map (tree_map f) ts) end.

Fixpoint btree_map {A B} (f : A -> B) (t : btree A) : btree B :=
  match t with BNode v l r => BNode (f v) (option_map (btree_map f) l) (option_map (btree_map f) r) end.

(** A binary tree seen as an n-ary tree: the children that are present, in order. *)
Fixpoint flat {A} (t : btree A) : tree A :=
  match t with
  | BNode v l r =>
      TNode v (match l with Some x => [flat x] | None => [] end ++
               match r with Some x => [flat x] | None => [] end)
  end.

(** ** Traversal orders *)

Fixpoint preorder {A} (t : tree A) : list A :=
  match t with TNode v ts => v :: flat_map preorder ts end.

Fixpoint postorder {A} (t : tree A) : list A :=
  match t with TNode v ts => flat_map postorder ts ++ [v] end.

Fixpoint inorder {A} (t : btree A) : list A :=
  match t with
  | BNode v l r =>
      match l with Some x => inorder x | None => [] end ++ [v] ++
      match r with Some x => inorder x | None => [] end
  end.

(** The nodes at distance [d] from the root, left to right. *)
Fixpoint level {A} (d : nat) (t : tree A) : list A :=
  match d, t with
  | 0, TNode v _ => [v]
  | S d', TNode _ ts => flat_map (level d') ts
  end.

(** Number of levels. *)
Fixpoint height {A} (t : tree A) : nat :=
  match t with TNode _ ts => S (list_max (map height ts)) end.

(** Breadth-first order: level by level. *)
Definition bfs {A} (t : tree A) : list A :=
  flat_map (fun d => level d t) (seq 0 (height t)).

(** ** Positions: where a node is in a tree *)

(** [pos_path]: child indexes from the root; [pos_above]: what is found on the
    way, from the root down to the parent; [pos_here]: what is at the node. *)
Record pos (A : Type) : Type := mkPos { pos_path : list nat; pos_above : list A; pos_here : A }.
Arguments mkPos {A} pos_path pos_above pos_here.
Arguments pos_path {A} p.
Arguments pos_above {A} p.
Arguments pos_here {A} p.

(** Map with the index, counting from [i]. *)
Definition mapi {A B} (f : nat -> A -> B) : nat -> list A -> list B :=
  fix go (i : nat) (l : list A) : list B :=
    match l with
    | [] => []
    | x :: xs => f i x :: go (S i) xs
    end.

(** Replace what is stored at each node by its position; [p] and [above] describe the root. *)
Fixpoint annotate {A} (p : list nat) (above : list A) (t : tree A) : tree (pos A) :=
  match t with
  | TNode v ts =>
      TNode (mkPos p above v)
            (mapi (fun i c => annotate (p ++ [i]) (above ++ [v]) c) 0 ts)
  end.

(** The same for binary trees: a left child has index 0, a right child index 1. *)
Fixpoint bannotate {A} (p : list nat) (above : list A) (t : btree A) : btree (pos A) :=
  match t with
  | BNode v l r =>
      BNode (mkPos p above v)
            (option_map (bannotate (p ++ [0]) (above ++ [v])) l)
            (option_map (bannotate (p ++ [1]) (above ++ [v])) r)
  end.

Definition positions {A} (t : tree A) : tree (pos A) := annotate [] [] t.
Definition bpositions {A} (t : btree A) : btree (pos A) := bannotate [] [] t.

(** The tree in which every node stores the subtree hanging there. *)
Fixpoint subtrees {A} (t : tree A) : tree (tree A) :=
  match t with TNode _ ts => TNode t (map subtrees ts) end.

Fixpoint bsubtrees {A} (t : btree A) : btree (btree A) :=
  match t with BNode _ l r => BNode t (option_map bsubtrees l) (option_map bsubtrees r) end.

(** ** Following a path *)

Fixpoint subtree_at {A} (t : tree A) (p : list nat) : option (tree A) :=
  match p with
  | [] => Some t
  | i :: q => match nth_error (subs t) i with Some c => subtree_at c q | None => None end
  end.

(** Binary: index 0 is the left child, 1 the right child, no other index exists. *)
Definition bchild {A} (t : btree A) (i : nat) : option (btree A) :=
  match i with 0 => bleft t | 1 => bright t | _ => None end.

Fixpoint bsubtree_at {A} (t : btree A) (p : list nat) : option (btree A) :=
  match p with
  | [] => Some t
  | i :: q => match bchild t i with Some c => bsubtree_at c q | None => None end
  end.

(** ** Implementations of the node traits

    A node type [Nd] gives access to its value and children through one method,
    [gvc : Nd -> V * list Nd] (or [gvcb : Nd -> V * (option Nd * option Nd)]).
    [node_tree gvc nt] says that every node is a finite tree, [nt n] being the tree of
    nodes hanging from [n]. *)
Definition node_tree {Nd V} (gvc : Nd -> V * list Nd) (nt : Nd -> tree Nd) : Prop :=
  forall n, nt n = TNode n (map nt (snd (gvc n))).

Definition node_btree {Nd V} (gvcb : Nd -> V * (option Nd * option Nd)) (bt : Nd -> btree Nd) : Prop :=
  forall n, bt n = BNode n (option_map bt (fst (snd (gvcb n)))) (option_map bt (snd (snd (gvcb n)))).
