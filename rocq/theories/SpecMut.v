(** * SpecMut: what updates through references should do to a tree. *)
From Coq Require Import List Arith.
From Verif Require Import Spec.

(** Apply [f] to the value of each node as many times as there are nodes in the subtree hanging there. *)
Fixpoint update_below {A} (f : A -> A) (t : tree A) : tree A :=
  match t with TNode v ts => TNode (Nat.iter (length (preorder t)) f v) (map (update_below f) ts) end.
Fixpoint bupdate_below {A} (f : A -> A) (t : btree A) : btree A :=
  match t with
  | BNode v l r => BNode (Nat.iter (length (preorder (flat t))) f v) (option_map (bupdate_below f) l) (option_map (bupdate_below f) r)
  end.
