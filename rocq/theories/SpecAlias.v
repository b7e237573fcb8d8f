(** * SpecAlias: exclusive references.

    A [&mut] reference gives access to memory cells, here numbers.  Rust's rule is that the references which
    can be used at one moment reach disjoint cells.  A caller of a streaming iterator sees references in the current
    item; with [get_mut()] it can move them out, swap them with others, and keep them while the iteration goes on. *)
From Verif Require Import Prelim Spec.

(** The cells of [l] are cells of [m], none more often. *)
Definition within (l m : list nat) : Prop := forall x, count_occ Nat.eq_dec l x <= count_occ Nat.eq_dec m x.

(** References to nodes and to values, and the cells they reach.  [get_value_and_children_iter_mut] takes a node apart: the
    reference to the value and those to the children reach different cells of the node. *)
Definition takes_apart {Nd V} (gvc : Nd -> V * list Nd) (ncells : Nd -> list nat) (vcells : V -> list nat) : Prop :=
  forall n, within (vcells (fst (gvc n)) ++ flat_map ncells (snd (gvc n))) (ncells n).

Definition ocells {Nd} (ncells : Nd -> list nat) (o : option Nd) : list nat := match o with Some n => ncells n | None => [] end.
Definition pcells {Nd} (ncells : Nd -> list nat) (c : option Nd * option Nd) : list nat := ocells ncells (fst c) ++ ocells ncells (snd c).
Definition takes_apart_binary {Nd V} (gvcb : Nd -> V * (option Nd * option Nd)) (ncells : Nd -> list nat) (vcells : V -> list nat) : Prop :=
  forall n, within (vcells (fst (gvcb n)) ++ pcells ncells (snd (gvcb n))) (ncells n).

(** A caller and an iterator.  [handed o]: the cells of the references which a call hands over; [shown s]: those of the references
    in the current item; [written s s']: [s'] is [s] after the caller has put other references into the current item.
    [h] are the cells of the references that the caller holds. *)
Section Caller.
  Context {S O : Type}.
  Variable next : nat -> S -> Res (O * S).
  Variable handed : O -> list nat.
  Variable shown : S -> list nat.
  Variable written : S -> S -> Prop.

  Inductive reached (s0 : S) (h0 : list nat) : S -> list nat -> Prop :=
  | reached_start : reached s0 h0 s0 h0
  | reached_next fuel s h o s' : reached s0 h0 s h -> next fuel s = Ok (o, s') -> reached s0 h0 s' (handed o ++ h)
  (** The caller moves references around, drops some, takes some apart; it has no others. *)
  | reached_use s h s' h' : reached s0 h0 s h -> written s s' \/ s' = s -> within (shown s' ++ h') (shown s ++ h) -> reached s0 h0 s' h'.

  (** No cell can be reached in two ways, whatever the caller does. *)
  Definition exclusive (s0 : S) (h0 : list nat) : Prop := forall s h, reached s0 h0 s h -> NoDup (shown s ++ h).
End Caller.

(** Trees of type [Tree<T>] and [BinaryTree<T>]: each node has a cell, and the value in the model is its number.  A reference to a
    node reaches the cells of its whole subtree. *)
Definition tree_cells (t : tree nat) : list nat := preorder t.
Definition btree_cells (t : btree nat) : list nat := preorder (flat t).
