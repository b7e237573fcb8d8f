(** * Specification for trees that are made as they are traversed.

    A node gives a value and a children container; the container gives an iterator, which is asked for one
    child at a time.  Neither the number of children nor the depth need be finite. *)
From Verif Require Import Prelim Spec.

Section Lazy.
  Context {Nd V C It : Type}.
  Variable gv : Nd -> V * C.
  Variable into_iter : C -> It.
  Variable poll : It -> option Nd * It.

  (** The children that the iterator gives before its first [None], but at most [b]. *)
  Fixpoint first_items (b : nat) (it : It) : list Nd :=
    match b with
    | 0 => []
    | S b' => match poll it with (Some n, it') => n :: first_items b' it' | (None, _) => [] end
    end.

  (** The tree hanging from a node, cut below depth [d] and after the [b]-th child of each node. *)
  Fixpoint cut (d b : nat) (n : Nd) : tree Nd :=
    TNode n (match d with
             | 0 => []
             | S d' => map (cut d' b) (first_items b (into_iter (snd (gv n))))
             end).

  (** [t] is the whole tree hanging from a node: each children iterator is asked until its first [None].  What it would
      give after that does not count. *)
  Inductive whole : Nd -> tree Nd -> Prop :=
  | whole_node n ts : wholes (into_iter (snd (gv n))) ts -> whole n (TNode n ts)
  with wholes : It -> list (tree Nd) -> Prop :=
  | wholes_end it it' : poll it = (None, it') -> wholes it []
  | wholes_more it c it' t ts : poll it = (Some c, it') -> whole c t -> wholes it' ts -> wholes it (t :: ts).

  (** The position of a node all of whose children are in [cut d b n]: it is above depth [d], and has fewer than [b] children. *)
  Definition uncut (d b : nat) (p : pos Nd) : Prop :=
    length (pos_path p) < d /\ length (first_items b (into_iter (snd (gv (pos_here p))))) < b.

  (** Going down, first child after first child, never ends. *)
  Definition endless_first_children (n : Nd) : Prop :=
    exists path : nat -> Nd, path 0 = n /\ forall i, fst (poll (into_iter (snd (gv (path i))))) = Some (path (S i)).
End Lazy.

(** The same for binary trees: the tree below depth [d] is cut off. *)
Fixpoint bcut {Nd V} (gvcb : Nd -> V * (option Nd * option Nd)) (d : nat) (n : Nd) : btree Nd :=
  match d with
  | 0 => BNode n None None
  | S d' => BNode n (option_map (bcut gvcb d') (fst (snd (gvcb n)))) (option_map (bcut gvcb d') (snd (snd (gvcb n))))
  end.

(** [t] is the whole binary tree hanging from a node. *)
Section BinaryWhole.
  Context {Nd V : Type}.
  Variable gvcb : Nd -> V * (option Nd * option Nd).
  Inductive bwhole : Nd -> btree Nd -> Prop :=
  | bwhole_node n l r : bwhole_opt (fst (snd (gvcb n))) l -> bwhole_opt (snd (snd (gvcb n))) r -> bwhole n (BNode n l r)
  with bwhole_opt : option Nd -> option (btree Nd) -> Prop :=
  | bwhole_none : bwhole_opt None None
  | bwhole_some c t : bwhole c t -> bwhole_opt (Some c) (Some t).
End BinaryWhole.

(** The nodes on which a postorder traversal that has made [k] steps must have been: those it has returned,
    and the ancestors of the last one. *)
Definition entered {A} (k : nat) (l : list (pos A)) : list A :=
  map pos_here (firstn k l) ++
  match k with
  | 0 => []
  | S j => match nth_error l j with Some p => pos_above p | None => [] end
  end.

(** The ancestors of a node in a binary tree in whose left subtree it is. *)
Definition turned_left {A} (p : pos A) : list A := map snd (filter (fun x => fst x =? 0) (combine (pos_path p) (pos_above p))).

(** The nodes on which an inorder traversal that has made [k] steps must have been: those it has returned, and those ancestors of the last
    one that come after it. *)
Definition entered_inorder {A} (k : nat) (l : list (pos A)) : list A :=
  map pos_here (firstn k l) ++
  match k with
  | 0 => []
  | S j => match nth_error l j with Some p => turned_left p | None => [] end
  end.
