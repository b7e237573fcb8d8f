(** * What a user sees at a node, in terms of the specification's positions.

    Part of the specification: used in the statements of the property theorems. *)
From Verif Require Import Prelim Spec ModelNode.

(** The value of a node, and its children container (a list for n-ary
    trees, the pair [left, right] for binary ones). *)
Definition nval {Nd V C} (gv : Nd -> V * C) (n : Nd) : V := fst (gv n).
Definition nkids {Nd V C} (gv : Nd -> V * C) (n : Nd) : C := snd (gv n).

(** The slice given by [attach_ancestors]: values from the root to the node inclusive. *)
Definition ancestors_at {Nd V C} (gv : Nd -> V * C) (p : pos Nd) : list V :=
  map (nval gv) (pos_above p ++ [pos_here p]).

(** The context given by [attach_context]: path, ancestors (inclusive), children. *)
Definition context_at {Nd V C} (gv : Nd -> V * C) (p : pos Nd) : tree_context V C :=
  mkCtx (map N.of_nat (pos_path p)) (map (nval gv) (pos_above p ++ [pos_here p])) (Some (nkids gv (pos_here p))).

(** A context without its children (what the owned postorder and inorder iterators give). *)
Definition no_children {V C} (c : tree_context V C) : tree_context V unit := mkCtx (c_path c) (c_ancestors c) None.

(** Every node of the tree has at most [usize::MAX] children (so that child indexes fit in a [usize]). *)
Definition small_nodes {Nd V} (gvc : Nd -> V * list Nd) (t : tree Nd) : Prop :=
  Forall (fun m => (N.of_nat (length (nkids gvc m)) <= usize_max)%N) (preorder t).

Arguments nval : simpl never.
Arguments nkids : simpl never.

(** Childless nodes. *)
Definition is_leaf {Nd V} (gvc : Nd -> V * list Nd) (n : Nd) : bool :=
  match nkids gvc n with [] => true | _ => false end.
Definition is_bleaf {Nd V} (gvcb : Nd -> V * (option Nd * option Nd)) (n : Nd) : bool :=
  match nkids gvcb n with (None, None) => true | _ => false end.

(** As [yields], but the calls stop after the first [None]: nothing is said about calls beyond it. *)
Definition yields_to_end {S A : Type} (next : nat -> S -> Res (option A * S)) (s : S) (l : list A) : Prop :=
  forall k, k <= Datatypes.S (length l) -> exists s', calls next k s ⇓ Ok (map (nth_error l) (seq 0 k), s').

(** Once a call has returned [None], all further calls return [None] (and none of them panics). *)
Definition stays_exhausted {S A : Type} (next : nat -> S -> Res (option A * S)) (s : S) : Prop :=
  forall j os s1, calls next j s ⇓ Ok (os ++ [None], s1) ->
  forall k, exists s2, calls next k s1 ⇓ Ok (repeat None k, s2).

(** The node with path [p] is the node with path [q] or one of its ancestors. *)
Fixpoint prefixb (p q : list nat) : bool :=
  match p, q with
  | [], _ => true
  | i :: p', j :: q' => (i =? j) && prefixb p' q'
  | _ :: _, [] => false
  end.

(** The parent of [p] is one of the nodes in [yielded], or an ancestor of one of them. *)
Definition parent_entered {A} (yielded : list (pos A)) (p : pos A) : bool :=
  existsb (fun q => prefixb (removelast (pos_path p)) (pos_path q)) yielded.

(** [c] is one of the items that repeated calls give. *)
Definition gives {S A : Type} (next : nat -> S -> Res (option A * S)) (s : S) (c : A) : Prop :=
  exists k os s', calls next k s ⇓ Ok (os, s') /\ In (Some c) os.

Definition last_opt {A} (l : list A) : option A := nth_error l (length l - 1).

(** A position inside tree number [i] of a collection: the index comes first in the path. *)
Definition in_tree {A} (i : nat) (p : pos A) : pos A := mkPos (i :: pos_path p) (pos_above p) (pos_here p).

(** What each tree of a collection gives, with its index, one tree after the other. *)
Definition each {T A} (f : nat -> T -> list A) (trees : list T) : list A := concat (mapi f 0 trees).

(** There are at most [usize::MAX] trees (so that their indexes fit in a [usize]). *)
Definition small_collection {T} (trees : list T) : Prop := (N.of_nat (length trees) <= usize_max)%N.

(** The last elements of the slices an iterator has returned ([None] and the empty slice give none). *)
Definition lasts {V} (os : list (option (list V))) : list V :=
  flat_map (fun o => match o with Some l => match rev l with x :: _ => [x] | [] => [] end | None => [] end) os.
