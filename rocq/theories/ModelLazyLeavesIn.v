(** * ModelLazyLeavesIn: [leaves()] of the inorder iterators, with a record of the calls of [get_value_and_children].

    The state of an inorder iterator is that of ModelLazyIn.  The stacks of the [leaves()] iterators hold children iterators of two kinds,
    [core::option::IntoIter] for the right children left behind and the iterator over a pair of children; both give the nodes of a list of
    at most two nodes one by one, then [None] for ever, and are modelled by that list. *)
From Verif Require Import Prelim Spec ModelNode ModelIn ModelLazyIn ModelLazyLeaves.

Section LazyLeavesIn.
  Context {Nd V : Type}.

  (** The children of a binary node as an iterator over those that are there ([BinaryChildren], a [FlatMap] over an array of two
      options, prelude.rs 157-160; as in [ModelNode.binary_gvc]). *)
  Definition both (c : option Nd * option Nd) : list Nd := flat_map opt_list (pair_iter c).
  (** Its [next]. *)
  Definition front (l : list Nd) : option Nd * list Nd := match l with x :: rest => (Some x, rest) | [] => (None, []) end.

  (** [leaves()] dfs_inorder_iterators/owned.rs 66-90 (borrow.rs 66, mut_borrow.rs 69). *)
  Definition lin_leaves (s : lin Nd V) : Res (ldl Nd V (list Nd)) :=
    let '(log, s) := s in
    if in_moved s then Ok (mkLdl log None (map opt_list (in_right s)) [] (in_items s))
    else match in_right s with
         | [] => Panic (* expect *)
         | r :: _ => Ok (mkLdl log r [] [] (in_items s))
         end.

  (** [leaves()] of the iterator with ancestors, dfs_inorder_iterators/owned.rs 145-169 (borrow.rs 145, mut_borrow.rs 148). *)
  Definition lina_leaves (s : lina Nd V) : ldal Nd V (list Nd) :=
    let '(log, s) := s in
    match ia_right s with
    | [r] => mkLdal log r (ia_items s) [] []
    | rs => mkLdal log None (ia_items s) (map opt_list rs) []
    end.
End LazyLeavesIn.
