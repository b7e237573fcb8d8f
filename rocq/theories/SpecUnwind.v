(** * SpecUnwind: what calls should give when the user's [get_value_and_children] panics on some nodes.

    Part of the specification.  [gvc n = None] says that the method panics on [n]. *)
From Verif Require Import Prelim Spec ModelNode ModelUnwind.

(** Every node is a finite tree, [nt n] being the tree of nodes hanging from [n]; a node on which the method
    panics has no children, as no one can get at them. *)
Definition fnode_tree {Nd V} (gvc : Nd -> option (V * list Nd)) (nt : Nd -> tree Nd) : Prop :=
  forall n, nt n = TNode n (match gvc n with Some (_, kids) => map nt kids | None => [] end).
Definition fnode_btree {Nd V} (gvcb : Nd -> option (V * (option Nd * option Nd))) (bt : Nd -> btree Nd) : Prop :=
  forall n, bt n = match gvcb n with
                   | Some (_, (l, r)) => BNode n (option_map bt l) (option_map bt r)
                   | None => BNode n None None
                   end.

Section Seen.
  Context {Nd V C : Type}.
  Variable gv : Nd -> option (V * C).

  (** What a call gives at a node: its value, or the panic. *)
  Definition seen (n : Nd) : outcome V := match gv n with Some (v, _) => Got v | None => Unwound end.

  (** The values of the nodes which have one. *)
  Definition values (ns : list Nd) : list V := flat_map (fun n => match gv n with Some (v, _) => [v] | None => [] end) ns.

  (** The same with the ancestors, from the root to the node (all of them have a value: a node that panics has no
      descendants), and with the context. *)
  Definition seen_ancestors (p : pos Nd) : outcome (list V) :=
    match gv (pos_here p) with
    | Some _ => Got (values (pos_above p ++ [pos_here p]))
    | None => Unwound
    end.
  Definition seen_context (p : pos Nd) : outcome (tree_context V C) :=
    match gv (pos_here p) with
    | Some (_, c) => Got (mkCtx (map N.of_nat (pos_path p)) (values (pos_above p ++ [pos_here p])) (Some c))
    | None => Unwound
    end.
End Seen.

Definition outcome_map {A B} (f : A -> B) (o : outcome A) : outcome B := match o with Got a => Got (f a) | Unwound => Unwound end.

(** The nodes a caller of [leaves()] hears of: those without children, and those where the method panics. *)
Definition leaf_or_panic {Nd V} (gvc : Nd -> option (V * list Nd)) (n : Nd) : bool :=
  match gvc n with Some (_, []) => true | Some _ => false | None => true end.

(** The method panics on [n]. *)
Definition panics {Nd A} (gv : Nd -> option A) (n : Nd) : bool := match gv n with Some _ => false | None => true end.

(** As [yields], up to and including the first panic: nothing is said about the calls after it.  (If [l] has no panic, this
    speaks of every call.) *)
Definition yields_until_panic {S A : Type} (next : nat -> S -> Res (option (outcome A) * S)) (s : S) (l : list (outcome A)) : Prop :=
  forall k, (forall i, Datatypes.S i < k -> nth_error l i <> Some Unwound) ->
  exists s', calls next k s ⇓ Ok (map (nth_error l) (seq 0 k), s').

(** Every node has at most [usize::MAX] children, as far as the method tells. *)
Definition small_fnodes {Nd V} (gvc : Nd -> option (V * list Nd)) (t : tree Nd) : Prop :=
  Forall (fun m => forall v kids, gvc m = Some (v, kids) -> (N.of_nat (length kids) <= usize_max)%N) (preorder t).
