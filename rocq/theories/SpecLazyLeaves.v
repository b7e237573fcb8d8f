(** * Specification for [leaves()] of trees that are made as they are traversed. *)
From Verif Require Import Prelim Spec SpecLazy.

Section LazyLeaves.
  Context {Nd V C It : Type}.
  Variable gv : Nd -> V * C.
  Variable into_iter : C -> It.
  Variable poll : It -> option Nd * It.

  (** A leaf: the first answer of its children iterator is [None]. *)
  Definition childless (n : Nd) : bool :=
    match fst (poll (into_iter (snd (gv n)))) with Some _ => false | None => true end.

  (** When the first answer of the children iterator of [n] is [None], so is the second. *)
  Definition none_twice (n : Nd) : Prop :=
    childless n = true -> fst (poll (snd (poll (into_iter (snd (gv n)))))) = None.

  (** No node of the tree hanging from [n] is a leaf. *)
  Definition no_leaf (n : Nd) : Prop :=
    forall d b m, In m (preorder (cut gv into_iter poll d b n)) -> childless m = false.
End LazyLeaves.
