(** * ModelEditColl: a caller which replaces the children of the current context, over a collection of trees.

    [while let Some(ctx) = iter.next_mut() { *ctx.children_mut() = ...; }] over the collection iterators with context. *)
From Verif Require Import Prelim Spec ModelNode ModelBfs ModelPre ModelEdit ModelColl.

(** [get_mut] of the collection iterators (collection_iterators.rs 136-140, 319-323, 551-555, 856-860) is [get_mut] of the iterator of the
    current tree: what the caller writes goes into that iterator. *)
Definition cc_children {T S C} (children : S -> option C) (s : collc T S) : option C :=
  match cc_cur s with Some iter => children iter | None => None end.
Definition cc_set_children {T S C} (set_children : S -> C -> S) (s : collc T S) (c : C) : collc T S :=
  mkCollc (cc_trees s) (cc_index s) (option_map (fun iter => set_children iter c) (cc_cur s)).

Definition prec_each_next_edited {Nd V G} (gvc : Nd -> V * list Nd) (edit : G -> tree_context V (list Nd) -> G * list Nd) :=
  next_edited (collc_advance prec_new (prec_next gvc)) (collc_get prec_get) (cc_children pc_children) (cc_set_children prec_set_children) edit.
Definition precb_each_next_edited {Nd V G} (gvcb : Nd -> V * (option Nd * option Nd))
    (edit : G -> tree_context V (option Nd * option Nd) -> G * (option Nd * option Nd)) :=
  next_edited (collc_advance prec_new (precb_next gvcb pair_iter)) (collc_get prec_get) (cc_children pc_children) (cc_set_children prec_set_children) edit.
Definition bfsc_each_next_edited {Nd V G} (gvc : Nd -> V * list Nd) (edit : G -> tree_context V (list Nd) -> G * list Nd) :=
  next_edited (collc_advance (bfsc_start gvc) (bfsc_next gvc)) (collc_get bfsc_get) (cc_children bc_children) (cc_set_children bfsc_set_children) edit.
Definition bfscb_each_next_edited {Nd V G} (gvcb : Nd -> V * (option Nd * option Nd))
    (edit : G -> tree_context V (option Nd * option Nd) -> G * (option Nd * option Nd)) :=
  next_edited (collc_advance (bfsc_start gvcb) (bfscb_next gvcb pair_iter)) (collc_get bfsc_get) (cc_children bc_children) (cc_set_children bfsc_set_children) edit.
