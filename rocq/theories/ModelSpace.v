(** * ModelSpace: the growable vectors inside a pipeline object.

    Lengths of the [Vec]s owned by the object and by all its stages. *)
From Verif Require Import Prelim Spec SpecPipe ModelNode ModelPre ModelPipe ModelPipeColl.

(** [OwnedDFSPreorderIteratorWithPathTracking] dfs_preorder_iterators/owned.rs 197-205 (binary 503-511): [path] and
    [traversal_stack]. *)
Definition start_held {Nd I C} (s : ptrack Nd I C) : list nat := [length (pt_path s); length (pt_stack s)].

(** [OwnedDFSPreorderCollectionIteratorWithPathTracking] dfs_preorder_iterators/owned.rs 54-61 (binary 349-356): the iterator of the
    tree at hand; the collection's own iterator is the caller's. *)
Definition each_held {Nd I C} (s : ctrack Nd I C) : list nat := match ct_cur s with Some it => start_held it | None => [] end.

Section Held.
  Variable depth_of : list N -> Res N.
  Variable start : list N.
  Context {V : Type} (P : pipe V) (m : p_state P -> list nat).

  (** [Map], map.rs 5-14, and [PruneDepth], prune_depth.rs 5-13, have no vectors; [Prune], prune.rs 7-18, and [PrunePath],
      prune_path.rs 7-18, have [pruned_at_each_depth] and [current_path]. *)
  Fixpoint held {A} (c : chain V A) : p_state (run_chain depth_of start P c) -> list nat :=
    match c in chain _ A return p_state (run_chain depth_of start P c) -> list nat with
    | c_start => m
    | c_map c' g f => fun s => held c' (fst s)
    | c_prune c' g f => fun s => length (pr_pruned s) :: length (pr_path s) :: held c' (pr_inner s)
    | c_prune_path c' g f => fun s => length (pr_pruned s) :: length (pr_path s) :: held c' (pr_inner s)
    | c_prune_depth c' d => fun s => held c' s
    end.

  (** [BinaryPrune] and [BinaryPrunePath], prune.rs 112-171, prune_path.rs 112-172, have none. *)
  Fixpoint held_binary {A} (c : chain V A) : p_state (run_chain_binary depth_of P c) -> list nat :=
    match c in chain _ A return p_state (run_chain_binary depth_of P c) -> list nat with
    | c_start => m
    | c_map c' g f => fun s => held_binary c' (fst s)
    | c_prune c' g f => fun s => held_binary c' (fst s)
    | c_prune_path c' g f => fun s => held_binary c' (fst s)
    | c_prune_depth c' d => fun s => held_binary c' s
    end.
End Held.
