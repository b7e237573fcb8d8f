(** * SpecPipeColl: what the whole-tree operations mean on a collection of trees. *)
From Coq Require Import List Arith NArith Bool.
Import ListNotations.
From Verif Require Import Spec SpecPipe.

(** The nodes of a collection with their positions: a path starts with the index of the tree. *)
Definition each_positions {A} (trees : list (tree A)) : list (tree (pos A)) :=
  mapi (fun i t => annotate [i] [] t) 0 trees.
Definition each_bpositions {A} (trees : list (btree A)) : list (btree (pos A)) :=
  mapi (fun i t => bannotate [i] [] t) 0 trees.

(** What a chain does with a node of a collection; the depth of a root is 0 although its path has one element. *)
Definition at_node_each {Nd V A} (val : Nd -> V) (c : chain V A) (gs : clos c) (x : pos Nd) : clos c * outcome A :=
  visit_node c gs (map N.of_nat (pos_path x)) (N.of_nat (pred (length (pos_path x)))) (val (pos_here x)).

(** A fold closure that is given paths, on values paired with their positions. *)
Definition with_path {G O A Nd K} (f : G -> K -> list N -> A -> G * O) (g : G) (kids : K) (ax : A * pos Nd) : G * O :=
  f g kids (map N.of_nat (pos_path (snd ax))) (fst ax).

(** Chains of whole-tree operations on a collection: each tree on its own; for the [i]-th one the closures that are
    given paths see [i] as first element. *)
Fixpoint for_tree {V A} (i : nat) (c : ops V A) : ops V A :=
  match c in ops _ A return ops V A with
  | o_start => o_start
  | o_map c' f => o_map (for_tree i c') f
  | o_prune c' f => o_prune (for_tree i c') f
  | o_prune_path c' f => o_prune_path (for_tree i c') (fun p => f (N.of_nat i :: p))
  | o_prune_depth c' d => o_prune_depth (for_tree i c') d
  end.
Definition apply_ops_each {V A} (c : ops V A) (trees : list (tree V)) : list (tree A) :=
  concat (mapi (fun i t => opt_list (apply_ops (for_tree i c) t)) 0 trees).
Definition bapply_ops_each {V A} (c : ops V A) (trees : list (btree V)) : list (btree A) :=
  concat (mapi (fun i t => opt_list (bapply_ops (for_tree i c) t)) 0 trees).
