(** * SpecMapPath: the paths that map_path hands to its closure, as they are and as they should be. *)
From Coq Require Import List Arith NArith.
Import ListNotations.
From Verif Require Import Spec SpecPipe.

(** The path of every node, in preorder: what map_path should hand out. *)
Definition node_paths {A} (t : tree A) : list (list nat) := map pos_path (preorder (positions t)).
Definition bnode_paths {A} (t : btree A) : list (list nat) := map pos_path (preorder (flat (bpositions t))).

(** The old path [q] seen through a pointer taken before moving on to the node at [p].  A child: nothing has changed
    up to its parent.  Otherwise the first segments are now those of [p], and behind them are those which were popped:
    unchanged ([Tree]), or the last ones tried ([BinaryTree]: the right side). *)
Definition stale (q p : list nat) : list nat :=
  if length q <? length p then q else p ++ skipn (length p) q.
Definition bstale (q p : list nat) : list nat :=
  if length q <? length p then q else p ++ repeat 1 (length q - length p).

(** Along the preorder: every node gets what is seen through the pointer to the path of the node before it. *)
Fixpoint stale_from (st : list nat -> list nat -> list nat) (q : list nat) (ps : list (list nat)) : list (list nat) :=
  match ps with [] => [] | p :: ps' => st q p :: stale_from st p ps' end.
(** The first node gets [first]. *)
Definition stale_paths (st : list nat -> list nat -> list nat) (first : list nat) (ps : list (list nat)) : list (list nat) :=
  match ps with [] => [] | p :: ps' => first :: stale_from st p ps' end.

(** Is some node other than the last one (in preorder) at depth at least [d]? *)
Definition passes_depth (d : nat) (ps : list (list nat)) : Prop := Exists (fun p => d <= length p) (removelast ps).

(** Stages behind map_path.  The visitor remembers the path [q] of the node it visited last (at first []), the state of
    map_path's closure [f], and those of the stages behind; [f] is given the stale path, the stages the true one. *)
Definition after_map_path {Nd V B A G} (st : list nat -> list nat -> list nat) (val : Nd -> V) (f : G -> list N -> V -> G * B)
    (depth : list nat -> nat) (c : chain B A) (s : list nat * G * clos c) (x : pos Nd) : list nat * G * clos c * outcome A :=
  let '(q, g, gs) := s in
  let p := pos_path x in
  let '(g', b) := f g (map N.of_nat (st q p)) (val (pos_here x)) in
  let '(gs', r) := visit_node c gs (map N.of_nat p) (N.of_nat (depth p)) b in
  (p, g', gs', r).

(** Stages before ([c1]) and behind ([c2]).  What the pointer of map_path shows changes with every node that the stages
    before visit, also with those they leave out; after a node that [f] was given, it shows that node's path. *)
Definition around_map_path {Nd V A B D G} (st : list nat -> list nat -> list nat) (val : Nd -> V) (c1 : chain V A)
    (f : G -> list N -> A -> G * B) (c2 : chain B D) (s : clos c1 * list nat * G * clos c2) (x : pos Nd) : clos c1 * list nat * G * clos c2 * outcome D :=
  let '(gs1, q, g, gs2) := s in
  let p := pos_path x in
  let path := map N.of_nat p in
  let depth := N.of_nat (length p) in
  match visit_node c1 gs1 path depth (val (pos_here x)) with
  | (gs1', Drop) => (gs1', st q p, g, gs2, Drop)
  | (gs1', Keep a down) =>
      let '(g', b) := f g (map N.of_nat (st q p)) a in
      match visit_node c2 gs2 path depth b with
      | (gs2', Drop) => (gs1', p, g', gs2', Drop)
      | (gs2', Keep r down') => (gs1', p, g', gs2', Keep r (down && down'))
      end
  end.
