(** * Specification for pipelines over trees that are made as they are traversed.

    A node gives a value and a children container; the container gives an iterator, which is asked for one child at a
    time.  Neither the number of children nor the depth need be finite.  A pass over such a tree can only come to an end if
    it leaves out enough of it. *)
From Verif Require Import Prelim Spec SpecPipe.

Section Explore.
  Context {Nd V C It : Type}.
  Variable gv : Nd -> V * C.
  Variable into_iter : C -> It.
  Variable poll : It -> option Nd * It.

  (** The iterator gives these children and then, for the first time, [None]. *)
  Inductive polled : It -> list Nd -> Prop :=
  | polled_end it it' : poll it = (None, it') -> polled it []
  | polled_more it n it' ns : poll it = (Some n, it') -> polled it' ns -> polled it (n :: ns).

  (** A pass in preorder over the node [n], which is at path [p]: [visit] decides about each node as in [walk] of
      SpecPipe.v.  The children of a node are asked for only when the node is kept and the pass goes on below it.
      [seen]: the nodes that were visited, in order.  A derivation is a pass that comes to an end. *)
  Context {G B : Type}.
  Variable visit : G -> list nat -> Nd -> G * outcome B.

  Inductive explored : G -> list nat -> Nd -> G -> list Nd -> option (tree B) -> Prop :=
  | ex_drop g p n g1 : visit g p n = (g1, Drop) -> explored g p n g1 [n] None
  | ex_cut g p n g1 b : visit g p n = (g1, Keep b false) -> explored g p n g1 [n] (Some (TNode b []))
  | ex_down g p n g1 b ns g2 seen ts : visit g p n = (g1, Keep b true) ->
      polled (into_iter (snd (gv n))) ns -> explored_kids g1 p 0 ns g2 seen ts ->
      explored g p n g2 (n :: seen) (Some (TNode b ts))
  with explored_kids : G -> list nat -> nat -> list Nd -> G -> list Nd -> list (tree B) -> Prop :=
  | ek_nil g p i : explored_kids g p i [] g [] []
  | ek_cons g p i n ns g1 s1 o g2 s2 ts : explored g (p ++ [i]) n g1 s1 o -> explored_kids g1 p (S i) ns g2 s2 ts ->
      explored_kids g p i (n :: ns) g2 (s1 ++ s2) (opt_list o ++ ts).

  (** [t]: the nodes of depth at most [d] below [n], all of which have finitely many children except perhaps the deepest. *)
  Inductive up_to : nat -> Nd -> tree Nd -> Prop :=
  | up_to_0 n : up_to 0 n (TNode n [])
  | up_to_S d n ns ts : polled (into_iter (snd (gv n))) ns -> Forall2 (up_to d) ns ts -> up_to (S d) n (TNode n ts).
End Explore.

(** The same for binary trees. *)
Section BinaryExplore.
  Context {Nd V : Type}.
  Variable gvcb : Nd -> V * (option Nd * option Nd).
  Context {G B : Type}.
  Variable visit : G -> list nat -> Nd -> G * outcome B.

  Inductive bexplored : G -> list nat -> Nd -> G -> list Nd -> option (btree B) -> Prop :=
  | bex_drop g p n g1 : visit g p n = (g1, Drop) -> bexplored g p n g1 [n] None
  | bex_cut g p n g1 b : visit g p n = (g1, Keep b false) -> bexplored g p n g1 [n] (Some (BNode b None None))
  | bex_down g p n g1 b g2 s1 l g3 s2 r : visit g p n = (g1, Keep b true) ->
      bexplored_side g1 (p ++ [0]) (fst (snd (gvcb n))) g2 s1 l -> bexplored_side g2 (p ++ [1]) (snd (snd (gvcb n))) g3 s2 r ->
      bexplored g p n g3 (n :: s1 ++ s2) (Some (BNode b l r))
  with bexplored_side : G -> list nat -> option Nd -> G -> list Nd -> option (btree B) -> Prop :=
  | bes_none g p : bexplored_side g p None g [] None
  | bes_some g p n g1 s o : bexplored g p n g1 s o -> bexplored_side g p (Some n) g1 s o.

  (** The trees of a collection, the first of which has the index [i]; the path of a root is the index of its tree.  (n-ary: [explored_kids]
      with the empty path.) *)
  Inductive bexplored_trees : G -> nat -> list Nd -> G -> list Nd -> list (btree B) -> Prop :=
  | bet_nil g i : bexplored_trees g i [] g [] []
  | bet_cons g i n ns g1 s1 o g2 s2 ts : bexplored g [i] n g1 s1 o -> bexplored_trees g1 (S i) ns g2 s2 ts ->
      bexplored_trees g i (n :: ns) g2 (s1 ++ s2) (opt_list o ++ ts).
End BinaryExplore.

(** What a chain of stages does with a node. *)
Definition visit_at {Nd V C A} (gv : Nd -> V * C) (c : chain V A) (gs : clos c) (p : list nat) (n : Nd) : clos c * outcome A :=
  visit_node c gs (map N.of_nat p) (N.of_nat (length p)) (fst (gv n)).

(** The same in a collection, where the path of a node starts with the index of its tree and a root has depth 0. *)
Definition visit_each {Nd V C A} (gv : Nd -> V * C) (c : chain V A) (gs : clos c) (p : list nat) (n : Nd) : clos c * outcome A :=
  visit_node c gs (map N.of_nat p) (N.of_nat (pred (length p))) (fst (gv n)).

(** The same visitor, which also notes the path of the kept node. *)
Definition with_path {Nd G B} (visit : G -> list nat -> Nd -> G * outcome B) (g : G) (p : list nat) (n : Nd) : G * outcome (B * list nat) :=
  match visit g p n with
  | (g', Drop) => (g', Drop)
  | (g', Keep b down) => (g', Keep (b, p) down)
  end.
