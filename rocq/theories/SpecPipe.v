(** * SpecPipe: what the whole-tree operations (map, prune, fold, ...) are supposed to mean.

    No state machine here and nothing taken from the implementation.  A closure ([FnMut]) is a state [G] and a
    function of that state and the arguments, returning the new state and the result. *)
From Coq Require Import List Arith NArith Bool.
Import ListNotations.
From Verif Require Import Spec.

(** ** One pass over a tree, in preorder

    At each node the visitor decides: drop the node with everything below it, or keep it with a new value; a kept
    node's children are then visited in order, unless [descend] is false, in which case they are cut off unseen. *)
Inductive outcome (B : Type) : Type :=
| Drop
| Keep (b : B) (descend : bool).
Arguments Drop {B}.
Arguments Keep {B} b descend.

Section Walk.
  Context {G X B : Type}.
  Variable visit : G -> X -> G * outcome B.

  (** The walk over the children, left to right, threading the closure state. *)
  Definition walk_list (walk : G -> tree X -> G * option (tree B)) : G -> list (tree X) -> G * list (tree B) :=
    fix go (g : G) (ts : list (tree X)) : G * list (tree B) :=
      match ts with
      | [] => (g, [])
      | t :: ts' =>
          let '(g1, o) := walk g t in
          let '(g2, os) := go g1 ts' in
          (g2, opt_list o ++ os)
      end.

  Fixpoint walk (g : G) (t : tree X) : G * option (tree B) :=
    match t with
    | TNode x ts =>
        match visit g x with
        | (g1, Drop) => (g1, None)
        | (g1, Keep b false) => (g1, Some (TNode b []))
        | (g1, Keep b true) => let '(g2, ts') := walk_list walk g1 ts in (g2, Some (TNode b ts'))
        end
    end.

  (** All trees of a collection, one after the other. *)
  Definition walk_all : G -> list (tree X) -> G * list (tree B) := walk_list walk.

  (** Binary trees: a kept child stays on its side. *)
  Definition walk_side (walk : G -> btree X -> G * option (btree B)) (g : G) (o : option (btree X)) : G * option (btree B) :=
    match o with None => (g, None) | Some t => walk g t end.

  Fixpoint bwalk (g : G) (t : btree X) : G * option (btree B) :=
    match t with
    | BNode x l r =>
        match visit g x with
        | (g1, Drop) => (g1, None)
        | (g1, Keep b false) => (g1, Some (BNode b None None))
        | (g1, Keep b true) =>
            let '(g2, l') := walk_side bwalk g1 l in
            let '(g3, r') := walk_side bwalk g2 r in
            (g3, Some (BNode b l' r'))
        end
    end.

  Definition bwalk_all : G -> list (btree X) -> G * list (btree B) :=
    fix go (g : G) (ts : list (btree X)) : G * list (btree B) :=
      match ts with
      | [] => (g, [])
      | t :: ts' =>
          let '(g1, o) := bwalk g t in
          let '(g2, os) := go g1 ts' in
          (g2, opt_list o ++ os)
      end.
End Walk.

(** The same visitor, which also notes where the kept node was. *)
Definition with_node {G X B} (visit : G -> X -> G * outcome B) (g : G) (x : X) : G * outcome (B * X) :=
  match visit g x with
  | (g', Drop) => (g', Drop)
  | (g', Keep b down) => (g', Keep (b, x) down)
  end.

(** ** Programs: a pipeline is a chain of stages *)
Inductive chain (V : Type) : Type -> Type :=
| c_start : chain V V
| c_map {A B G : Type} (c : chain V A) (g : G) (f : G -> A -> G * B) : chain V B
| c_prune {A G : Type} (c : chain V A) (g : G) (f : G -> A -> G * bool) : chain V A
| c_prune_path {A G : Type} (c : chain V A) (g : G) (f : G -> list N -> A -> G * bool) : chain V A
| c_prune_depth {A : Type} (c : chain V A) (d : N) : chain V A.
Arguments c_start {V}.
Arguments c_map {V A B G} c g f.
Arguments c_prune {V A G} c g f.
Arguments c_prune_path {V A G} c g f.
Arguments c_prune_depth {V A} c d.

(** The states of the closures of a chain, together. *)
Fixpoint clos {V A : Type} (c : chain V A) : Type :=
  match c with
  | c_start => unit
  | @c_map _ _ _ G c' _ _ => clos c' * G
  | @c_prune _ _ G c' _ _ => clos c' * G
  | @c_prune_path _ _ G c' _ _ => clos c' * G
  | c_prune_depth c' _ => clos c'
  end.

Fixpoint clos_init {V A : Type} (c : chain V A) : clos c :=
  match c with
  | c_start => tt
  | c_map c' g _ => (clos_init c', g)
  | c_prune c' g _ => (clos_init c', g)
  | c_prune_path c' g _ => (clos_init c', g)
  | c_prune_depth c' _ => clos_init c'
  end.

(** Does the chain contain a prune (by value or by path)? *)
Fixpoint has_prune {V A} (c : chain V A) : bool :=
  match c with
  | c_start => false
  | c_map c' _ _ => has_prune c'
  | c_prune _ _ _ => true
  | c_prune_path _ _ _ => true
  | c_prune_depth c' _ => has_prune c'
  end.

(** No prune_path after another prune: the n-ary chains in which every closure is given true paths. *)
Fixpoint true_paths {V A} (c : chain V A) : bool :=
  match c with
  | c_start => true
  | c_map c' _ _ => true_paths c'
  | c_prune c' _ _ => true_paths c'
  | c_prune_path c' _ _ => true_paths c' && negb (has_prune c')
  | c_prune_depth c' _ => true_paths c'
  end.

(** What a chain does with a node of value [v], path [p] and depth [d]: the stages in order; a stage is run only
    when the earlier ones have kept the node. *)
Fixpoint visit_node {V A : Type} (c : chain V A) : clos c -> list N -> N -> V -> clos c * outcome A :=
  match c in chain _ A return clos c -> list N -> N -> V -> clos c * outcome A with
  | c_start => fun g _ _ v => (g, Keep v true)
  | c_map c' _ f => fun gs p d v =>
      let '(gs1, r) := visit_node c' (fst gs) p d v in
      match r with
      | Drop => ((gs1, snd gs), Drop)
      | Keep a down => let '(g1, b) := f (snd gs) a in ((gs1, g1), Keep b down)
      end
  | c_prune c' _ f => fun gs p d v =>
      let '(gs1, r) := visit_node c' (fst gs) p d v in
      match r with
      | Drop => ((gs1, snd gs), Drop)
      | Keep a down => let '(g1, b) := f (snd gs) a in ((gs1, g1), if b then Drop else Keep a down)
      end
  | c_prune_path c' _ f => fun gs p d v =>
      let '(gs1, r) := visit_node c' (fst gs) p d v in
      match r with
      | Drop => ((gs1, snd gs), Drop)
      | Keep a down => let '(g1, b) := f (snd gs) p a in ((gs1, g1), if b then Drop else Keep a down)
      end
  | c_prune_depth c' lim => fun gs p d v =>
      let '(gs1, r) := visit_node c' gs p d v in
      match r with
      | Drop => (gs1, Drop)
      | Keep a down => (gs1, Keep a (down && negb (d =? lim)%N))
      end
  end.

(** ** Folds

    A closure [f] gets the results of the children, the path and the value; children first, left to right. *)
Section Folds.
  Context {G X O : Type}.
  Variable f : G -> list O -> X -> G * O.

  Definition fold_list (fold : G -> tree X -> G * O) : G -> list (tree X) -> G * list O :=
    fix go (g : G) (ts : list (tree X)) : G * list O :=
      match ts with
      | [] => (g, [])
      | t :: ts' =>
          let '(g1, o) := fold g t in
          let '(g2, os) := go g1 ts' in
          (g2, o :: os)
      end.

  Fixpoint fold_up (g : G) (t : tree X) : G * O :=
    match t with
    | TNode x ts => let '(g1, os) := fold_list fold_up g ts in f g1 os x
    end.

  Definition fold_all : G -> list (tree X) -> G * list O := fold_list fold_up.
End Folds.

Section BFolds.
  Context {G X O : Type}.
  Variable f : G -> option O * option O -> X -> G * O.

  Definition fold_side (fold : G -> btree X -> G * O) (g : G) (o : option (btree X)) : G * option O :=
    match o with None => (g, None) | Some t => let '(g1, r) := fold g t in (g1, Some r) end.

  Fixpoint bfold_up (g : G) (t : btree X) : G * O :=
    match t with
    | BNode x l r =>
        let '(g1, a) := fold_side bfold_up g l in
        let '(g2, b) := fold_side bfold_up g1 r in
        f g2 (a, b) x
    end.

  Definition bfold_all : G -> list (btree X) -> G * list O :=
    fix go (g : G) (ts : list (btree X)) : G * list O :=
      match ts with
      | [] => (g, [])
      | t :: ts' =>
          let '(g1, o) := bfold_up g t in
          let '(g2, os) := go g1 ts' in
          (g2, o :: os)
      end.
End BFolds.

(** ** Whole-tree operations with closures that have no state *)

(** Remove every subtree whose root satisfies [f] (given its path, which starts with [p]). *)
Fixpoint prune_at {A} (f : list nat -> A -> bool) (p : list nat) (t : tree A) : option (tree A) :=
  match t with
  | TNode v ts =>
      if f p v then None
      else Some (TNode v (concat (mapi (fun i c => opt_list (prune_at f (p ++ [i]) c)) 0 ts)))
  end.
Definition prune_tree {A} (f : A -> bool) (t : tree A) : option (tree A) := prune_at (fun _ => f) [] t.

Definition obind {A B} (o : option A) (f : A -> option B) : option B :=
  match o with Some a => f a | None => None end.

Fixpoint bprune_at {A} (f : list nat -> A -> bool) (p : list nat) (t : btree A) : option (btree A) :=
  match t with
  | BNode v l r =>
      if f p v then None
      else Some (BNode v (match l with Some c => bprune_at f (p ++ [0]) c | None => None end)
                         (match r with Some c => bprune_at f (p ++ [1]) c | None => None end))
  end.
Definition bprune_tree {A} (f : A -> bool) (t : btree A) : option (btree A) := bprune_at (fun _ => f) [] t.

(** Keep the nodes of depth at most [d]. *)
Fixpoint truncate {A} (d : nat) (t : tree A) : tree A :=
  match t with
  | TNode v ts => TNode v (match d with 0 => [] | S d' => map (truncate d') ts end)
  end.

Fixpoint btruncate {A} (d : nat) (t : btree A) : btree A :=
  match t with
  | BNode v l r =>
      match d with
      | 0 => BNode v None None
      | S d' => BNode v (option_map (btruncate d') l) (option_map (btruncate d') r)
      end
  end.

(** A closure with state run along a list. *)
Fixpoint map_accum {G A B} (f : G -> A -> G * B) (g : G) (l : list A) : G * list B :=
  match l with
  | [] => (g, [])
  | a :: l' => let '(g1, b) := f g a in let '(g2, bs) := map_accum f g1 l' in (g2, b :: bs)
  end.

(** The nodes on which a prune closure is run: those without a pruned strict ancestor, in preorder. *)
Fixpoint examined {A} (f : A -> bool) (t : tree A) : list A :=
  match t with TNode v ts => v :: (if f v then [] else flat_map (examined f) ts) end.

(** Chains of whole-tree operations, applied one after the other. *)
Inductive ops (V : Type) : Type -> Type :=
| o_start : ops V V
| o_map {A B : Type} (c : ops V A) (f : A -> B) : ops V B
| o_prune {A : Type} (c : ops V A) (f : A -> bool) : ops V A
| o_prune_path {A : Type} (c : ops V A) (f : list N -> A -> bool) : ops V A
| o_prune_depth {A : Type} (c : ops V A) (d : N) : ops V A.
Arguments o_start {V}.
Arguments o_map {V A B} c f.
Arguments o_prune {V A} c f.
Arguments o_prune_path {V A} c f.
Arguments o_prune_depth {V A} c d.

Fixpoint apply_ops {V A} (c : ops V A) (t : tree V) : option (tree A) :=
  match c in ops _ A return option (tree A) with
  | o_start => Some t
  | o_map c' f => option_map (tree_map f) (apply_ops c' t)
  | o_prune c' f => obind (apply_ops c' t) (prune_tree f)
  | o_prune_path c' f => obind (apply_ops c' t) (prune_at (fun p => f (map N.of_nat p)) [])
  | o_prune_depth c' d => option_map (truncate (N.to_nat d)) (apply_ops c' t)
  end.

Fixpoint bapply_ops {V A} (c : ops V A) (t : btree V) : option (btree A) :=
  match c in ops _ A return option (btree A) with
  | o_start => Some t
  | o_map c' f => option_map (btree_map f) (bapply_ops c' t)
  | o_prune c' f => obind (bapply_ops c' t) (bprune_tree f)
  | o_prune_path c' f => obind (bapply_ops c' t) (bprune_at (fun p => f (map N.of_nat p)) [])
  | o_prune_depth c' d => option_map (btruncate (N.to_nat d)) (bapply_ops c' t)
  end.

(** The pipeline with the same stages. *)
Fixpoint stages {V A} (c : ops V A) : chain V A :=
  match c in ops _ A return chain V A with
  | o_start => c_start
  | o_map c' f => c_map (stages c') tt (fun _ a => (tt, f a))
  | o_prune c' f => c_prune (stages c') tt (fun _ a => (tt, f a))
  | o_prune_path c' f => c_prune_path (stages c') tt (fun _ p a => (tt, f p a))
  | o_prune_depth c' d => c_prune_depth (stages c') d
  end.

(** What a chain does with a node given by its position; [val] reads the node's value. *)
Definition at_node {Nd V A} (val : Nd -> V) (c : chain V A) (gs : clos c) (x : pos Nd) : clos c * outcome A :=
  visit_node c gs (map N.of_nat (pos_path x)) (N.of_nat (length (pos_path x))) (val (pos_here x)).

(** Two trees of the same shape. *)
Definition same_shape {A B} (t : tree A) (u : tree B) : Prop := tree_map (fun _ => tt) t = tree_map (fun _ => tt) u.
Definition bsame_shape {A B} (t : btree A) (u : btree B) : Prop := btree_map (fun _ => tt) t = btree_map (fun _ => tt) u.
