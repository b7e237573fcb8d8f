(** * SpecDrift: the paths which the n-ary [prune] and [prune_path] stages report to later stages.

    These are not the paths of the nodes (properties C38, C40).  This file says what they are. *)
From Coq Require Import List Arith NArith Bool.
Import ListNotations.
From Verif Require Import Spec SpecPipe.

(** The last component, plus one. *)
Fixpoint bump_last (v : list N) : list N :=
  match v with
  | [] => []
  | [x] => [(x + 1)%N]
  | x :: v' => x :: bump_last v'
  end.

(** The path reported for a node whose path has length [d], if the node which the stage received before it was
    reported with [v]: a deeper node gets a zero appended; a node of the same depth gets the same path again; for a
    shallower node the path is cut to that depth and its last component goes up by one. *)
Definition drift (d : nat) (v : list N) : list N :=
  if length v <? d then v ++ repeat 0%N (d - length v)
  else if d <? length v then bump_last (firstn d v)
  else v.

(** The states of the closures, each prune stage also with the path it reported last. *)
Fixpoint dclos {V A : Type} (c : chain V A) : Type :=
  match c with
  | c_start => unit
  | @c_map _ _ _ G c' _ _ => dclos c' * G
  | @c_prune _ _ G c' _ _ => dclos c' * (G * list N)
  | @c_prune_path _ _ G c' _ _ => dclos c' * (G * list N)
  | c_prune_depth c' _ => dclos c'
  end.

(** At the start the reported paths are empty ([start] for [prune_path], which matters for collections). *)
Fixpoint dclos_init (start : list N) {V A : Type} (c : chain V A) : dclos c :=
  match c with
  | c_start => tt
  | c_map c' g _ => (dclos_init start c', g)
  | c_prune c' g _ => (dclos_init start c', (g, []))
  | c_prune_path c' g _ => (dclos_init start c', (g, start))
  | c_prune_depth c' _ => dclos_init start c'
  end.

(** Without the paths. *)
Fixpoint dforget {V A : Type} (c : chain V A) : dclos c -> clos c :=
  match c in chain _ A return dclos c -> clos c with
  | c_start => fun _ => tt
  | c_map c' g f => fun s => (dforget c' (fst s), snd s)
  | c_prune c' g f => fun s => (dforget c' (fst s), fst (snd s))
  | c_prune_path c' g f => fun s => (dforget c' (fst s), fst (snd s))
  | c_prune_depth c' d => fun s => dforget c' s
  end.

(** The path which the end of the chain reports for the current node; [p] is the node's path. *)
Fixpoint reported {V A : Type} (c : chain V A) : dclos c -> list N -> list N :=
  match c in chain _ A return dclos c -> list N -> list N with
  | c_start => fun _ p => p
  | c_map c' g f => fun s p => reported c' (fst s) p
  | c_prune c' g f => fun s _ => snd (snd s)
  | c_prune_path c' g f => fun s _ => snd (snd s)
  | c_prune_depth c' d => fun s p => reported c' s p
  end.

(** [visit_node] of SpecPipe.v, but the closure of [prune_path] is given the path which the stages before it report. *)
Fixpoint dvisit {V A : Type} (c : chain V A) : dclos c -> list N -> N -> V -> dclos c * outcome A :=
  match c in chain _ A return dclos c -> list N -> N -> V -> dclos c * outcome A with
  | c_start => fun g _ _ v => (g, Keep v true)
  | c_map c' _ f => fun gs p d v =>
      let '(gs1, r) := dvisit c' (fst gs) p d v in
      match r with
      | Drop => ((gs1, snd gs), Drop)
      | Keep a down => let '(g1, b) := f (snd gs) a in ((gs1, g1), Keep b down)
      end
  | c_prune c' _ f => fun gs p d v =>
      let '(gs1, r) := dvisit c' (fst gs) p d v in
      match r with
      | Drop => ((gs1, snd gs), Drop)
      | Keep a down =>
          let '(g1, b) := f (fst (snd gs)) a in
          ((gs1, (g1, drift (length p) (snd (snd gs)))), if b then Drop else Keep a down)
      end
  | c_prune_path c' _ f => fun gs p d v =>
      let '(gs1, r) := dvisit c' (fst gs) p d v in
      match r with
      | Drop => ((gs1, snd gs), Drop)
      | Keep a down =>
          let '(g1, b) := f (fst (snd gs)) (reported c' gs1 p) a in
          ((gs1, (g1, drift (length p) (snd (snd gs)))), if b then Drop else Keep a down)
      end
  | c_prune_depth c' lim => fun gs p d v =>
      let '(gs1, r) := dvisit c' gs p d v in
      match r with
      | Drop => (gs1, Drop)
      | Keep a down => (gs1, Keep a (down && negb (d =? lim)%N))
      end
  end.

(** What a chain does with a node given by its position in a tree. *)
Definition at_node_exact {Nd V A} (val : Nd -> V) (c : chain V A) (gs : dclos c) (x : pos Nd) : dclos c * outcome A :=
  dvisit c gs (map N.of_nat (pos_path x)) (N.of_nat (length (pos_path x))) (val (pos_here x)).

(** The same, with the reported path next to the value. *)
Definition at_node_reported {Nd V A} (val : Nd -> V) (c : chain V A) (gs : dclos c) (x : pos Nd) : dclos c * outcome (A * list N) :=
  match at_node_exact val c gs x with
  | (gs', Drop) => (gs', Drop)
  | (gs', Keep a down) => (gs', Keep (a, reported c gs' (map N.of_nat (pos_path x))) down)
  end.

(** ** Reading it off the tree

    [prune_path f] and then [prune_path g], without state: [f] is given the node's path [p]; [g] is given [q], in which a
    child's index is the number of its earlier siblings which both stages keep and which have children. *)
Section TwoPrunes.
  Context {A : Type}.
  Variables f g : list nat -> A -> bool.

  (** [rec] for the children: [i] is the child's index, [c] its index as it is reported. *)
  Definition two_prunes_kids {B} (rec : list nat -> list nat -> tree A -> option B) (p q : list nat) : nat -> nat -> list (tree A) -> list B :=
    fix go (i c : nat) (ts : list (tree A)) : list B :=
      match ts with
      | [] => []
      | t :: ts' =>
          match rec (p ++ [i]) (q ++ [c]) t with
          | None => go (S i) c ts'
          | Some b => b :: go (S i) (match subs t with [] => c | _ :: _ => S c end) ts'
          end
      end.

  Fixpoint two_prunes (p q : list nat) (t : tree A) : option (tree (A * list nat)) :=
    match t with
    | TNode v ts =>
        if f p v then None
        else if g q v then None
        else Some (TNode (v, q) (two_prunes_kids two_prunes p q 0 0 ts))
    end.
End TwoPrunes.

(** The same on a collection: the depth of a root is 0 although its path has one element. *)
Definition at_node_each_exact {Nd V A} (val : Nd -> V) (c : chain V A) (gs : dclos c) (x : pos Nd) : dclos c * outcome A :=
  dvisit c gs (map N.of_nat (pos_path x)) (N.of_nat (pred (length (pos_path x)))) (val (pos_here x)).
Definition at_node_each_reported {Nd V A} (val : Nd -> V) (c : chain V A) (gs : dclos c) (x : pos Nd) : dclos c * outcome (A * list N) :=
  match at_node_each_exact val c gs x with
  | (gs', Drop) => (gs', Drop)
  | (gs', Keep a down) => (gs', Keep (a, reported c gs' (map N.of_nat (pos_path x))) down)
  end.
(** A fold closure that is given paths, on values paired with their reported paths. *)
Definition given_path {G O A K} (f : G -> K -> list N -> A -> G * O) (g : G) (kids : K) (ap : A * list N) : G * O :=
  f g kids (snd ap) (fst ap).

(** When the reported paths are right: in every subtree that is kept, all kept children but the last have children. *)
Inductive kept_sub {A} (f : A -> bool) : tree A -> tree A -> Prop :=
| kept_root t : f (root t) = false -> kept_sub f t t
| kept_below t u s : f (root t) = false -> In u (subs t) -> kept_sub f u s -> kept_sub f t s.
Definition kept_kids {A} (f : A -> bool) (t : tree A) : list (tree A) := filter (fun u => negb (f (root u))) (subs t).
Definition no_early_leaf {A} (f : A -> bool) (t : tree A) : Prop :=
  forall s, kept_sub f t s -> Forall (fun u => subs u <> []) (removelast (kept_kids f s)).
