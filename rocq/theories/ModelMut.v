(** * ModelMut: writing through the references that the [_mut] iterators give, and [cloned()].

    The [_mut] iterators are the iterators of ModelBfs.v, ModelPre.v, ModelPost.v, ModelIn.v, ModelColl.v: the macros of
    the crate are shared by the owned, borrowed and mut versions.  What is added here is memory: the values they give
    are references into the tree that is borrowed. *)
From Verif Require Import Prelim Spec ModelNode ModelPipe.

(** ** Places

    While a [Tree<T>] is mutably borrowed, the reference [&mut node.value] is identified by where the node is: its path.
    The tree itself is the memory. *)
Notation place := (list nat).

(** A [&mut Tree<T>]: [get_value_and_children_iter_mut], prelude.rs 3501-3505, gives [&mut self.value] and the
    children's references; [tree_gvc] of this tree gives exactly that. *)
Definition tree_refs {A} (t : tree A) : tree place := tree_map pos_path (positions t).
(** A [&mut BinaryTree<T>]: [get_value_and_children_binary_iter_mut], prelude.rs 3543-3559. *)
Definition btree_refs {A} (t : btree A) : btree place := btree_map pos_path (bpositions t).
(** The items of a collection of [&mut] trees. *)
Definition trees_refs {A} (trees : list (tree A)) : list (tree place) :=
  mapi (fun i t => tree_map (cons i) (tree_refs t)) 0 trees.
Definition btrees_refs {A} (trees : list (btree A)) : list (btree place) :=
  mapi (fun i t => btree_map (cons i) (btree_refs t)) 0 trees.

(** [*r] (reading). *)
Definition tree_read {A} (t : tree A) (p : place) : option A := option_map root (subtree_at t p).
Definition btree_read {A} (t : btree A) (p : place) : option A := option_map broot (bsubtree_at t p).
Definition trees_read {A} (ts : list (tree A)) (p : place) : option A :=
  match p with [] => None | i :: q => match nth_error ts i with Some t => tree_read t q | None => None end end.
Definition btrees_read {A} (ts : list (btree A)) (p : place) : option A :=
  match p with [] => None | i :: q => match nth_error ts i with Some t => btree_read t q | None => None end end.

(** Replace item [i] of a list. *)
Fixpoint update_nth {A} (i : nat) (f : A -> A) (l : list A) : list A :=
  match l, i with
  | [], _ => []
  | x :: l', 0 => f x :: l'
  | x :: l', S i' => x :: update_nth i' f l'
  end.

(** [*r = a]. *)
Fixpoint tree_write {A} (t : tree A) (p : place) (a : A) : tree A :=
  match p with
  | [] => TNode a (subs t)
  | i :: q => TNode (root t) (update_nth i (fun c => tree_write c q a) (subs t))
  end.
Fixpoint btree_write {A} (t : btree A) (p : place) (a : A) : btree A :=
  match p with
  | [] => BNode a (bleft t) (bright t)
  | 0 :: q => BNode (broot t) (option_map (fun c => btree_write c q a) (bleft t)) (bright t)
  | 1 :: q => BNode (broot t) (bleft t) (option_map (fun c => btree_write c q a) (bright t))
  | _ => t
  end.
Definition trees_write {A} (ts : list (tree A)) (p : place) (a : A) : list (tree A) :=
  match p with [] => ts | i :: q => update_nth i (fun t => tree_write t q a) ts end.
Definition btrees_write {A} (ts : list (btree A)) (p : place) (a : A) : list (btree A) :=
  match p with [] => ts | i :: q => update_nth i (fun t => btree_write t q a) ts end.

(** ** A user's loop [while let Some(r) = iter.next() { *r = f( *r) }] (as in [iter.for_each(|r| *r = f( *r))]).
    [f] may have state [G].  A read through a reference to nothing would be undefined behaviour. *)
Section ForEach.
  Context {R M A G S : Type}.
  Variable next : nat -> S -> Res (option R * S).
  Variable read : M -> R -> option A.
  Variable write : M -> R -> A -> M.
  Variable f : G -> A -> G * A.

  Definition for_each_body (fuel : nat) (x : S * G * M) : Res (S * G * M + G * M) :=
    let '(s, g, m) := x in
    '(o, s1) <- next fuel s ;;
    match o with
    | None => Ok (inr (g, m))
    | Some r =>
        a <- assume_init (read m r) ;;
        let '(g1, a1) := f g a in
        Ok (inl (s1, g1, write m r a1))
    end.

  Definition for_each_mut (s : S) (g : G) (m : M) (fuel : nat) : Res (G * M) :=
    loop for_each_body fuel (s, g, m).

  (** The same with the items of [attach_ancestors()]: slices of references (root first), [next] being
      [advance()] followed by [get_mut()]; the user's closure runs on each of them in turn. *)
  Fixpoint write_all (rs : list R) (g : G) (m : M) : Res (G * M) :=
    match rs with
    | [] => Ok (g, m)
    | r :: rs' =>
        a <- assume_init (read m r) ;;
        let '(g1, a1) := f g a in write_all rs' g1 (write m r a1)
    end.
End ForEach.

Definition for_each_slice_body {R M A G S : Type} (next : nat -> S -> Res (option (list R) * S)) (read : M -> R -> option A)
    (write : M -> R -> A -> M) (f : G -> A -> G * A) (fuel : nat) (x : S * G * M) : Res (S * G * M + G * M) :=
  let '(s, g, m) := x in
  '(o, s1) <- next fuel s ;;
  match o with
  | None => Ok (inr (g, m))
  | Some rs => '(g1, m1) <- write_all read write f rs g m ;; Ok (inl (s1, g1, m1))
  end.
Definition for_each_slice {R M A G S : Type} (next : nat -> S -> Res (option (list R) * S)) (read : M -> R -> option A)
    (write : M -> R -> A -> M) (f : G -> A -> G * A) (s : S) (g : G) (m : M) (fuel : nat) : Res (G * M) :=
  loop (for_each_slice_body next read write f) fuel (s, g, m).

(** ** [cloned()]

    [Tree<&T>::cloned] prelude.rs 138-146, [Tree<&mut T>::cloned] 148-156: [self.map_ref(|item| ( *item).clone())].
    The values of the tree are references ([R]), [deref] is what they point to, [clone] the target's [Clone]
    implementation (with state: a user's [clone] may count, or share).  [tree_gvc] is the [BorrowedTreeNode]
    implementation used by [map_ref], 3411-3416. *)
Definition cloned {R T G} (deref : R -> T) (clone : G -> T -> G * T) (g : G) (t : tree R) (fuel : nat) :=
  op_map tree_gvc (fun g item => clone g (deref item)) g t fuel.
(** [BinaryTree<&T>::cloned] 105-113, [BinaryTree<&mut T>::cloned] 115-123. *)
Definition cloned_binary {R T G} (deref : R -> T) (clone : G -> T -> G * T) (g : G) (t : btree R) (fuel : nat) :=
  bop_map btree_gvcb (fun g item => clone g (deref item)) g t fuel.
