(** * SpecEdit: what a traversal should be when the caller replaces the children of the current node as it goes.

    The caller's work is described by its result, a tree [t] of nodes: the label of every node of [t] is the
    node met there, and its children are those which the caller has left in the context. *)
From Verif Require Import Prelim Spec ModelNode SpecObs.

(** A position in [subtrees t] as a position in [t] (the labels are the roots). *)
Definition node_at {Nd} (x : pos (tree Nd)) : pos Nd :=
  mkPos (pos_path x) (map root (pos_above x)) (root (pos_here x)).
Definition bnode_at {Nd} (x : pos (btree Nd)) : pos Nd :=
  mkPos (pos_path x) (map broot (pos_above x)) (broot (pos_here x)).

(** What [t] says that the children there are to be: n-ary and binary. *)
Definition kids_in {Nd} (x : pos (tree Nd)) : list Nd := map root (subs (pos_here x)).
Definition bkids_in {Nd} (x : pos (btree Nd)) : option Nd * option Nd :=
  (option_map broot (bleft (pos_here x)), option_map broot (bright (pos_here x))).

Section Edits.
  Context {G X P C : Type}.
  (** The caller, with state [G]: shown a context, it says what to write to [*context.children_mut()]. *)
  Variable edit : G -> X -> G * C.
  Variable seen : P -> X.
  Variable kids : P -> C.

  (** Shown the contexts of the positions [xs] one after the other, starting in state [g], the caller writes at each
      one the children [kids], and is in state [g'] in the end. *)
  Inductive edits_into : G -> list P -> G -> Prop :=
  | edits_nil g : edits_into g [] g
  | edits_cons g x xs g1 g' : edit g (seen x) = (g1, kids x) -> edits_into g1 xs g' -> edits_into g (x :: xs) g'.
End Edits.

(** The children counts of the edited tree fit in a [usize]. *)
Definition small_tree {A} (t : tree A) : Prop :=
  Forall (fun m => (N.of_nat (length (subs m)) <= usize_max)%N) (preorder (subtrees t)).

(** Calls up to the first [None]: [l] is what they give, and the caller's part of the state is [g] then, and stays so. *)
Definition yields_leaving {S G A : Type} (next : nat -> S * G -> Res (option A * (S * G))) (s : S * G) (l : list A) (g : G) : Prop :=
  yields next s l /\
  forall k os s', length l <= k -> calls next k s ⇓ Ok (os, s') -> snd s' = g.
