(** * SpecUnwindTrees: what [trees()] over a collection should give when user code in the pipeline panics and the caller
    goes on calling [next()].

    Part of the specification.  [trees()] puts trees together from the results of a pipeline ([delivers] of
    SpecUnwindPipe says which these are): values, each with the position of its node, and panics. *)
From Verif Require Import Prelim Spec ModelUnwind SpecUnwind SpecPipe SpecUnwindPipe.

(** Depth of a node in its tree; the path in a collection starts with the index of the tree. *)
Definition depth_each {Nd} (x : pos Nd) : nat := pred (length (pos_path x)).

(** A tree is handed out when the next root has been read, or the end has come.  A panic loses what has been read of the
    tree so far ([acc]), and what is read after it counts as a new tree, up to the next root. *)
Fixpoint handed {A Nd} (acc : list (A * pos Nd)) (l : list (result A * pos Nd)) : list (result (list (A * pos Nd))) :=
  match l with
  | [] => match acc with [] => [] | _ => [Got acc] end
  | (Unwound, _) :: l' => Unwound :: handed [] l'
  | (Got a, x) :: l' =>
      match acc, depth_each x with
      | _ :: _, 0 => Got acc :: handed [(a, x)] l'
      | _, _ => handed (acc ++ [(a, x)]) l'
      end
  end.

(** The values of a tree in preorder, each with its depth.  A tree is determined by this list. *)
Fixpoint leveled {A} (d : nat) (t : tree A) : list (nat * A) :=
  match t with TNode v ts => (d, v) :: flat_map (leveled (S d)) ts end.

(** Where the nodes come to be whose parents may be missing: not deeper than in their own tree, and at most one below the node
    before. *)
Fixpoint settle {A} (room : nat) (l : list (nat * A)) : list (nat * A) :=
  match l with
  | [] => []
  | (d, a) :: l' => let e := Nat.min room d in (e, a) :: settle (S e) l'
  end.

Definition item_level {A Nd} (ax : A * pos Nd) : nat * A := (depth_each (snd ax), fst ax).

(** The tree made of the nodes in [g]. *)
Definition made_of {A Nd} (o : result (tree A)) (g : result (list (A * pos Nd))) : Prop :=
  match o, g with
  | Got t, Got g => leveled 0 t = settle 0 (map item_level g)
  | Unwound, Unwound => True
  | _, _ => False
  end.

(** The binary tree made of the nodes in [g]: a node goes to the side it has in its own tree; the last one that goes to a
    side of a node stays there. *)
Fixpoint sides {A} (t : tree (nat * A)) : btree A :=
  match t with
  | TNode (_, v) ts =>
      let side i := fold_left (fun o t => match t with TNode (j, _) _ => if j =? i then Some (sides t) else o end) ts None in
      BNode v (side 0) (side 1)
  end.
Definition item_side {A Nd} (ax : A * pos Nd) : nat * (nat * A) := (depth_each (snd ax), (last (pos_path (snd ax)) 0, fst ax)).
Definition bmade_of {A Nd} (o : result (btree A)) (g : result (list (A * pos Nd))) : Prop :=
  match o, g with
  | Got t, Got g => exists u, t = sides u /\ leveled 0 u = settle 0 (map item_side g)
  | Unwound, Unwound => True
  | _, _ => False
  end.

(** ** Trees without a panic *)
Definition all_some {A} (l : list (option A)) : option (list A) :=
  fold_right (fun o r => match o, r with Some a, Some l => Some (a :: l) | _, _ => None end) (Some []) l.
(** The tree of the values, if no node in it panics. *)
Fixpoint calm {A X} (t : tree (result A * X)) : option (tree A) :=
  match t with
  | TNode (Got a, _) ts => option_map (TNode a) (all_some (map calm ts))
  | TNode (Unwound, _) _ => None
  end.
Fixpoint bcalm {A X} (t : btree (result A * X)) : option (btree A) :=
  match t with
  | BNode (Got a, _) l r =>
      match match l with None => Some None | Some t => option_map Some (bcalm t) end,
            match r with None => Some None | Some t => option_map Some (bcalm t) end with
      | Some l, Some r => Some (BNode a l r)
      | _, _ => None
      end
  | BNode (Unwound, _) _ _ => None
  end.

(** The trees without a panic, except those before a tree whose root panics.  [calm t] is the tree of values of [t] if no node in it
    panics, [root t] what is read at its root. *)
Fixpoint spared {T U A} (calm : T -> option U) (root : T -> result A) (ts : list T) : list U :=
  match ts with
  | [] => []
  | t :: ts' =>
      match calm t, ts' with
      | None, _ => spared calm root ts'
      | Some u, t' :: _ => match root t' with Got _ => u :: spared calm root ts' | Unwound => spared calm root ts' end
      | Some u, [] => [u]
      end
  end.
Definition root_of {A X} (t : tree (result A * X)) : result A := match t with TNode (r, _) _ => r end.
Definition broot_of {A X} (t : btree (result A * X)) : result A := match t with BNode (r, _) _ _ => r end.

(** [l1] is [l2] with some elements left out. *)
Inductive sublist {A} : list A -> list A -> Prop :=
| sub_nil : sublist [] []
| sub_skip x l1 l2 : sublist l1 l2 -> sublist l1 (x :: l2)
| sub_take x l1 l2 : sublist l1 l2 -> sublist (x :: l1) (x :: l2).

(** ** Folds: a tree folded bottom up *)
Fixpoint fold_value {A O} (h : list O -> A -> O) (t : tree A) : O :=
  match t with TNode v ts => h (map (fold_value h) ts) v end.
Fixpoint bfold_value {A O} (h : option O * option O -> A -> O) (t : btree A) : O :=
  match t with BNode v l r => h (option_map (bfold_value h) l, option_map (bfold_value h) r) v end.

(** The tree made of the nodes in [g], each with the last segment of its path. *)
Definition labelled {A Nd} (o : result (tree (nat * A))) (g : result (list (A * pos Nd))) : Prop :=
  match o, g with
  | Got u, Got g => leveled 0 u = settle 0 (map item_side g)
  | Unwound, Unwound => True
  | _, _ => False
  end.
(** Folded bottom up; [h] gets the segments of the nodes from the root down ([p]: those above the tree). *)
Fixpoint fold_path_value {A O} (h : list O -> list N -> A -> O) (p : list N) (t : tree (nat * A)) : O :=
  match t with TNode (i, v) ts => let q := p ++ [N.of_nat i] in h (map (fold_path_value h q) ts) q v end.
(** Binary: [p] is the path of the root. *)
Fixpoint bfold_path_value {A O} (h : option O * option O -> list N -> A -> O) (p : list N) (t : btree A) : O :=
  match t with
  | BNode v l r => h (option_map (bfold_path_value h (p ++ [0%N])) l, option_map (bfold_path_value h (p ++ [1%N])) r) p v
  end.
Definition label {A} (u : tree (nat * A)) : nat := match u with TNode (i, _) _ => i end.

(** The tree of the values with their positions, if no node in it panics, and its fold with the paths of the nodes. *)
Fixpoint calm_at {A X} (t : tree (result A * X)) : option (tree (A * X)) :=
  match t with
  | TNode (Got a, x) ts => option_map (TNode (a, x)) (all_some (map calm_at ts))
  | TNode (Unwound, _) _ => None
  end.
Fixpoint fold_at {A Nd O} (h : list O -> list N -> A -> O) (t : tree (A * pos Nd)) : O :=
  match t with TNode (a, x) ts => h (map (fold_at h) ts) (map N.of_nat (pos_path x)) a end.
Fixpoint bcalm_at {A X} (t : btree (result A * X)) : option (btree (A * X)) :=
  match t with
  | BNode (Got a, x) l r =>
      match match l with None => Some None | Some t => option_map Some (bcalm_at t) end,
            match r with None => Some None | Some t => option_map Some (bcalm_at t) end with
      | Some l, Some r => Some (BNode (a, x) l r)
      | _, _ => None
      end
  | BNode (Unwound, _) _ _ => None
  end.
Fixpoint bfold_at {A Nd O} (h : option O * option O -> list N -> A -> O) (t : btree (A * pos Nd)) : O :=
  match t with
  | BNode (a, x) l r => h (option_map (bfold_at h) l, option_map (bfold_at h) r) (map N.of_nat (pos_path x)) a
  end.
