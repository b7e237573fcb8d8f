(** * SpecUnwindPipe: what a pipeline should give when user code in it panics, the caller catches the panics and goes on
    calling [next()].

    Part of the specification.  A closure that gives [None] panics; what it changed in its own state before is kept.  The
    same for the node's method: [o = Unwound] in [uvisit_node] says that [get_value_and_children] panics on the
    node. *)
From Verif Require Import Prelim Spec ModelUnwind SpecUnwind SpecPipe.

(** An item, or the panic which a call of [next()] ended with. *)
Notation result := ModelUnwind.outcome.

(** ** Programs: chains of stages whose closures may panic *)
Inductive uchain (V : Type) : Type -> Type :=
| u_start : uchain V V
| u_map {A B G : Type} (c : uchain V A) (g : G) (f : G -> A -> G * option B) : uchain V B
| u_prune {A G : Type} (c : uchain V A) (g : G) (f : G -> A -> G * option bool) : uchain V A
| u_prune_path {A G : Type} (c : uchain V A) (g : G) (f : G -> list N -> A -> G * option bool) : uchain V A
| u_prune_depth {A : Type} (c : uchain V A) (d : N) : uchain V A.
Arguments u_start {V}.
Arguments u_map {V A B G} c g f.
Arguments u_prune {V A G} c g f.
Arguments u_prune_path {V A G} c g f.
Arguments u_prune_depth {V A} c d.

(** The states of the closures of a chain, together. *)
Fixpoint uclos {V A : Type} (c : uchain V A) : Type :=
  match c with
  | u_start => unit
  | @u_map _ _ _ G c' _ _ => uclos c' * G
  | @u_prune _ _ G c' _ _ => uclos c' * G
  | @u_prune_path _ _ G c' _ _ => uclos c' * G
  | u_prune_depth c' _ => uclos c'
  end.

Fixpoint uclos_init {V A : Type} (c : uchain V A) : uclos c :=
  match c with
  | u_start => tt
  | u_map c' g _ => (uclos_init c', g)
  | u_prune c' g _ => (uclos_init c', g)
  | u_prune_path c' g _ => (uclos_init c', g)
  | u_prune_depth c' _ => uclos_init c'
  end.

(** Does the chain contain a prune (by value or by path)? *)
Fixpoint uhas_prune {V A} (c : uchain V A) : bool :=
  match c with
  | u_start => false
  | u_map c' _ _ => uhas_prune c'
  | u_prune _ _ _ => true
  | u_prune_path _ _ _ => true
  | u_prune_depth c' _ => uhas_prune c'
  end.

(** No prune_path after another prune. *)
Fixpoint utrue_paths {V A} (c : uchain V A) : bool :=
  match c with
  | u_start => true
  | u_map c' _ _ => utrue_paths c'
  | u_prune c' _ _ => utrue_paths c'
  | u_prune_path c' _ _ => utrue_paths c' && negb (uhas_prune c')
  | u_prune_depth c' _ => utrue_paths c'
  end.

(** What a chain does with a node.  The stages are run in order as long as none panics; after a panic the later ones
    do nothing at all, and the node's children (if it has been possible to get them) are still visited: the panic cuts off
    nothing. *)
Fixpoint uvisit_node {V A : Type} (c : uchain V A) : uclos c -> list N -> N -> result V -> uclos c * outcome (result A) :=
  match c in uchain _ A return uclos c -> list N -> N -> result V -> uclos c * outcome (result A) with
  | u_start => fun g _ _ o => (g, Keep o true)
  | u_map c' _ f => fun gs p d o =>
      let '(gs1, r) := uvisit_node c' (fst gs) p d o in
      match r with
      | Drop => ((gs1, snd gs), Drop)
      | Keep Unwound down => ((gs1, snd gs), Keep Unwound down)
      | Keep (Got a) down =>
          match f (snd gs) a with
          | (g1, Some b) => ((gs1, g1), Keep (Got b) down)
          | (g1, None) => ((gs1, g1), Keep Unwound down)
          end
      end
  | u_prune c' _ f => fun gs p d o =>
      let '(gs1, r) := uvisit_node c' (fst gs) p d o in
      match r with
      | Drop => ((gs1, snd gs), Drop)
      | Keep Unwound down => ((gs1, snd gs), Keep Unwound down)
      | Keep (Got a) down =>
          match f (snd gs) a with
          | (g1, Some true) => ((gs1, g1), Drop)
          | (g1, Some false) => ((gs1, g1), Keep (Got a) down)
          | (g1, None) => ((gs1, g1), Keep Unwound down)
          end
      end
  | u_prune_path c' _ f => fun gs p d o =>
      let '(gs1, r) := uvisit_node c' (fst gs) p d o in
      match r with
      | Drop => ((gs1, snd gs), Drop)
      | Keep Unwound down => ((gs1, snd gs), Keep Unwound down)
      | Keep (Got a) down =>
          match f (snd gs) p a with
          | (g1, Some true) => ((gs1, g1), Drop)
          | (g1, Some false) => ((gs1, g1), Keep (Got a) down)
          | (g1, None) => ((gs1, g1), Keep Unwound down)
          end
      end
  | u_prune_depth c' lim => fun gs p d o =>
      let '(gs1, r) := uvisit_node c' gs p d o in
      match r with
      | Drop => (gs1, Drop)
      | Keep Unwound down => (gs1, Keep Unwound down)
      | Keep (Got a) down => (gs1, Keep (Got a) (down && negb (d =? lim)%N))
      end
  end.

(** A chain at a position of the tree. *)
Definition uat_node {Nd V A} (val : Nd -> result V) (c : uchain V A) (gs : uclos c) (x : pos Nd) : uclos c * outcome (result A) :=
  uvisit_node c gs (map N.of_nat (pos_path x)) (N.of_nat (length (pos_path x))) (val (pos_here x)).

(** The same in a collection of trees: the path starts with the tree's index, the depth does not count it. *)
Definition uat_node_each {Nd V A} (val : Nd -> result V) (c : uchain V A) (gs : uclos c) (x : pos Nd) : uclos c * outcome (result A) :=
  uvisit_node c gs (map N.of_nat (pos_path x)) (N.of_nat (pred (length (pos_path x)))) (val (pos_here x)).

(** ** What the caller sees *)

(** Each call of [next()] gives the next result of [l] (then [None] for ever), and after a call that gave the result
    of [l] with the node at [x], [current_path()] is as [pok] says.  [g] is what the closures' states are in the end, and stay. *)
Definition delivers {S A X G : Type} (next : nat -> S -> Res (option A * S)) (path : S -> list N) (states : S -> G) (s : S)
    (pok : list N -> A * X -> Prop) (l : list (A * X)) (g : G) : Prop :=
  forall k, exists s', calls next k s ⇓ Ok (map (nth_error (map fst l)) (seq 0 k), s') /\
    (forall i x, k = Datatypes.S i -> nth_error l i = Some x -> pok (path s') x) /\
    (length l < k -> states s' = g).

(** The path of the node. *)
Definition true_path {Nd A} (p : list N) (bx : A * pos Nd) : Prop := p = map N.of_nat (pos_path (snd bx)).
(** A list as long as it, after a call that did not panic. *)
Definition path_length {Nd A} (p : list N) (bx : result A * pos Nd) : Prop :=
  match fst bx with Got _ => length p = length (pos_path (snd bx)) | Unwound => True end.

(** A chain whose closures do not panic, seen as one whose closures may. *)
Fixpoint sure {V A : Type} (c : chain V A) : uchain V A :=
  match c in chain _ A return uchain V A with
  | c_start => u_start
  | c_map c' g f => u_map (sure c') g (fun g a => let '(g1, b) := f g a in (g1, Some b))
  | c_prune c' g f => u_prune (sure c') g (fun g a => let '(g1, b) := f g a in (g1, Some b))
  | c_prune_path c' g f => u_prune_path (sure c') g (fun g p a => let '(g1, b) := f g p a in (g1, Some b))
  | c_prune_depth c' d => u_prune_depth (sure c') d
  end.
