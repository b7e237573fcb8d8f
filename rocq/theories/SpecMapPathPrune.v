(** * SpecMapPathPrune: what map_path hands to its closure behind an n-ary [prune] or [prune_path]. *)
From Coq Require Import List Arith NArith Bool.
Import ListNotations.
From Verif Require Import Spec SpecPipe SpecDrift.

(** A pointer to the path that was reported when it was taken.  [shown] is what it shows now, [taken] the buffer it points
    into; [buffer] is the buffer which the vector has now, [room] the capacity of that one. *)
Record pointer := mkPointer { shown : list N; taken : nat; room : nat; buffer : nat }.

(** It shows something, but its buffer was freed. *)
Definition dangling (p : pointer) : bool := (0 <? length (shown p)) && negb (taken p =? buffer p).

(** The buffer and its capacity after [k] elements were pushed onto a vector of length [len]: a full vector moves. *)
Fixpoint pushes (grow : nat -> nat) (k len : nat) (room buffer : nat) : nat * nat :=
  match k with
  | 0 => (room, buffer)
  | S k' => if len <? room then pushes grow k' (S len) room buffer else pushes grow k' (S len) (grow room) (S buffer)
  end.

(** The reported path changes from [v] to [d]: the buffer begins with [d], and what is behind it stays. *)
Definition pointer_after (grow : nat -> nat) (v d : list N) (p : pointer) : pointer :=
  let '(room', buffer') := pushes grow (length d - length v) (length v) (room p) (buffer p) in
  mkPointer (firstn (length (shown p)) (d ++ skipn (length d) (shown p))) (taken p) room' buffer'.

(** The pointer before the first node: the vector was made by pushing the elements of [path]. *)
Definition first_pointer (grow : nat -> nat) (path : list N) : pointer :=
  let '(room, buffer) := pushes grow (length path) 0 0 0 in mkPointer path buffer room buffer.

(** Stages [c1] (with a prune), [map_path(f)], stages [c2].  The state: the closures of [c1] with the paths they report, the
    pointer, the closures of [f] and of [c2], and whether freed memory was read.  [f] is given what the pointer shows, and the
    pointer is taken anew.  [visit] is what [c1] does at a node, [depth] the depth that belongs to a path. *)
Definition after_prunes_by {X V A B D G} (grow : nat -> nat) (c1 : chain V A) (visit : dclos c1 -> X -> dclos c1 * outcome A) (depth : list N -> nat)
    (f : G -> list N -> A -> G * B) (c2 : chain B D)
    (s : dclos c1 * pointer * G * dclos c2 * bool) (x : X) : dclos c1 * pointer * G * dclos c2 * bool * outcome D :=
  let '(gs1, p, g, gs2, freed) := s in
  let '(gs1', r) := visit gs1 x in
  let path := reported c1 gs1' [] in
  let p' := pointer_after grow (reported c1 gs1 []) path p in
  match r with
  | Drop => (gs1', p', g, gs2, freed, Drop)
  | Keep a down =>
      let '(g', b) := f g (shown p') a in
      let '(gs2', r2) := dvisit c2 gs2 path (N.of_nat (depth path)) b in
      (gs1', mkPointer path (buffer p') (room p') (buffer p'), g', gs2', freed || dangling p',
       match r2 with Drop => Drop | Keep d down' => Keep d (down && down') end)
  end.

(** One tree. *)
Definition after_prunes {Nd V A B D G} (grow : nat -> nat) (val : Nd -> V) (c1 : chain V A) (f : G -> list N -> A -> G * B) (c2 : chain B D) :=
  after_prunes_by grow c1 (at_node_exact val c1) (@length N) f c2.
Definition no_pointer : pointer := mkPointer [] 0 0 0.

(** A collection: paths begin with the index of the tree. *)
Definition after_prunes_each {Nd V A B D G} (grow : nat -> nat) (val : Nd -> V) (c1 : chain V A) (f : G -> list N -> A -> G * B) (c2 : chain B D) :=
  after_prunes_by grow c1 (at_node_each_exact val c1) (fun p => pred (length p)) f c2.
