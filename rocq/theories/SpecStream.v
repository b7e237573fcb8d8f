(** * Specification: collections of trees that are made while they are traversed

    A collection gives its trees through an iterator of the user's.  It may have no end, and may give more trees after it gave [None]. *)
From Verif Require Import Prelim Spec SpecObs.

Section Stream.
  Context {Src T : Type}.
  Variable poll : Src -> option T * Src.

  (** The first [m] answers of the collection's iterator. *)
  Fixpoint polls (m : nat) (c : Src) : list (option T) :=
    match m with
    | 0 => []
    | S m' => let '(o, c') := poll c in o :: polls m' c'
    end.

  (** The collection's iterator after [m] calls. *)
  Fixpoint polled (m : nat) (c : Src) : Src :=
    match m with
    | 0 => c
    | S m' => polled m' (snd (poll c))
    end.

  Context {A : Type}.
  (** What the tree that was given as answer number [i] is traversed to. *)
  Variable f : nat -> T -> list A.

  (** The answers of [next()]: for a tree its items, for a [None] of the collection a [None]. *)
  Definition stream (os : list (option T)) : list (option A) :=
    each (fun i o => match o with Some t => map Some (f i t) | None => [None] end) os.

  (** To give [k] answers it takes [j] answers of the collection, and no fewer. *)
  Definition takes (c : Src) (k j : nat) : Prop :=
    k <= length (stream (polls j c)) /\ forall i, i < j -> length (stream (polls i c)) < k.

  (** The first [k] calls of [next()] on an iterator that starts in [s0] give the items of the trees that [c] gives, and ask [c] only for
      the trees that are needed for that.  [asked] is what an iterator has been given by [c], last answer first. *)
  Definition goes_over {S} (next : nat -> S -> Res (option A * S)) (asked : S -> list (option T)) (c : Src) (s0 : S) (k : nat) : Prop :=
    exists s j, calls next k s0 ⇓ Ok (firstn k (stream (polls k c)), s) /\ rev (asked s) = polls j c /\ takes c k j.

  (** Pipelines give results made of whole trees.  [results l] is what a pipeline gives for a collection of just the trees [l].  When the trees [ts] come first, then up to
      the last but one of their results are given as soon as the tree of the result after it has been read, and no tree after that one is asked for.  When
      nothing comes after [ts], all is as for a list of trees. *)
  Definition reads_ahead {S O} (next : nat -> S -> Res (option O * S)) (asked : S -> list (option T)) (s0 : S) (c : Src) (results : list T -> list O) (ts : list T) : Prop :=
    (polls (length ts) c = map Some ts -> forall k, 0 < k < length (results ts) ->
       exists s j, calls next k s0 ⇓ Ok (map Some (firstn k (results ts)), s) /\ j <= length ts /\ rev (asked s) = map Some (firstn j ts) /\
         k < length (results (firstn j ts)) /\ forall i, i < j -> length (results (firstn i ts)) <= k) /\
    ((forall i, polls (length ts + i) c = map Some ts ++ repeat None i) -> yields next s0 (results ts)).
End Stream.
