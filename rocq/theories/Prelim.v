(** * Prelim: results, loops, convergence, and what "an iterator yields a list" means.

    Nothing in this file models a particular function of the crate; it fixes
    the way Rust control flow is represented. *)

From Coq Require Export List Arith Lia Bool NArith.
Export ListNotations.

(** ** Results of running Rust code

    - [Ok a]: returned normally;
    - [Panic]: a Rust panic ([unwrap] of [None], index out of range, [panic!],
      checked arithmetic overflow);
    - [UB]: undefined behaviour ([MaybeUninit::assume_init] of storage that was never
      written, a read through a dangling slice, or memory read or released after its release);
    - [OutOfFuel]: the loop did not finish within the given fuel. *)
Inductive Res (A : Type) : Type :=
| Ok (a : A)
| Panic
| UB
| OutOfFuel.
Arguments Ok {A} a.
Arguments Panic {A}.
Arguments UB {A}.
Arguments OutOfFuel {A}.

Definition bindR {A B : Type} (m : Res A) (f : A -> Res B) : Res B :=
  match m with
  | Ok a => f a
  | Panic => Panic
  | UB => UB
  | OutOfFuel => OutOfFuel
  end.

Declare Scope res_scope.
Delimit Scope res_scope with res.
Open Scope res_scope.

Notation "x <- m ;; k" := (bindR m (fun x => k))
  (at level 61, m at next level, right associativity) : res_scope.
Notation "' p <- m ;; k" := (bindR m (fun x => match x with p => k end))
  (at level 61, p pattern, m at next level, right associativity) : res_scope.

(** [unwrap] / [expect]. *)
Definition unwrap {A : Type} (o : option A) : Res A :=
  match o with Some a => Ok a | None => Panic end.

(** [MaybeUninit::assume_init]: undefined behaviour when never written. *)
Definition assume_init {A : Type} (o : option A) : Res A :=
  match o with Some a => Ok a | None => UB end.

(** A Rust [loop { .. }]: the body either continues with a new state ([inl])
    or breaks / returns with a result ([inr]).  The body may itself contain loops, so
    it also receives fuel. *)
Fixpoint loop {S R : Type} (body : nat -> S -> Res (S + R)) (fuel : nat) (s : S) : Res R :=
  match fuel with
  | O => OutOfFuel
  | Datatypes.S f =>
      match body f s with
      | Ok (inl s') => loop body f s'
      | Ok (inr r) => Ok r
      | Panic => Panic
      | UB => UB
      | OutOfFuel => OutOfFuel
      end
  end.

(** ** Convergence: the computation gives this result with all sufficiently large fuel *)
Definition converges {A : Type} (m : nat -> Res A) (r : Res A) : Prop :=
  exists F, forall fuel, F <= fuel -> m fuel = r.
Notation "m ⇓ r" := (converges m r) (at level 70, no associativity) : type_scope.

(** ** Calling an iterator repeatedly

    [next fuel s] is one call of [next()] on the iterator state [s]; it returns the
    item and the new state. *)
Section Calls.
  Context {S O : Type}.
  Variable next : nat -> S -> Res (O * S).

  (** The results of [k] successive calls. *)
  Fixpoint calls (k : nat) (s : S) (fuel : nat) : Res (list O * S) :=
    match k with
    | 0 => Ok ([], s)
    | Datatypes.S k' =>
        '(o, s1) <- next fuel s ;;
        '(os, s2) <- calls k' s1 fuel ;;
        Ok (o :: os, s2)
    end.
End Calls.

(** [yields next s l]: for every [k], [k] calls of [next()] starting from [s]
    terminate without panic or undefined behaviour, and the [i]-th call returns
    [Some x] where [x] is the [i]-th element of [l], or [None] when [l] has no such element. *)
Definition yields {S A : Type} (next : nat -> S -> Res (option A * S)) (s : S) (l : list A) : Prop :=
  forall k, exists s', calls next k s ⇓ Ok (map (nth_error l) (seq 0 k), s').

(** The state reached from [s] by exactly [k] calls of [next()] (whatever they return). *)
Definition after {S O : Type} (next : nat -> S -> Res (O * S)) (k : nat) (s s' : S) : Prop :=
  exists os, calls next k s ⇓ Ok (os, s').

(** ** usize arithmetic (64-bit target) *)
Definition usize_mod : N := (2 ^ 64)%N.
Definition usize_max : N := (2 ^ 64 - 1)%N.
(** [usize::wrapping_add(1)] *)
Definition wrapping_succ (n : N) : N := ((n + 1) mod usize_mod)%N.
(** [n += 1] with overflow checks on (the debug profile). *)
Definition checked_succ (n : N) : Res N :=
  if (n =? usize_max)%N then Panic else Ok (n + 1)%N.

Global Arguments usize_mod : simpl never.
Global Arguments usize_max : simpl never.
Global Arguments wrapping_succ : simpl never.
Global Arguments checked_succ : simpl never.
