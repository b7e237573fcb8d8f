(** * ModelUnwindColl: the collection iterators when [get_value_and_children] panics and the caller catches the panic.

    The plain collection iterators, collection_iterators.rs 32-48 (448-462, 672-686), need no new definition: [coll_next] of ModelColl.v run on an inner
    [next] whose items are [outcome]s.  The panic goes through [iter.next()], line 35, and [tree_traversal_iterator] keeps the
    inner iterator, as it does when an item is returned.  [$inner_iterator::new(item)], line 44, does not call the method. *)
From Verif Require Import Prelim Spec ModelNode ModelBfs ModelPre ModelPost ModelIn ModelColl ModelUnwind ModelUnwindCtx.

Section UCollContext.
  Context {T S A : Type}.
  (** [new(item, path)]: [None] when it panics.  Only the breadth-first one calls the method. *)
  Variable new : T -> list N -> option S.
  Variable next : nat -> S -> Res (option (outcome A) * S).
  Variable get : S -> option A.

  (** 102-119: the tree is taken from the collection and counted before [new] is called; when that panics, the assignment to
      [tree_traversal_iterator] does not happen and the iterator of the tree before stays. *)
  Definition ucollc_next_tree (s : collc T S) : collc T S + ran (collc T S) :=
    let index := wrapping_succ (cc_index s) in
    match cc_trees s with
    | [] => inr (Done (mkCollc [] index None))
    | t :: rest =>
        match new t [index] with
        | Some it => inl (mkCollc rest index (Some it))
        | None => inr (Raised (mkCollc rest index (cc_cur s)))
        end
    end.

  (** The loop of [advance], 94-121 (509-536, 601-628, 733-760, 813-840). *)
  Definition ucollc_body (fuel : nat) (s : collc T S) : Res (collc T S + ran (collc T S)) :=
    match cc_cur s with
    | Some iter =>
        '(o, iter') <- next fuel iter ;;
        let s' := mkCollc (cc_trees s) (cc_index s) (Some iter') in
        match o with
        | Some (Got _) => Ok (inr (Done s'))
        | Some Unwound => Ok (inr (Raised s'))
        | None => Ok (ucollc_next_tree s')
        end
    | None => Ok (ucollc_next_tree s)
    end.
  Definition ucollc_next (fuel : nat) (s : collc T S) : Res (option (outcome A) * collc T S) :=
    r <- loop ucollc_body fuel s ;; Ok (observe (collc_get get) r).
End UCollContext.

(** The plain iterators over collections. *)
Definition ubfs_each_next {Nd V} (gvc : Nd -> option (V * list Nd)) := coll_next bfs_new (ubfs_next gvc).
Definition upre_each_next {Nd V} (gvc : Nd -> option (V * list Nd)) := coll_next pre_new (upre_next gvc).
Definition upost_each_next {Nd V} (gvc : Nd -> option (V * list Nd)) := coll_next post_new (upost_next gvc).
Definition uin_each_next {Nd V} (gvcb : Nd -> option (V * (option Nd * option Nd))) := coll_next (@in_new Nd V) (uin_next gvcb).

(** The iterators with context over collections: breadth first, preorder, postorder and inorder. *)
Definition ubfsc_each_next {Nd V} (gvc : Nd -> option (V * list Nd)) := ucollc_next (ubfsc_start gvc) (ubfsc_next gvc) bfsc_get.
Definition uprec_each_next {Nd V} (gvc : Nd -> option (V * list Nd)) := ucollc_next (fun n p => Some (prec_new n p)) (uprec_next gvc) prec_get.
Definition upostc_each_next {Nd V} (gvc : Nd -> option (V * list Nd)) := ucollc_next (fun n p => Some (postc_new n p)) (upostc_next gvc) postc_get.
Definition uinc_each_next {Nd V} (gvcb : Nd -> option (V * (option Nd * option Nd))) := ucollc_next (fun n p => Some (inc_new n p)) (uinc_next gvcb) inc_get.

(** Over collections of binary trees, and the owned ones without children (collection_iterators.rs 237-326, 560-638 and from 772 for
    binary trees, 145-235 and 328-414 without children: the same code with the iterators of ModelUnwindCtx.v inside). *)
Definition ubfscb_each_next {Nd V} (gvcb : Nd -> option (V * (option Nd * option Nd))) := ucollc_next (ubfscb_start gvcb) (ubfscb_next gvcb) bfsc_get.
Definition uprecb_each_next {Nd V} (gvcb : Nd -> option (V * (option Nd * option Nd))) := ucollc_next (fun n p => Some (prec_new n p)) (uprecb_next gvcb) prec_get.
Definition upostcb_each_next {Nd V} (gvcb : Nd -> option (V * (option Nd * option Nd))) := ucollc_next (fun n p => Some (postc_new n p)) (upostcb_next gvcb) postc_get.
Definition upostco_each_next {Nd V} (gvc : Nd -> option (V * list Nd)) := ucollc_next (fun n p => Some (postco_new n p)) (upostco_next gvc) postco_get.
Definition upostcob_each_next {Nd V} (gvcb : Nd -> option (V * (option Nd * option Nd))) := ucollc_next (fun n p => Some (postco_new n p)) (upostcob_next gvcb) postco_get.
Definition uinco_each_next {Nd V} (gvcb : Nd -> option (V * (option Nd * option Nd))) := ucollc_next (fun n p => Some (inco_new n p)) (uinco_next gvcb) inco_get.
