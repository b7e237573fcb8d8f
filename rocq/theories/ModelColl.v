(** * ModelColl: traversals of collections of trees (collection_iterators.rs).

    The macros of collection_iterators.rs wrap a single-tree iterator; the model takes that iterator as a
    parameter: its state type [S], constructor [new] and [next].  The collection is the list of its remaining trees. *)
From Verif Require Import Prelim Spec ModelNode ModelBfs ModelPre ModelPost ModelIn.

Section Coll.
  Context {T S A : Type}.
  Variable new : T -> S.
  Variable next : nat -> S -> Res (option A * S).

  (** The struct, collection_iterators.rs 3-10 (mut 418-425, borrowed 642-649). *)
  Record coll := mkColl {
    co_trees : list T;
    co_cur : option S
  }.

  (** [new] 17-22 (mut 432-437, borrowed 656-661); called by [bfs_each] etc., prelude.rs 3613-3641, 3883-3924,
      4165-4193, 4433-4478, 4719-4747, 4986-5027. *)
  Definition coll_new (trees : list T) : coll := mkColl trees None.

  (** [self.tree_traversal_iterator = self.collection.next().map(..); self.tree_traversal_iterator.as_ref()?;] 41-46. *)
  Definition coll_next_tree (trees : list T) : coll + option A * coll :=
    match trees with
    | [] => inr (None, mkColl [] None)
    | t :: rest => inl (mkColl rest (Some (new t)))
    end.

  (** The loop of [next], 33-47 (mut 448-462, borrowed 672-686). *)
  Definition coll_body (fuel : nat) (s : coll) : Res (coll + option A * coll) :=
    match co_cur s with
    | Some iter =>
        '(o, iter') <- next fuel iter ;;
        match o with
        | Some v => Ok (inr (Some v, mkColl (co_trees s) (Some iter')))
        | None => Ok (coll_next_tree (co_trees s))
        end
    | None => Ok (coll_next_tree (co_trees s))
    end.

  (** [next] 32-48. *)
  Definition coll_next (fuel : nat) (s : coll) : Res (option A * coll) := loop coll_body fuel s.
End Coll.
Arguments mkColl {T S} _ _.
Arguments co_trees {T S} _.
Arguments co_cur {T S} _.
Arguments coll : clear implicits.

Section CollContext.
  Context {T S A : Type}.
  (** The single-tree context iterator: [new(item, path)], [next()] (that is [advance()] then [get()]) and [get()]. *)
  Variable new : T -> list N -> S.
  Variable next : nat -> S -> Res (option A * S).
  Variable get : S -> option A.

  (** The struct, 55-63 (no-children 147-155, binary 239-247 and 330-338, mut 470-478, borrowed 694-702, binary
      borrowed 562-570, binary mut 774-782). *)
  Record collc := mkCollc {
    cc_trees : list T;
    cc_index : N;
    cc_cur : option S
  }.

  (** [new] 70-80 (162-172, 254-264, 345-355, 485-495, 577-587, 709-719, 789-799), called by [attach_context]:
      the panic rule. *)
  Definition coll_attach {S0} (source : coll T S0) : Res collc :=
    match co_cur source with
    | Some _ => Panic
    | None => Ok (mkCollc (co_trees source) usize_max None)
    end.

  (** 102-119: take the next tree, count it, start its iterator with the path [[index]]. *)
  Definition collc_next_tree (s : collc) : collc + collc :=
    let index := wrapping_succ (cc_index s) in
    match cc_trees s with
    | [] => inr (mkCollc [] index None)
    | t :: rest => inl (mkCollc rest index (Some (new t [index])))
    end.

  (** The loop of [advance], 94-121 (186-213, 278-304, 366-392, 509-536, 601-628, 733-760, 813-840). *)
  Definition collc_body (fuel : nat) (s : collc) : Res (collc + collc) :=
    match cc_cur s with
    | Some iter =>
        '(o, iter') <- next fuel iter ;;
        let s' := mkCollc (cc_trees s) (cc_index s) (Some iter') in
        match o with
        | Some _ => Ok (inr s')
        | None => Ok (collc_next_tree s')
        end
    | None => Ok (collc_next_tree s)
    end.
  Definition collc_advance (fuel : nat) (s : collc) : Res collc := loop collc_body fuel s.

  (** [get] 124-128. *)
  Definition collc_get (s : collc) : option A := match cc_cur s with Some iter => get iter | None => None end.

  Definition collc_next (fuel : nat) (s : collc) : Res (option A * collc) :=
    s' <- collc_advance fuel s ;; Ok (collc_get s', s').
End CollContext.
Arguments mkCollc {T S} _ _ _.
Arguments cc_trees {T S} _.
Arguments cc_index {T S} _.
Arguments cc_cur {T S} _.
Arguments collc : clear implicits.

(** [OwnedBFSIteratorWithContext::new(item, path)], bfs_iterators/owned.rs 116-136. *)
Definition bfsc_start {Nd V I C} (gv : Nd -> V * C) (n : Nd) (path : list N) : bfsc V I C :=
  let '(v, c) := gv n in bfsc_new v c path.

(** The plain collection iterators: [bfs_each], [dfs_preorder_each], [dfs_postorder_each], [dfs_inorder_each]. *)
Definition bfs_each_next {Nd V} (gvc : Nd -> V * list Nd) := coll_next bfs_new (bfs_next gvc).
Definition pre_each_next {Nd V} (gvc : Nd -> V * list Nd) := coll_next pre_new (pre_next gvc).
Definition post_each_next {Nd V} (gvc : Nd -> V * list Nd) := coll_next post_new (post_next gvc).
Definition in_each_next {Nd V} (gvcb : Nd -> V * (option Nd * option Nd)) := coll_next (@in_new Nd V) (in_next gvcb).

(** The collection iterators with context. *)
Definition bfsc_each_next {Nd V} (gvc : Nd -> V * list Nd) := collc_next (bfsc_start gvc) (bfsc_next gvc) bfsc_get.
Definition prec_each_next {Nd V} (gvc : Nd -> V * list Nd) := collc_next prec_new (prec_next gvc) prec_get.
Definition postc_each_next {Nd V} (gvc : Nd -> V * list Nd) := collc_next postc_new (postc_next gvc) postc_get.
Definition postco_each_next {Nd V} (gvc : Nd -> V * list Nd) := collc_next postco_new (postco_next gvc) postco_get.
Definition bfscb_each_next {Nd V} (gvcb : Nd -> V * (option Nd * option Nd)) :=
  collc_next (bfsc_start gvcb) (bfscb_next gvcb pair_iter) bfsc_get.
Definition precb_each_next {Nd V} (gvcb : Nd -> V * (option Nd * option Nd)) :=
  collc_next prec_new (precb_next gvcb pair_iter) prec_get.
Definition postcb_each_next {Nd V} (gvcb : Nd -> V * (option Nd * option Nd)) :=
  collc_next postc_new (postcb_next gvcb pair_iter) postc_get.
Definition postcob_each_next {Nd V} (gvcb : Nd -> V * (option Nd * option Nd)) :=
  collc_next postco_new (postcob_next gvcb pair_iter) postco_get.
Definition inc_each_next {Nd V} (gvcb : Nd -> V * (option Nd * option Nd)) :=
  collc_next inc_new (inc_next gvcb) inc_get.
Definition inco_each_next {Nd V} (gvcb : Nd -> V * (option Nd * option Nd)) :=
  collc_next inco_new (inco_next gvcb) inco_get.
