(** * ModelStream: traversals of collections whose trees come from any iterator.

    The code is that of ModelColl (collection_iterators.rs), where the collection is a list.  Here it is what the code has: an
    iterator, of which nothing is known but its [next] ([poll]).  Every state also has a record of the answers of [poll], last one first. *)
From Verif Require Import Prelim Spec ModelNode ModelBfs ModelPre ModelPost ModelIn ModelColl ModelLazy ModelLazyIn.

Section Stream.
  Context {Src T S A : Type}.
  Variable poll : Src -> option T * Src.
  Variable new : T -> S.
  Variable next : nat -> S -> Res (option A * S).

  (** The struct, collection_iterators.rs 3-10 (mut 418-425, borrowed 642-649). *)
  Record scoll := mkSc {
    sc_source : Src;
    sc_cur : option S;
    sc_asked : list (option T)
  }.
  (** [new] 17-22 (mut 432-437, borrowed 656-661). *)
  Definition scoll_new (c : Src) : scoll := mkSc c None [].

  (** [self.tree_traversal_iterator = self.collection.next().map(..); self.tree_traversal_iterator.as_ref()?;] 41-46. *)
  Definition scoll_next_tree (s : scoll) : scoll + option A * scoll :=
    let '(o, c) := poll (sc_source s) in
    match o with
    | None => inr (None, mkSc c None (o :: sc_asked s))
    | Some t => inl (mkSc c (Some (new t)) (o :: sc_asked s))
    end.

  (** The loop of [next], 33-47 (mut 448-462, borrowed 672-686). *)
  Definition scoll_body (fuel : nat) (s : scoll) : Res (scoll + option A * scoll) :=
    match sc_cur s with
    | Some iter =>
        '(o, iter') <- next fuel iter ;;
        match o with
        | Some v => Ok (inr (Some v, mkSc (sc_source s) (Some iter') (sc_asked s)))
        | None => Ok (scoll_next_tree s)
        end
    | None => Ok (scoll_next_tree s)
    end.

  (** [next] 32-48. *)
  Definition scoll_next (fuel : nat) (s : scoll) : Res (option A * scoll) := loop scoll_body fuel s.
End Stream.
Arguments mkSc {Src T S} _ _ _.
Arguments sc_source {Src T S} _.
Arguments sc_cur {Src T S} _.
Arguments sc_asked {Src T S} _.
Arguments scoll : clear implicits.

Section StreamContext.
  Context {Src T S A : Type}.
  Variable poll : Src -> option T * Src.
  Variable new : T -> list N -> S.
  Variable next : nat -> S -> Res (option A * S).
  Variable get : S -> option A.

  (** The struct, 55-63 (no-children 147-155, binary 239-247 and 330-338, mut 470-478, borrowed 694-702, binary
      borrowed 562-570, binary mut 774-782). *)
  Record scollc := mkScc {
    scc_source : Src;
    scc_index : N;
    scc_cur : option S;
    scc_asked : list (option T)
  }.

  (** [new] 70-80 (162-172, 254-264, 345-355, 485-495, 577-587, 709-719, 789-799).  The record starts anew. *)
  Definition scoll_attach {S0} (source : scoll Src T S0) : Res scollc :=
    match sc_cur source with
    | Some _ => Panic
    | None => Ok (mkScc (sc_source source) usize_max None [])
    end.

  (** 102-119: the index is counted up also when the collection gives [None]. *)
  Definition scollc_next_tree (s : scollc) : scollc + scollc :=
    let '(o, c) := poll (scc_source s) in
    let index := wrapping_succ (scc_index s) in
    match o with
    | None => inr (mkScc c index None (o :: scc_asked s))
    | Some t => inl (mkScc c index (Some (new t [index])) (o :: scc_asked s))
    end.

  (** The loop of [advance], 94-121 (186-213, 278-304, 366-392, 509-536, 601-628, 733-760, 813-840). *)
  Definition scollc_body (fuel : nat) (s : scollc) : Res (scollc + scollc) :=
    match scc_cur s with
    | Some iter =>
        '(o, iter') <- next fuel iter ;;
        let s' := mkScc (scc_source s) (scc_index s) (Some iter') (scc_asked s) in
        match o with
        | Some _ => Ok (inr s')
        | None => Ok (scollc_next_tree s')
        end
    | None => Ok (scollc_next_tree s)
    end.
  Definition scollc_advance (fuel : nat) (s : scollc) : Res scollc := loop scollc_body fuel s.

  (** [get] 124-128. *)
  Definition scollc_get (s : scollc) : option A := match scc_cur s with Some iter => get iter | None => None end.

  Definition scollc_next (fuel : nat) (s : scollc) : Res (option A * scollc) :=
    s' <- scollc_advance fuel s ;; Ok (scollc_get s', s').
End StreamContext.
Arguments mkScc {Src T S} _ _ _ _.
Arguments scc_source {Src T S} _.
Arguments scc_index {Src T S} _.
Arguments scc_cur {Src T S} _.
Arguments scc_asked {Src T S} _.
Arguments scollc : clear implicits.

(** The iterators, as in ModelColl. *)
Section Iterators.
  Context {Src Nd V : Type}.
  Variable poll : Src -> option Nd * Src.
  Variable gvc : Nd -> V * list Nd.
  Variable gvcb : Nd -> V * (option Nd * option Nd).
  Definition bfs_stream_next := scoll_next poll bfs_new (bfs_next gvc).
  Definition pre_stream_next := scoll_next poll pre_new (pre_next gvc).
  Definition post_stream_next := scoll_next poll post_new (post_next gvc).
  Definition in_stream_next := scoll_next poll (@in_new Nd V) (in_next gvcb).
  Definition bfsc_stream_next := scollc_next poll (bfsc_start gvc) (bfsc_next gvc) bfsc_get.
  Definition prec_stream_next := scollc_next poll prec_new (prec_next gvc) prec_get.
  Definition postc_stream_next := scollc_next poll postc_new (postc_next gvc) postc_get.
  Definition postco_stream_next := scollc_next poll postco_new (postco_next gvc) postco_get.
  Definition bfscb_stream_next := scollc_next poll (bfsc_start gvcb) (bfscb_next gvcb pair_iter) bfsc_get.
  Definition precb_stream_next := scollc_next poll prec_new (precb_next gvcb pair_iter) prec_get.
  Definition postcb_stream_next := scollc_next poll postc_new (postcb_next gvcb pair_iter) postc_get.
  Definition postcob_stream_next := scollc_next poll postco_new (postcob_next gvcb pair_iter) postco_get.
  Definition inc_stream_next := scollc_next poll inc_new (inc_next gvcb) inc_get.
  Definition inco_stream_next := scollc_next poll inco_new (inco_next gvcb) inco_get.
End Iterators.

(** The same where the trees too are made while they are traversed (ModelLazy, ModelLazyIn). *)
Section LazyIterators.
  Context {Src Nd V C It : Type}.
  Variable poll : Src -> option Nd * Src.
  Variable gv : Nd -> V * C.
  Variable into_iter : C -> It.
  Variable pollk : It -> option Nd * It.
  Definition lbfs_stream_next := scoll_next poll lbfs_new (lbfs_next gv into_iter pollk).
  Definition lpre_stream_next := scoll_next poll lpre_new (lpre_next gv into_iter pollk).
End LazyIterators.
