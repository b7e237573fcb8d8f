(** * ModelLazyLeaves: the [leaves()] iterators over children iterators of any kind, with a record of the calls of
    [get_value_and_children].

    The code is that of ModelLeaves; nodes, children iterators and logs are those of ModelLazy.  Stacks ([Vec]) are lists whose head is
    the top, queues ([VecDeque]) lists whose head is the front. *)
From Verif Require Import Prelim Spec ModelNode ModelPre ModelPost ModelBfs ModelLazy.

Section LazyLeaves.
  Context {Nd V C It : Type}.
  Variable gv : Nd -> V * C.               (* get_value_and_children *)
  Variable into_iter : C -> It.            (* IntoIterator::into_iter of the children *)
  Variable poll : It -> option Nd * It.    (* Iterator::next of the children iterator *)

  (** ** Depth first *)

  (** [OwnedLeavesIterator], leaves_iterators/depth_first/owned.rs 6-14. *)
  Record ldl := mkLdl {
    ldl_log : list Nd;
    ldl_root : option Nd;
    ldl_bottom : list It;       (* traversal_stack_bottom *)
    ldl_top : list It;          (* traversal_stack_top *)
    ldl_items : list V          (* item_stack *)
  }.

  (** The loop of [next], depth_first/mod.rs 19-43; the flag is [just_added]. *)
  Definition ldl_body (_ : nat) (st : bool * ldl) : Res (bool * ldl + option V * ldl) :=
    let '(just_added, s) := st in
    match ldl_top s with
    | next_iter :: rest =>
        match poll next_iter with
        | (Some n, next_iter') =>
            let '(value, children) := gv n in
            Ok (inl (true, mkLdl (n :: ldl_log s) (ldl_root s) (ldl_bottom s)
                                 (into_iter children :: next_iter' :: rest) (value :: ldl_items s)))
        | (None, _) =>
            let popped := hd_error (ldl_items s) in
            let s' := mkLdl (ldl_log s) (ldl_root s) (ldl_bottom s) rest (tl (ldl_items s)) in
            if just_added then Ok (inr (popped, s')) else Ok (inl (just_added, s'))
        end
    | [] =>
        match ldl_bottom s with
        | next_iter :: rest =>
            match poll next_iter with
            | (Some n, next_iter') =>
                let '(value, children) := gv n in
                Ok (inl (just_added, mkLdl (n :: ldl_log s) (ldl_root s) (next_iter' :: rest)
                                           [into_iter children] (value :: ldl_items s)))
            | (None, _) => Ok (inl (just_added, mkLdl (ldl_log s) (ldl_root s) rest [] (ldl_items s)))
            end
        | [] => Ok (inr (None, s))
        end
    end.

  (** [next] depth_first/mod.rs 5-47. *)
  Definition ldl_next (fuel : nat) (s : ldl) : Res (option V * ldl) :=
    match ldl_root s with
    | Some root =>
        let '(value, children) := gv root in
        loop ldl_body fuel
          (true, mkLdl (root :: ldl_log s) None (ldl_bottom s) (into_iter children :: ldl_top s) (value :: ldl_items s))
    | None => loop ldl_body fuel (false, s)
    end.

  (** [leaves()] dfs_preorder_iterators/owned.rs 159-166, dfs_postorder_iterators/owned.rs 66-73. *)
  Definition lpre_leaves (s : lpre Nd It) : ldl := mkLdl (lp_log s) (lp_root s) (lp_stack s) [] [].
  Definition lpost_leaves (s : lpost Nd V It) : ldl := mkLdl (lt_log s) (lt_root s) (lt_stack s) [] [].

  (** [OwnedDFSLeavesPostorderIteratorWithAncestors], ancestors_depth_first/owned.rs. *)
  Record ldal := mkLdal {
    lda_log : list Nd;
    lda_root : option Nd;
    lda_items : list V;
    lda_old : list It;          (* old_traversal_stack *)
    lda_new : list It           (* new_traversal_stack *)
  }.

  (** The loop of [advance], ancestors_depth_first/mod.rs 18-53; the flag is
      [pushed_another_iterator]. [inr] is a [return] or [break]. *)
  Definition ldal_body (_ : nat) (st : bool * ldal) : Res (bool * ldal + ldal) :=
    let '(pushed, s) := st in
    (* [if let Some(new_stack_last) = .. { if let Some(node) = new_stack_last.next() { .. continue; } }]; a last
       iterator that has given [None] is popped at once *)
    match match lda_new s with it :: rest => match poll it with (Some n, it') => Some (n, it' :: rest) | _ => None end | [] => None end with
    | Some (n, new) =>
        let '(value, children) := gv n in
        Ok (inl (true, mkLdal (n :: lda_log s) (lda_root s) (value :: lda_items s) (lda_old s) (into_iter children :: new)))
    | None =>
        let new := tl (lda_new s) in
        if pushed then Ok (inr (mkLdal (lda_log s) (lda_root s) (lda_items s) (lda_old s) new))
        else
          match match lda_old s with it :: rest => match poll it with (Some n, it') => Some (n, it' :: rest) | _ => None end | [] => None end with
          | Some (n, old) =>
              let '(value, children) := gv n in
              Ok (inl (true, mkLdal (n :: lda_log s) (lda_root s) (value :: lda_items s) old (into_iter children :: new)))
          | None =>
              (* [if pushed_another_iterator { return; }]: false here *)
              let items := tl (lda_items s) in
              let s' := mkLdal (lda_log s) (lda_root s) items (tl (lda_old s)) new in
              match items with
              | [] => Ok (inr s')
              | _ => Ok (inl (pushed, s'))
              end
          end
    end.

  (** [advance] ancestors_depth_first/mod.rs 7-54, with [get] 56-62. *)
  Definition ldal_advance (fuel : nat) (s : ldal) : Res ldal :=
    match lda_root s with
    | Some root =>
        let '(value, children) := gv root in
        loop ldal_body fuel
          (true, mkLdal (root :: lda_log s) None (value :: lda_items s) (lda_old s) (into_iter children :: lda_new s))
    | None => loop ldal_body fuel (false, mkLdal (lda_log s) None (tl (lda_items s)) (lda_old s) (lda_new s))
    end.
  Definition ldal_next (fuel : nat) (s : ldal) : Res (option (list V) * ldal) :=
    s' <- ldal_advance fuel s ;;
    Ok (match lda_items s' with [] => None | items => Some (rev items) end, s').

  (** [leaves()] dfs_preorder_iterators/owned.rs 313-325, dfs_postorder_iterators/owned.rs 211-223. *)
  Definition lprea_leaves (s : lprea Nd V It) : ldal := mkLdal (lpa_log s) (lpa_root s) (lpa_items s) (lpa_stack s) [].
  Definition lposta_leaves (s : lpost Nd V It) : ldal := mkLdal (lt_log s) (lt_root s) (lt_items s) (lt_stack s) [].

  (** ** Breadth first *)

  (** [core::iter::Peekable]: an iterator with what was peeked at, if anything. *)
  Definition peekable : Type := option (option Nd) * It.
  (** [Iterator::peekable] *)
  Definition pk_new (it : It) : peekable := (None, it).
  (** [Peekable::peek]: what is to come, and the peekable afterwards. *)
  Definition pk_peek (p : peekable) : option Nd * peekable :=
    match p with
    | (Some x, _) => (x, p)
    | (None, it) => let '(x, it') := poll it in (x, (Some x, it'))
    end.
  (** [Iterator::next] of [Peekable] *)
  Definition pk_next (p : peekable) : option Nd * peekable :=
    match p with
    | (Some x, it) => (x, (None, it))
    | (None, it) => let '(x, it') := poll it in (x, (None, it'))
    end.
  Definition is_some {A} (o : option A) : bool := match o with Some _ => true | None => false end.

  (** [OwnedLeavesIterator], breadth_first/owned.rs 9-18. *)
  Record lbl := mkLbl {
    lbl_log : list Nd;
    lbl_root : option Nd;
    lbl_old : list It;          (* old_traversal_queue *)
    lbl_new : list peekable     (* new_traversal_queue *)
  }.

  (** The [None => loop] of [bfs_next], breadth_first/mod.rs 17-58. Items are (has_children, value). *)
  Definition lbl_bfs_body (_ : nat) (s : lbl) : Res (lbl + option (bool * V) * lbl) :=
    match lbl_old s with
    | [] =>
        match lbl_new s with
        | [] => Ok (inr (None, s))
        | next_queue :: new =>
            match pk_next next_queue with
            | (None, _) => Ok (inl (mkLbl (lbl_log s) (lbl_root s) [] new))
            | (Some n, next_queue') =>
                let '(value, children) := gv n in
                let '(first, children) := pk_peek (pk_new (into_iter children)) in
                Ok (inr (Some (is_some first, value),
                         mkLbl (n :: lbl_log s) (lbl_root s) [] ((next_queue' :: new) ++ [children])))
            end
        end
    | next_queue :: old =>
        match poll next_queue with
        | (None, _) => Ok (inl (mkLbl (lbl_log s) (lbl_root s) old (lbl_new s)))
        | (Some n, next_queue') =>
            let '(value, children) := gv n in
            let '(first, children) := pk_peek (pk_new (into_iter children)) in
            Ok (inr (Some (is_some first, value),
                     mkLbl (n :: lbl_log s) (lbl_root s) (next_queue' :: old) (lbl_new s ++ [children])))
        end
    end.

  (** [bfs_next] breadth_first/mod.rs 5-61. *)
  Definition lbl_bfs_next (fuel : nat) (s : lbl) : Res (option (bool * V) * lbl) :=
    match lbl_root s with
    | Some root =>
        let '(value, children) := gv root in
        let '(first, children) := pk_peek (pk_new (into_iter children)) in
        Ok (Some (is_some first, value), mkLbl (root :: lbl_log s) None (lbl_old s) (lbl_new s ++ [children]))
    | None => loop lbl_bfs_body fuel s
    end.

  (** [next] breadth_first/mod.rs 63-80. *)
  Definition lbl_body (fuel : nat) (s : lbl) : Res (lbl + option V * lbl) :=
    '(value, s) <- lbl_bfs_next fuel s ;;
    match value with
    | None => Ok (inr (None, s))
    | Some (true, _) => Ok (inl s)
    | Some (false, v) => Ok (inr (Some v, s))
    end.
  Definition lbl_next (fuel : nat) (s : lbl) : Res (option V * lbl) := loop lbl_body fuel s.

  (** [leaves()] bfs_iterators/owned.rs 65-73. *)
  Definition lbfs_leaves (s : lbfs Nd It) : lbl := mkLbl (lb_log s) (lb_root s) (lb_queue s) [].

  (** [OwnedBFSLeavesIteratorWithAncestors], ancestors_breadth_first/owned.rs 14-23. *)
  Record lbal := mkLbal {
    lbal_log : list Nd;
    lbal_is_root : bool;
    lbal_items : list V;
    lbal_cache : cnode V;
    lbal_stack : list (cnode V);
    lbal_queue : list peekable
  }.

  (** The loop of [advance], ancestors_breadth_first/mod.rs 96-149. *)
  Definition lbal_body (fuel : nat) (s : lbal) : Res (lbal + lbal) :=
    match lbal_queue s with
    | [] => Ok (inr (mkLbal (lbal_log s) (lbal_is_root s) [] (lbal_cache s) (lbal_stack s) []))
    | front :: queue =>
        '(items, cache, stack) <- maybe_pop (lbal_items s, lbal_cache s, lbal_stack s) ;;
        match pk_next front with
        | (Some n, iter) =>
            let '(value, children) := gv n in
            let '(first, children) := pk_peek (pk_new (into_iter children)) in
            let s' := mkLbal (n :: lbal_log s) false (value :: items) cache stack ((iter :: queue) ++ [children]) in
            if is_some first then Ok (inl s') else Ok (inr s')
        | (None, iter) =>
            if lbal_is_root s then Ok (inr (mkLbal (lbal_log s) false items cache stack (iter :: queue)))
            else
              '(items, cache, stack) <- to_next_parent fuel (items, cache, stack) ;;
              Ok (inl (mkLbal (lbal_log s) (lbal_is_root s) items cache stack queue))
        end
    end.

  (** [advance] ancestors_breadth_first/mod.rs 95-150, with [get] 152-158. *)
  Definition lbal_advance (fuel : nat) (s : lbal) : Res lbal := loop lbal_body fuel s.
  Definition lbal_next (fuel : nat) (s : lbal) : Res (option (list V) * lbal) :=
    s' <- lbal_advance fuel s ;;
    Ok (match lbal_items s' with [] => None | items => Some (rev items) end, s').

  (** [leaves()] bfs_iterators/owned.rs 191-203. *)
  Definition lbfsa_leaves (s : lbfsa Nd V It) : lbal :=
    mkLbal (lba_log s) (lba_is_root s) (lba_items s) (lba_cache s) (lba_stack s) (map pk_new (lba_queue s)).
End LazyLeaves.
Arguments ldl : clear implicits.
Arguments ldal : clear implicits.
Arguments peekable : clear implicits.
Arguments lbl : clear implicits.
Arguments lbal : clear implicits.
