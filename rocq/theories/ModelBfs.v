(** * ModelBfs: breadth-first iterators (bfs_iterators/mod.rs, owned.rs, borrow.rs, mut_borrow.rs).

    [VecDeque]s are lists whose head is the front.  [Vec] stacks are lists whose head is the
    top (last element).  A children iterator is the list of the items it has not produced yet. *)
From Verif Require Import Prelim Spec ModelNode.

Section BfsPlain.
  Context {Nd V : Type}.
  Variable gvc : Nd -> V * list Nd.

  (** [OwnedBFSIterator] bfs_iterators/owned.rs 45-51 (binary: 247-253; same in borrow.rs, mut_borrow.rs). *)
  Record bfs_iter := mkBfs {
    bfs_root : option Nd;
    bfs_queue : list (list Nd)
  }.

  (** [new] owned.rs 57-62. *)
  Definition bfs_new (root : Nd) : bfs_iter := mkBfs (Some root) [].

  (** The [while let] loop of [next], bfs_iterators/mod.rs 14-23. *)
  Definition bfs_next_body (_ : nat) (queue : list (list Nd))
    : Res (list (list Nd) + option V * bfs_iter) :=
    match queue with
    | [] => Ok (inr (None, mkBfs None []))
    | next_queue :: rest =>
        match next_queue with
        | nd :: next_queue' =>
            let '(value, children) := gvc nd in
            Ok (inr (Some value, mkBfs None ((next_queue' :: rest) ++ [children])))
        | [] => Ok (inl rest)
        end
    end.

  (** [next] bfs_iterators/mod.rs 5-26. *)
  Definition bfs_next (fuel : nat) (s : bfs_iter) : Res (option V * bfs_iter) :=
    match bfs_root s with
    | Some root =>
        let '(value, children) := gvc root in
        Ok (Some value, mkBfs None (bfs_queue s ++ [children]))
    | None => loop bfs_next_body fuel (bfs_queue s)
    end.
End BfsPlain.
Arguments mkBfs {Nd} _ _.
Arguments bfs_root {Nd} _.
Arguments bfs_queue {Nd} _.
Arguments bfs_iter : clear implicits.

(** [TreeNodeVecDeque] bfs_iterators/mod.rs 434-438.  [MaybeUninit<T>] is an [option]. *)
Inductive cnode (V : Type) : Type :=
| CNode (value : option V) (path_segment : N) (children : list (option (cnode V))).
Arguments CNode {V} value path_segment children.

Definition cn_value {V} (c : cnode V) := match c with CNode v _ _ => v end.
Definition cn_children {V} (c : cnode V) := match c with CNode _ _ l => l end.
Definition cn_set_children {V} (c : cnode V) (l : list (option (cnode V))) :=
  match c with CNode v p _ => CNode v p l end.

(** [Default for TreeNodeVecDeque] bfs_iterators/mod.rs 453-461. *)
Definition cn_default {V} : cnode V := CNode None 0 [].

(** [self.traversal_stack.last_mut().unwrap_or(&mut self.tree_cache)]: read its children. *)
Definition top_children {V} (stack : list (cnode V)) (cache : cnode V) : list (option (cnode V)) :=
  match stack with [] => cn_children cache | n :: _ => cn_children n end.
(** the same, written. *)
Definition set_top_children {V} (stack : list (cnode V)) (cache : cnode V) (l : list (option (cnode V)))
  : list (cnode V) * cnode V :=
  match stack with
  | [] => ([], cn_set_children cache l)
  | n :: rest => (cn_set_children n l :: rest, cache)
  end.

(** [self.traversal_stack.get_mut(i)] followed by a write: index [i] counts from the
    bottom of the stack, i.e. from the end of the list. *)
Fixpoint update_nth {A} (i : nat) (f : A -> A) (l : list A) : option (list A) :=
  match l, i with
  | [], _ => None
  | x :: xs, 0 => Some (f x :: xs)
  | x :: xs, S j => option_map (cons x) (update_nth j f xs)
  end.
Definition update_from_bottom {A} (i : nat) (f : A -> A) (stack : list A) : option (list A) :=
  option_map (@rev A) (update_nth i f (rev stack)).

Section BfsAncestors.
  Context {Nd V : Type}.
  Variable gvc : Nd -> V * list Nd.

  (** [OwnedBFSIteratorWithAncestors] owned.rs 157-166 (binary 300-309; the leaves iterator
      [OwnedBFSLeavesIteratorWithAncestors] has the same fields, with peekable iterators,
      which are modelled by the same lists). *)
  Record bfsa := mkBfsa {
    ba_is_root : bool;
    ba_items : list V;                  (* item_stack, head = last *)
    ba_cache : cnode V;
    ba_stack : list (cnode V);          (* traversal_stack, head = last *)
    ba_queue : list (list Nd)           (* iterator_queue, head = front *)
  }.

  (** [new] owned.rs 172-188. *)
  Definition bfsa_new (root : Nd) : bfsa :=
    let '(value, children) := gvc root in
    mkBfsa true [value] cn_default [] [children].

  (** The part of the state that [advance_dfs] and [pop_from_item_stack] work on:
      item_stack, tree_cache, traversal_stack. *)
  Definition dfs_st : Type := list V * cnode V * list (cnode V).

  (** One iteration of the loop of [advance_dfs], bfs_iterators/mod.rs 348-397
      (the copy for leaves: ancestors_breadth_first/mod.rs 9-58 differs only in
      [clear]/[shrink_to_fit] on an already empty deque). *)
  Definition advance_dfs_body (starting_depth : nat) (_ : nat) (s : dfs_st)
    : Res (dfs_st + dfs_st) :=
    let '(items, cache, stack) := s in
    match top_children stack cache with
    | [] => (* pop_front() = None: clear, shrink, break *) Ok (inr (items, cache, stack))
    | child :: rest =>
        let '(stack, cache) := set_top_children stack cache rest in
        match child with
        | Some (CNode value seg children) =>
            v <- assume_init value ;;
            let items := v :: items in
            let stack := CNode None seg children :: stack in
            let has_children := negb (match children with [] => true | _ => false end) in
            if negb has_children && (starting_depth <=? length items)
            then Ok (inr (items, cache, stack))
            else Ok (inl (items, cache, stack))
        | None =>
            (* reserve a spot for the current value once we finish with it *)
            let '(stack, cache) :=
              match rest with
              | [] => (stack, cache)
              | _ => set_top_children stack cache (rest ++ [None])
              end in
            '(items, stack) <-
              (if 1 <? length items then
                 match stack with
                 | [] => Panic (* last_mut().unwrap() *)
                 | CNode _ seg children :: stack' =>
                     match items with
                     | [] => Panic
                     | v :: items' => Ok (items', CNode (Some v) seg children :: stack')
                     end
                 end
               else Ok (items, stack)) ;;
            match stack with
            | [] => Ok (inl (items, cache, stack))
            | popped :: stack' =>
                let '(stack'', cache') :=
                  set_top_children stack' cache (top_children stack' cache ++ [Some popped]) in
                Ok (inl (items, cache', stack''))
            end
        end
    end.

  (** [advance_dfs] bfs_iterators/mod.rs 346-399; ancestors_breadth_first/mod.rs 7-59. *)
  Definition advance_dfs (fuel : nat) (s : dfs_st) : Res dfs_st :=
    let '(items, _, _) := s in
    loop (advance_dfs_body (length items)) fuel s.

  (** [pop_from_item_stack] bfs_iterators/mod.rs 401-420; ancestors_breadth_first/mod.rs 61-77. *)
  Definition pop_from_item_stack (s : dfs_st) : Res dfs_st :=
    let '(items, cache, stack) := s in
    match items with
    | [] => Panic
    | [_] => Ok s
    | v :: (_ :: below) as items' =>
        let add := fun n => cn_set_children n (cn_children n ++ [Some (CNode (Some v) 0 [])]) in
        match below with
        | [] => Ok (tl items, add cache, stack)
        | _ =>
            match update_from_bottom (length items - 3) add stack with
            | None => Panic
            | Some stack' => Ok (tl items, cache, stack')
            end
        end
    end.

  (** The inner [while let Some(last) = self.traversal_stack.last()] loop,
      bfs_iterators/mod.rs 303-310 (leaves copy: ancestors_breadth_first/mod.rs 137-144). *)
  Fixpoint drop_finished (items : list V) (stack : list (cnode V)) : list V * list (cnode V) :=
    match stack with
    | [] => (items, [])
    | last :: stack' =>
        if 1 <? length (cn_children last) then (items, stack)
        else drop_finished (tl items) stack'
    end.

  (** What [advance] does when the front iterator is exhausted, up to and including
      [advance_dfs]: bfs_iterators/mod.rs 294-313; ancestors_breadth_first/mod.rs 128-147. *)
  Definition to_next_parent (fuel : nat) (s : dfs_st) : Res dfs_st :=
    let '(items, cache, stack) := s in
    let '(items, cache, stack) :=
      match top_children stack cache with
      | [] => let '(items, stack) := drop_finished items stack in (items, cache, stack)
      | l => let '(stack, cache) := set_top_children stack cache (None :: l) in (items, cache, stack)
      end in
    advance_dfs fuel (items, cache, stack).

  (** The test at the head of the loop: bfs_iterators/mod.rs 281-283; leaves 102-104. *)
  Definition maybe_pop (s : dfs_st) : Res dfs_st :=
    let '(items, cache, stack) := s in
    if length items =? length stack + 2 then pop_from_item_stack s else Ok s.

  (** The loop of [advance], bfs_iterators/mod.rs 280-319. *)
  Definition bfsa_advance_body (fuel : nat) (s : bfsa) : Res (bfsa + bfsa) :=
    '(items, cache, stack) <- maybe_pop (ba_items s, ba_cache s, ba_stack s) ;;
    match ba_queue s with
    | [] => Panic (* &mut self.iterator_queue[0] *)
    | (nd :: iter) :: queue =>
        let '(value, children) := gvc nd in
        Ok (inr (mkBfsa (ba_is_root s) (value :: items) cache stack ((iter :: queue) ++ [children])))
    | [] :: queue =>
        '(items, cache, stack) <- to_next_parent fuel (items, cache, stack) ;;
        match queue with
        | [] => Ok (inr (mkBfsa (ba_is_root s) [] cache stack []))
        | _ => Ok (inl (mkBfsa (ba_is_root s) items cache stack queue))
        end
    end.

  (** [advance] bfs_iterators/mod.rs 274-320. *)
  Definition bfsa_advance (fuel : nat) (s : bfsa) : Res bfsa :=
    if ba_is_root s
    then Ok (mkBfsa false (ba_items s) (ba_cache s) (ba_stack s) (ba_queue s))
    else loop bfsa_advance_body fuel s.

  (** [get] bfs_iterators/mod.rs 322-328; the slice is given root first. *)
  Definition bfsa_get (s : bfsa) : option (list V) :=
    match ba_items s with [] => None | items => Some (rev items) end.

  (** [StreamingIterator::next]: [advance] then [get]. *)
  Definition bfsa_next (fuel : nat) (s : bfsa) : Res (option (list V) * bfsa) :=
    s' <- bfsa_advance fuel s ;; Ok (bfsa_get s', s').
End BfsAncestors.
Arguments mkBfsa {Nd V} _ _ _ _ _.
Arguments ba_is_root {Nd V} _.
Arguments ba_items {Nd V} _.
Arguments ba_cache {Nd V} _.
Arguments ba_stack {Nd V} _.
Arguments ba_queue {Nd V} _.
Arguments bfsa : clear implicits.

Section BfsContext.
  (** The n-ary and the binary context iterators are produced by two macros that differ only in how an item
      of the front iterator is fetched.  Both work on a children container [C]; for n-ary trees
      it is the list of children. *)
  Context {Nd V : Type}.

  (** ancestors, path, tree_cache, traversal_stack: the part of the state used by [advance_dfs]
      and [pop_from_item_stack] of the context iterators.  Stacks have their top first. *)
  Definition cdfs_st : Type := list V * list N * cnode V * list (cnode V).

  (** One iteration of the loop of [advance_dfs], bfs_iterators/mod.rs 116-172. *)
  Definition cadvance_dfs_body (starting_depth : nat) (_ : nat) (s : cdfs_st)
    : Res (cdfs_st + cdfs_st) :=
    let '(anc, path, cache, stack) := s in
    match top_children stack cache with
    | [] => Ok (inr s)
    | child :: rest =>
        let '(stack, cache) := set_top_children stack cache rest in
        match child with
        | Some (CNode value seg children) =>
            v <- assume_init value ;;
            let anc := v :: anc in
            let path := seg :: path in
            let has_children := negb (match children with [] => true | _ => false end) in
            let stack := CNode None seg children :: stack in
            if negb has_children && (starting_depth <=? length anc)
            then Ok (inr (anc, path, cache, stack))
            else Ok (inl (anc, path, cache, stack))
        | None =>
            let '(stack, cache) :=
              match rest with
              | [] => (stack, cache)
              | _ => set_top_children stack cache (rest ++ [None])
              end in
            '(anc, path, stack) <-
              (if 1 <? length anc then
                 match stack with
                 | [] => Panic (* last_mut().unwrap() *)
                 | CNode _ _ children :: stack' =>
                     match anc, path with
                     | v :: anc', p :: path' => Ok (anc', path', CNode (Some v) p children :: stack')
                     | _, _ => Panic (* pop().unwrap() *)
                     end
                 end
               else Ok (anc, path, stack)) ;;
            match stack with
            | [] => Ok (inl (anc, path, cache, stack))
            | popped :: stack' =>
                let '(stack'', cache') :=
                  set_top_children stack' cache (top_children stack' cache ++ [Some popped]) in
                Ok (inl (anc, path, cache', stack''))
            end
        end
    end.

  (** [advance_dfs] bfs_iterators/mod.rs 114-174. *)
  Definition cadvance_dfs (fuel : nat) (s : cdfs_st) : Res cdfs_st :=
    let '(anc, _, _, _) := s in loop (cadvance_dfs_body (length anc)) fuel s.

  (** [pop_from_item_stack] bfs_iterators/mod.rs 176-192. *)
  Definition cpop_from_item_stack (s : cdfs_st) : Res cdfs_st :=
    let '(anc, path, cache, stack) := s in
    match anc with
    | [] => Panic
    | [_] => Ok s
    | v :: (_ :: below) as anc' =>
        match path with
        | [] => Panic (* path.pop().unwrap() *)
        | p :: path' =>
            let add := fun n => cn_set_children n (cn_children n ++ [Some (CNode (Some v) p [])]) in
            match below with
            | [] => Ok (tl anc, path', add cache, stack)
            | _ =>
                match update_from_bottom (length anc - 3) add stack with
                | None => Panic
                | Some stack' => Ok (tl anc, path', cache, stack')
                end
            end
        end
    end.

  (** The inner [while let] loop, bfs_iterators/mod.rs 69-77 (binary 242-250). *)
  Fixpoint cdrop_finished (anc : list V) (path : list N) (stack : list (cnode V))
    : list V * list N * list (cnode V) :=
    match stack with
    | [] => (anc, path, [])
    | last :: stack' =>
        if 1 <? length (cn_children last) then (anc, path, stack)
        else cdrop_finished (tl anc) (tl path) stack'
    end.

  (** bfs_iterators/mod.rs 60-80 (binary 232-253). *)
  Definition cto_next_parent (fuel : nat) (s : cdfs_st) : Res cdfs_st :=
    let '(anc, path, cache, stack) := s in
    let '(anc, path, cache, stack) :=
      match top_children stack cache with
      | [] => let '(anc, path, stack) := cdrop_finished anc path stack in (anc, path, cache, stack)
      | l => let '(stack, cache) := set_top_children stack cache (None :: l) in (anc, path, cache, stack)
      end in
    cadvance_dfs fuel (anc, path, cache, stack).

  (** bfs_iterators/mod.rs 44-46 (binary 212-214). *)
  Definition cmaybe_pop (s : cdfs_st) : Res cdfs_st :=
    let '(anc, path, cache, stack) := s in
    if length anc =? length stack + 2 then cpop_from_item_stack s else Ok s.

  (** [OwnedBFSIteratorWithContext] owned.rs 100-110 (binary 357-367).  [I] is the type of items of the
      children iterator: [Node] for n-ary trees, [Option<Node>] for binary ones. *)
  Record bfsc (I C : Type) := mkBfsc {
    bc_is_root : bool;
    bc_cache : cnode V;
    bc_stack : list (cnode V);
    bc_queue : list (list I);
    bc_path : list N;                    (* current_context.path, head = last *)
    bc_anc : list V;                     (* current_context.ancestors, head = last *)
    bc_children : option C;              (* current_context.children *)
    bc_counter : N                       (* path_counter *)
  }.
  Global Arguments mkBfsc {I C} _ _ _ _ _ _ _ _.
  Global Arguments bc_is_root {I C} _.
  Global Arguments bc_cache {I C} _.
  Global Arguments bc_stack {I C} _.
  Global Arguments bc_queue {I C} _.
  Global Arguments bc_path {I C} _.
  Global Arguments bc_anc {I C} _.
  Global Arguments bc_children {I C} _.
  Global Arguments bc_counter {I C} _.

  (** [new] owned.rs 116-136 (binary 373-393), for a root whose value and children have been taken
      apart; [path] is given in Rust order. *)
  Definition bfsc_new {I C} (value : V) (children : C) (path : list N) : bfsc I C :=
    mkBfsc true cn_default [] [] (rev path) [value] (Some children) 0.

  (** [get] bfs_iterators/mod.rs 90-96. *)
  Definition bfsc_get {I C} (s : bfsc I C) : option (tree_context V C) :=
    match bc_anc s with
    | [] => None
    | anc => Some (mkCtx (rev (bc_path s)) (rev anc) (bc_children s))
    end.

  (** [advance], common to both macros: bfs_iterators/mod.rs 30-84 (binary 198-257).
      [fetch counter iter] is what differs: fetch the next node from the front iterator. It returns
      [None] for the node when the iterator is exhausted. The loop is entered after
      the children of the current context have been pushed on the queue. *)
  Definition bfsc_advance_with {I C} (into_iter : C -> list I)
      (body : nat -> bfsc I C -> Res (bfsc I C + bfsc I C)) (fuel : nat) (s : bfsc I C)
    : Res (bfsc I C) :=
    if bc_is_root s then
      Ok (mkBfsc false (bc_cache s) (bc_stack s) (bc_queue s) (bc_path s) (bc_anc s) (bc_children s) (bc_counter s))
    else
      match bc_anc s with
      | [] => Ok s
      | _ =>
          children <- unwrap (bc_children s) ;;
          loop body fuel
            (mkBfsc false (bc_cache s) (bc_stack s) (bc_queue s ++ [into_iter children])
                    (bc_path s) (bc_anc s) None (bc_counter s))
      end.

  Section Nary.
    Variable gvc : Nd -> V * list Nd.

    (** The loop of [advance], bfs_iterators/mod.rs 43-84. *)
    Definition bfsc_body (fuel : nat) (s : bfsc Nd (list Nd)) : Res (bfsc Nd (list Nd) + bfsc Nd (list Nd)) :=
      '(anc, path, cache, stack) <- cmaybe_pop (bc_anc s, bc_path s, bc_cache s, bc_stack s) ;;
      match bc_queue s with
      | [] => Panic (* &mut self.iterator_queue[0] *)
      | (nd :: iter) :: queue =>
          counter <- checked_succ (bc_counter s) ;;
          let '(value, children) := gvc nd in
          Ok (inr (mkBfsc (bc_is_root s) cache stack (iter :: queue) (bc_counter s :: path) (value :: anc)
                          (Some children) counter))
      | [] :: queue =>
          '(anc, path, cache, stack) <- cto_next_parent fuel (anc, path, cache, stack) ;;
          match queue with
          | [] => Ok (inr (mkBfsc (bc_is_root s) cache stack [] path [] (bc_children s) 0))
          | _ => Ok (inl (mkBfsc (bc_is_root s) cache stack queue path anc (bc_children s) 0))
          end
      end.

    (** [advance] for n-ary trees, bfs_iterators/mod.rs 28-98. *)
    Definition bfsc_advance : nat -> bfsc Nd (list Nd) -> Res (bfsc Nd (list Nd)) :=
      bfsc_advance_with (fun l => l) bfsc_body.

    Definition bfsc_next (fuel : nat) (s : bfsc Nd (list Nd))
      : Res (option (tree_context V (list Nd)) * bfsc Nd (list Nd)) :=
      s' <- bfsc_advance fuel s ;; Ok (bfsc_get s', s').
  End Nary.

  Section Binary.
    (** The children container is kept abstract (the macro only calls [into_iter] on it); for the
        crate's binary trees it is the pair [left, right] and [into_iter] is [ModelNode.pair_iter]. *)
    Context {C : Type}.
    Variable gvcb : Nd -> V * C.
    Variable into_iter : C -> list (option Nd).

    (** The inner [while let Some(next) = iter.next()], bfs_iterators/mod.rs 218-231: skip absent children,
        counting them. Returns the node (if any), the rest of the iterator and the counter as it is when
        the node's path segment is pushed. *)
    Fixpoint bfsc_skip (iter : list (option Nd)) (counter : N) : Res (option Nd * list (option Nd) * N) :=
      match iter with
      | [] => Ok (None, [], counter)
      | Some nd :: rest => Ok (Some nd, rest, counter)
      | None :: rest => counter' <- checked_succ counter ;; bfsc_skip rest counter'
      end.

    (** The loop of [advance], bfs_iterators/mod.rs 211-256. *)
    Definition bfscb_body (fuel : nat) (s : bfsc (option Nd) C) : Res (bfsc (option Nd) C + bfsc (option Nd) C) :=
      '(anc, path, cache, stack) <- cmaybe_pop (bc_anc s, bc_path s, bc_cache s, bc_stack s) ;;
      match bc_queue s with
      | [] => Panic (* &mut self.iterator_queue[0] *)
      | front :: queue =>
          '(found, iter, counter) <- bfsc_skip front (bc_counter s) ;;
          match found with
          | Some nd =>
              counter' <- checked_succ counter ;;
              let '(value, children) := gvcb nd in
              Ok (inr (mkBfsc (bc_is_root s) cache stack (iter :: queue) (counter :: path) (value :: anc)
                              (Some children) counter'))
          | None =>
              '(anc, path, cache, stack) <- cto_next_parent fuel (anc, path, cache, stack) ;;
              match queue with
              | [] => Ok (inr (mkBfsc (bc_is_root s) cache stack [] path [] (bc_children s) 0))
              | _ => Ok (inl (mkBfsc (bc_is_root s) cache stack queue path anc (bc_children s) 0))
              end
          end
      end.

    (** [advance] for binary trees, bfs_iterators/mod.rs 196-270. *)
    Definition bfscb_advance : nat -> bfsc (option Nd) C -> Res (bfsc (option Nd) C) :=
      bfsc_advance_with into_iter bfscb_body.

    Definition bfscb_next (fuel : nat) (s : bfsc (option Nd) C)
      : Res (option (tree_context V C) * bfsc (option Nd) C) :=
      s' <- bfscb_advance fuel s ;; Ok (bfsc_get s', s').
  End Binary.
End BfsContext.
Arguments bfsc : clear implicits.

(** Entry points: [bfs().attach_ancestors()], [bfs().attach_context()] and their panic rule,
    owned.rs 76-89 (binary 276-289; same in borrow.rs, mut_borrow.rs). *)
Definition bfs_attach_ancestors {Nd V} (gvc : Nd -> V * list Nd) (s : bfs_iter Nd) : Res (bfsa Nd V) :=
  match bfs_root s with None => Panic | Some root => Ok (bfsa_new gvc root) end.

Definition bfs_attach_context {Nd V} (gvc : Nd -> V * list Nd) (s : bfs_iter Nd) : Res (bfsc V Nd (list Nd)) :=
  match bfs_root s with
  | None => Panic
  | Some root => let '(v, c) := gvc root in Ok (bfsc_new v c [])
  end.

Definition bfs_attach_context_binary {Nd V} (gvcb : Nd -> V * (option Nd * option Nd)) (s : bfs_iter Nd)
  : Res (bfsc V (option Nd) (option Nd * option Nd)) :=
  match bfs_root s with
  | None => Panic
  | Some root => let '(v, c) := gvcb root in Ok (bfsc_new v c [])
  end.
