(** * ModelDrops: what becomes of the values inside the breadth-first context iterators.

    The owned iterators move every value out of its node.  The values of nodes that are not ancestors of the current one
    wait in [MaybeUninit]s ([TreeNodeVecDeque], bfs_iterators/mod.rs 434-438), which do not drop what they
    hold.  Here the iterator of ModelBfs is run together with a log: a value that goes out of scope is dropped, a value
    inside a [MaybeUninit] that goes out of scope, or is overwritten, is leaked.

    The n-ary and the binary macro are one definition: [fetch] gets the next node from the front iterator, as
    in ModelBfs. *)
From Verif Require Import Prelim Spec ModelNode ModelBfs.

Record dlog (V : Type) := mkLog { dropped : list V; leaked : list V }.
Arguments mkLog {V} _ _.
Arguments dropped {V} _.
Arguments leaked {V} _.

Definition no_log {V} : dlog V := mkLog [] [].
Definition log_drop {V} (vs : list V) (g : dlog V) : dlog V := mkLog (vs ++ dropped g) (leaked g).
Definition log_leak {V} (vs : list V) (g : dlog V) : dlog V := mkLog (dropped g) (vs ++ leaked g).

Definition opt_value {V} (o : option V) : list V := match o with Some v => [v] | None => [] end.

(** The values which are leaked when a [TreeNodeVecDeque] is dropped: its own, and those of the nodes in its deque. *)
Fixpoint cn_values {V} (c : cnode V) : list V :=
  match c with
  | CNode value _ children =>
      opt_value value ++ flat_map (fun o => match o with Some c' => cn_values c' | None => [] end) children
  end.

Section Drops.
  Context {Nd V : Type}.

  (** One iteration of the loop of [advance_dfs], bfs_iterators/mod.rs 116-173.  The deque which is [clear]ed is empty;
      [target.value = MaybeUninit::new(..)] overwrites what is there. *)
  Definition dadvance_dfs_body (starting_depth : nat) (_ : nat) (s : dlog V * cdfs_st (V:=V))
    : Res ((dlog V * cdfs_st (V:=V)) + (dlog V * cdfs_st (V:=V))) :=
    let '(g, (anc, path, cache, stack)) := s in
    match top_children stack cache with
    | [] => Ok (inr s)
    | child :: rest =>
        let '(stack, cache) := set_top_children stack cache rest in
        match child with
        | Some (CNode value seg children) =>
            v <- assume_init value ;;
            let anc := v :: anc in
            let path := seg :: path in
            let has_children := negb (match children with [] => true | _ => false end) in
            let stack := CNode None seg children :: stack in
            if negb has_children && (starting_depth <=? length anc)
            then Ok (inr (g, (anc, path, cache, stack)))
            else Ok (inl (g, (anc, path, cache, stack)))
        | None =>
            let '(stack, cache) :=
              match rest with
              | [] => (stack, cache)
              | _ => set_top_children stack cache (rest ++ [None])
              end in
            '(g, anc, path, stack) <-
              (if 1 <? length anc then
                 match stack with
                 | [] => Panic
                 | CNode old _ children :: stack' =>
                     match anc, path with
                     | v :: anc', p :: path' =>
                         Ok (log_leak (opt_value old) g, anc', path', CNode (Some v) p children :: stack')
                     | _, _ => Panic
                     end
                 end
               else Ok (g, anc, path, stack)) ;;
            match stack with
            | [] => Ok (inl (g, (anc, path, cache, stack)))
            | popped :: stack' =>
                let '(stack'', cache') :=
                  set_top_children stack' cache (top_children stack' cache ++ [Some popped]) in
                Ok (inl (g, (anc, path, cache', stack'')))
            end
        end
    end.

  (** [advance_dfs] bfs_iterators/mod.rs 114-174. *)
  Definition dadvance_dfs (fuel : nat) (s : dlog V * cdfs_st (V:=V)) : Res (dlog V * cdfs_st (V:=V)) :=
    let '(_, (anc, _, _, _)) := s in loop (dadvance_dfs_body (length anc)) fuel s.

  (** The inner [while let] loop, bfs_iterators/mod.rs 69-77 (binary 242-250): [self.traversal_stack.pop()] drops a
      [TreeNodeVecDeque], [self.current_context.ancestors.pop()] drops a value. *)
  Fixpoint ddrop_finished (g : dlog V) (anc : list V) (path : list N) (stack : list (cnode V))
    : dlog V * list V * list N * list (cnode V) :=
    match stack with
    | [] => (g, anc, path, [])
    | last :: stack' =>
        if 1 <? length (cn_children last) then (g, anc, path, stack)
        else ddrop_finished (log_drop (opt_value (hd_error anc)) (log_leak (cn_values last) g)) (tl anc) (tl path) stack'
    end.

  (** bfs_iterators/mod.rs 60-80 (binary 232-253). *)
  Definition dto_next_parent (fuel : nat) (s : dlog V * cdfs_st (V:=V)) : Res (dlog V * cdfs_st (V:=V)) :=
    let '(g, (anc, path, cache, stack)) := s in
    let '(g, anc, path, cache, stack) :=
      match top_children stack cache with
      | [] => let '(g, anc, path, stack) := ddrop_finished g anc path stack in (g, anc, path, cache, stack)
      | l => let '(stack, cache) := set_top_children stack cache (None :: l) in (g, anc, path, cache, stack)
      end in
    dadvance_dfs fuel (g, (anc, path, cache, stack)).

  Context {I C : Type}.
  Variable gv : Nd -> V * C.
  Variable into_iter : C -> list I.
  (** [iter.next()], bfs_iterators/mod.rs 50 (binary: the loop 218-230): the node, the rest of the iterator, and the counter
      for the node's path segment. *)
  Variable fetch : list I -> N -> Res (option Nd * list I * N).

  (** The loop of [advance], bfs_iterators/mod.rs 43-87 (binary 211-259).  [self.current_context.ancestors.clear()] drops
      the values. *)
  Definition dbfs_body (fuel : nat) (x : dlog V * bfsc V I C) : Res ((dlog V * bfsc V I C) + (dlog V * bfsc V I C)) :=
    let '(g, s) := x in
    '(anc, path, cache, stack) <- cmaybe_pop (bc_anc s, bc_path s, bc_cache s, bc_stack s) ;;
    match bc_queue s with
    | [] => Panic
    | front :: queue =>
        '(found, iter, counter) <- fetch front (bc_counter s) ;;
        match found with
        | Some nd =>
            counter' <- checked_succ counter ;;
            let '(value, children) := gv nd in
            Ok (inr (g, mkBfsc (bc_is_root s) cache stack (iter :: queue) (counter :: path) (value :: anc) (Some children) counter'))
        | None =>
            '(g, (anc, path, cache, stack)) <- dto_next_parent fuel (g, (anc, path, cache, stack)) ;;
            match queue with
            | [] => Ok (inr (log_drop anc g, mkBfsc (bc_is_root s) cache stack [] path [] (bc_children s) 0))
            | _ => Ok (inl (g, mkBfsc (bc_is_root s) cache stack queue path anc (bc_children s) 0))
            end
        end
    end.

  (** [advance] bfs_iterators/mod.rs 30-88 (binary 198-260). *)
  Definition dbfs_advance (fuel : nat) (x : dlog V * bfsc V I C) : Res (dlog V * bfsc V I C) :=
    let '(g, s) := x in
    if bc_is_root s then
      Ok (g, mkBfsc false (bc_cache s) (bc_stack s) (bc_queue s) (bc_path s) (bc_anc s) (bc_children s) (bc_counter s))
    else
      match bc_anc s with
      | [] => Ok (g, s)
      | _ =>
          children <- unwrap (bc_children s) ;;
          loop dbfs_body fuel
            (g, mkBfsc false (bc_cache s) (bc_stack s) (bc_queue s ++ [into_iter children])
                       (bc_path s) (bc_anc s) None (bc_counter s))
      end.

  Definition dbfs_next (fuel : nat) (x : dlog V * bfsc V I C) : Res (option (tree_context V C) * (dlog V * bfsc V I C)) :=
    '(g, s) <- dbfs_advance fuel x ;; Ok (bfsc_get s, (g, s)).

  (** [new] owned.rs 116-136 (binary 373-393). *)
  Definition dbfs_new (root : Nd) (path : list N) : dlog V * bfsc V I C :=
    let '(value, children) := gv root in (no_log, bfsc_new value children path).

  (** Dropping the iterator drops the values of the current context; those in [tree_cache] and [traversal_stack] are leaked. *)
  Definition dbfs_drop (x : dlog V * bfsc V I C) : Res (dlog V) :=
    let '(g, s) := x in
    Ok (log_drop (bc_anc s) (log_leak (cn_values (bc_cache s) ++ flat_map cn_values (bc_stack s)) g)).
End Drops.

(** [fetch] for n-ary trees: [iter.next()], bfs_iterators/mod.rs 50. *)
Definition fetch_nary {Nd} (iter : list Nd) (counter : N) : Res (option Nd * list Nd * N) :=
  match iter with
  | [] => Ok (None, [], counter)
  | nd :: iter' => Ok (Some nd, iter', counter)
  end.
