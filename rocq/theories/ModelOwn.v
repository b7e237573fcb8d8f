(** * ModelOwn: the context iterators over children containers that own memory.

    [BorrowedChildren] and the like may be any [IntoIterator] (prelude.rs 750, 1858, 2962), for example a [Vec] of references,
    whose buffer is released when the container, or the iterator made from it, is dropped.  Here such memory has an
    identity, and every drop that the code performs is a step of the model.  Releasing memory twice and reading it after
    it was released are undefined behaviour.

    The rest of the code is as in ModelPost, ModelPre and ModelBfs. *)
From Verif Require Import Prelim Spec ModelNode ModelPre ModelPost ModelBfs.

(** How many blocks of memory have been handed out (they are numbered from 0), and which were released. *)
Record heap := mkHeap { h_next : nat; h_freed : list nat }.
Definition heap0 : heap := mkHeap 0 [].

Definition is_freed (h : heap) (m : nat) : bool := existsb (Nat.eqb m) (h_freed h).

Section Own.
  Context {Nd V : Type}.
  Variable gvc : Nd -> V * list Nd.
  (** Whether the container given by [get_value_and_children] of this node owns memory: [Vec]s that are not
      empty do, slices do not. *)
  Variable owns : Nd -> bool.

  (** A container, or an iterator made from it: its memory, and its (remaining) items. *)
  Record cont := mkCont { ct_mem : option nat; ct_items : list Nd }.

  (** [get_value_and_children]. *)
  Definition take_node (h : heap) (n : Nd) : heap * V * cont :=
    let '(value, children) := gvc n in
    if owns n then (mkHeap (S (h_next h)) (h_freed h), value, mkCont (Some (h_next h)) children)
    else (h, value, mkCont None children).

  (** Dropping a container or an iterator. *)
  Definition release (h : heap) (c : cont) : Res heap :=
    match ct_mem c with
    | None => Ok h
    | Some m => if is_freed h m then UB else Ok (mkHeap (h_next h) (m :: h_freed h))
    end.
  Definition release_opt (h : heap) (o : option cont) : Res heap :=
    match o with None => Ok h | Some c => release h c end.
  (** Dropping a [Vec] of them. *)
  Fixpoint release_all (h : heap) (l : list cont) : Res heap :=
    match l with
    | [] => Ok h
    | c :: l' => h <- release h c ;; release_all h l'
    end.

  (** Reading from a container. *)
  Definition read (h : heap) (c : cont) : Res (list Nd) :=
    match ct_mem c with
    | Some m => if is_freed h m then UB else Ok (ct_items c)
    | None => Ok (ct_items c)
    end.

  (** [Iterator::next] of the iterator made from a container. *)
  Definition iter_next (h : heap) (c : cont) : Res (option (Nd * cont)) :=
    items <- read h c ;;
    match items with
    | [] => Ok None
    | n :: items' => Ok (Some (n, mkCont (ct_mem c) items'))
    end.

  (** ** Postorder: [BorrowedDFSPostorderIteratorWithContext] dfs_postorder_iterators/borrow.rs 105-113 ([MutBorrowed..]
      mut_borrow.rs 109-117). *)
  Record opost := mkOpost {
    op_heap : heap;
    op_root : option Nd;
    op_stack : list cont;              (* traversal_stack, head = last *)
    op_conts : list cont;              (* into_iterator_stack, head = last *)
    op_path : list N;
    op_anc : list V;
    op_children : option cont
  }.

  (** [new] borrow.rs 119-130. *)
  Definition opost_new (root : Nd) (path : list N) : opost := mkOpost heap0 (Some root) [] [] (rev path) [] None.

  Definition op_loop_st : Type := heap * list cont * list cont * list N * list V.

  (** The loop of [advance], borrow.rs 156-189 (mut_borrow.rs 164-197).  [ptr::read(&children)] makes a second
      value with the same memory.  [self.current_context.children = Some(..)] drops the children of the context before
      ([old]); [self.traversal_stack.pop()] drops an iterator. *)
  Definition opost_body (old : option cont) (_ : nat) (s : op_loop_st) : Res (op_loop_st + op_loop_st * cont) :=
    let '(h, stack, conts, path, anc) := s in
    item <- match stack with [] => Ok None | top :: _ => iter_next h top end ;;
    match item with
    | Some (n, top) =>
        path <- incr_last path ;;
        let '(h, value, children) := take_node h n in
        Ok (inl (h, children :: top :: tl stack, children :: conts, usize_max :: path, value :: anc))
    | None =>
        match conts with
        | [] => Panic (* pop().expect(..) *)
        | c :: conts' =>
            h <- release_opt h old ;;
            h <- release_opt h (hd_error stack) ;;
            Ok (inr ((h, tl stack, conts', tl path, anc), c))
        end
    end.

  (** [advance] borrow.rs 138-190 (mut_borrow.rs 145-198). *)
  Definition opost_advance (fuel : nat) (s : opost) : Res opost :=
    match op_root s with
    | Some root =>
        let '(h, value, children) := take_node (op_heap s) root in
        '((h, stack, conts, path, anc), c) <-
          loop (opost_body (op_children s)) fuel
            (h, children :: op_stack s, children :: op_conts s, usize_max :: op_path s, value :: op_anc s) ;;
        Ok (mkOpost h None stack conts path anc (Some c))
    | None =>
        match tl (op_anc s) with
        | [] => Ok (mkOpost (op_heap s) None (op_stack s) (op_conts s) (op_path s) [] (op_children s))
        | anc =>
            '((h, stack, conts, path, anc), c) <-
              loop (opost_body (op_children s)) fuel (op_heap s, op_stack s, op_conts s, op_path s, anc) ;;
            Ok (mkOpost h None stack conts path anc (Some c))
        end
    end.

  (** [get] borrow.rs 192-198: the context, here without its children. *)
  Definition opost_get (s : opost) : option (tree_context V unit) :=
    match op_anc s with [] => None | anc => Some (mkCtx (rev (op_path s)) (rev anc) None) end.

  (** [next()] by a caller who does not look at the children. *)
  Definition opost_next (fuel : nat) (s : opost) : Res (option (tree_context V unit) * opost) :=
    s' <- opost_advance fuel s ;; Ok (opost_get s', s').

  (** [next()] by a caller who then reads [context.children()]. *)
  Definition opost_next_reading (fuel : nat) (s : opost) : Res (option (tree_context V (list Nd)) * opost) :=
    s' <- opost_advance fuel s ;;
    match op_anc s' with
    | [] => Ok (None, s')
    | anc =>
        c <- unwrap (op_children s') ;;
        l <- read (op_heap s') c ;;
        Ok (Some (mkCtx (rev (op_path s')) (rev anc) (Some l)), s')
    end.

  (** Dropping the iterator: its fields in the order of their declaration, the elements of a [Vec] from the bottom. *)
  Definition opost_drop (s : opost) : Res heap :=
    h <- release_all (op_heap s) (rev (op_stack s)) ;;
    h <- release_all h (rev (op_conts s)) ;;
    release_opt h (op_children s).

  (** ** Preorder: dfs_preorder_iterators/owned.rs 250-257 (same in borrow.rs, mut_borrow.rs). *)
  Record opre := mkOpre {
    oq_heap : heap;
    oq_root : option Nd;
    oq_stack : list cont;
    oq_path : list N;
    oq_anc : list V;
    oq_children : option cont
  }.

  Definition opre_new (root : Nd) (path : list N) : opre := mkOpre heap0 (Some root) [] (rev path) [] None.

  Definition oq_loop_st : Type := heap * list cont * list N * list V.

  (** The loop of [advance], dfs_preorder_iterators/mod.rs 190-208; [self.traversal_stack.pop()] drops an iterator. *)
  Definition opre_body (_ : nat) (s : oq_loop_st) : Res (oq_loop_st + option Nd * oq_loop_st) :=
    let '(h, stack, path, anc) := s in
    match stack with
    | [] => Ok (inr (None, (h, [], path, anc)))
    | top :: rest =>
        item <- iter_next h top ;;
        match item with
        | Some (n, top') => path <- incr_last path ;; Ok (inr (Some n, (h, top' :: rest, path, anc)))
        | None => h <- release h top ;; Ok (inl (h, rest, tl path, tl anc))
        end
    end.

  (** [advance] mod.rs 168-217.  [self.current_context.children.take()] moves the container into its iterator, so the
      assignment of the new children drops nothing. *)
  Definition opre_advance (fuel : nat) (s : opre) : Res opre :=
    match oq_root s with
    | Some root =>
        let '(h, value, children) := take_node (oq_heap s) root in
        h <- release_opt h (oq_children s) ;;
        Ok (mkOpre h None (oq_stack s) (oq_path s) (value :: oq_anc s) (Some children))
    | None =>
        match oq_anc s with
        | [] => Ok s
        | _ =>
            let '(stack, path, anc) :=
              match oq_children s with
              | Some children => (children :: oq_stack s, usize_max :: oq_path s, oq_anc s)
              | None =>
                  (oq_stack s,
                   match oq_path s with
                   | p :: path' => if (p =? usize_max)%N then path' else p :: path'
                   | [] => []
                   end,
                   tl (oq_anc s))
              end in
            '(next, (h, stack, path, anc)) <- loop opre_body fuel (oq_heap s, stack, path, anc) ;;
            match next with
            | Some node =>
                let '(h, value, children) := take_node h node in
                Ok (mkOpre h None stack path (value :: anc) (Some children))
            | None => Ok (mkOpre h None stack path [] None)
            end
        end
    end.

  (** [next()], after which the caller reads [context.children()]. *)
  Definition opre_next_reading (fuel : nat) (s : opre) : Res (option (tree_context V (list Nd)) * opre) :=
    s' <- opre_advance fuel s ;;
    match oq_anc s' with
    | [] => Ok (None, s')
    | anc =>
        c <- unwrap (oq_children s') ;;
        l <- read (oq_heap s') c ;;
        Ok (Some (mkCtx (rev (oq_path s')) (rev anc) (Some l)), s')
    end.

  (** Dropping the iterator. *)
  Definition opre_drop (s : opre) : Res heap :=
    h <- release_all (oq_heap s) (rev (oq_stack s)) ;;
    release_opt h (oq_children s).

  (** ** Breadth first: bfs_iterators/owned.rs 100-110 (same in borrow.rs, mut_borrow.rs). *)
  Record obfs := mkObfs {
    ob_heap : heap;
    ob_is_root : bool;
    ob_cache : cnode V;
    ob_stack : list (cnode V);
    ob_queue : list cont;                (* iterator_queue, head = front *)
    ob_path : list N;
    ob_anc : list V;
    ob_children : option cont;
    ob_counter : N
  }.

  (** [new] owned.rs 116-136. *)
  Definition obfs_new (root : Nd) (path : list N) : obfs :=
    let '(h, value, children) := take_node heap0 root in
    mkObfs h true cn_default [] [] (rev path) [value] (Some children) 0.

  (** The loop of [advance], bfs_iterators/mod.rs 43-87.  [self.current_context.children = Some(..)] drops what is there;
      [self.iterator_queue.pop_front()] drops an iterator. *)
  Definition obfs_body (fuel : nat) (s : obfs) : Res (obfs + obfs) :=
    '(anc, path, cache, stack) <- cmaybe_pop (ob_anc s, ob_path s, ob_cache s, ob_stack s) ;;
    match ob_queue s with
    | [] => Panic (* &mut self.iterator_queue[0] *)
    | front :: queue =>
        item <- iter_next (ob_heap s) front ;;
        match item with
        | Some (nd, iter) =>
            counter <- checked_succ (ob_counter s) ;;
            let '(h, value, children) := take_node (ob_heap s) nd in
            h <- release_opt h (ob_children s) ;;
            Ok (inr (mkObfs h (ob_is_root s) cache stack (iter :: queue) (ob_counter s :: path) (value :: anc)
                            (Some children) counter))
        | None =>
            '(anc, path, cache, stack) <- cto_next_parent fuel (anc, path, cache, stack) ;;
            h <- release (ob_heap s) front ;;
            match queue with
            | [] => Ok (inr (mkObfs h (ob_is_root s) cache stack [] path [] (ob_children s) 0))
            | _ => Ok (inl (mkObfs h (ob_is_root s) cache stack queue path anc (ob_children s) 0))
            end
        end
    end.

  (** [advance] bfs_iterators/mod.rs 30-88. *)
  Definition obfs_advance (fuel : nat) (s : obfs) : Res obfs :=
    if ob_is_root s then
      Ok (mkObfs (ob_heap s) false (ob_cache s) (ob_stack s) (ob_queue s) (ob_path s) (ob_anc s) (ob_children s)
                 (ob_counter s))
    else
      match ob_anc s with
      | [] => Ok s
      | _ =>
          children <- unwrap (ob_children s) ;;
          loop obfs_body fuel
            (mkObfs (ob_heap s) false (ob_cache s) (ob_stack s) (ob_queue s ++ [children])
                    (ob_path s) (ob_anc s) None (ob_counter s))
      end.

  (** [next()], after which the caller reads [context.children()]. *)
  Definition obfs_next_reading (fuel : nat) (s : obfs) : Res (option (tree_context V (list Nd)) * obfs) :=
    s' <- obfs_advance fuel s ;;
    match ob_anc s' with
    | [] => Ok (None, s')
    | anc =>
        c <- unwrap (ob_children s') ;;
        l <- read (ob_heap s') c ;;
        Ok (Some (mkCtx (rev (ob_path s')) (rev anc) (Some l)), s')
    end.

  (** Dropping the iterator. *)
  Definition obfs_drop (s : obfs) : Res heap :=
    h <- release_all (ob_heap s) (ob_queue s) ;;
    release_opt h (ob_children s).
End Own.
Arguments cont : clear implicits.
Arguments opost : clear implicits.
Arguments opre : clear implicits.
Arguments obfs : clear implicits.

(** [k] calls of [next()], after which the iterator is dropped. *)
Definition use_and_drop {S O R} (next : nat -> S -> Res (O * S)) (drop : S -> Res R) (k : nat) (s : S) (fuel : nat)
  : Res (list O * R) :=
  '(os, s') <- calls next k s fuel ;; r <- drop s' ;; Ok (os, r).
