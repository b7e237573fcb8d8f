(** * ModelIn: depth-first inorder iterators over binary trees (dfs_inorder_iterators/).

    Stacks ([Vec]) are lists whose head is the top. *)
From Verif Require Import Prelim Spec ModelNode.

Section In.
  Context {Nd V : Type}.
  Variable gvcb : Nd -> V * (option Nd * option Nd).

  (** [OwnedDFSInorderIterator] owned.rs 41-48. *)
  Record in_iter := mkIn {
    in_right : list (option Nd);
    in_items : list V;
    in_moved : bool
  }.

  (** [new] owned.rs 54-63. *)
  Definition in_new (root : Nd) : in_iter := mkIn [Some root] [] false.

  (** The first loop of [next], mod.rs 10-22 ([while current.is_none()]): either the whole call returns
      ([inr (inl ..)]) or the loop ends with [current] ([inr (inr ..)]). *)
  Definition in_find_body (_ : nat) (s : list (option Nd) * list V)
    : Res (list (option Nd) * list V +
           ((option V * list V * list (option Nd)) + (option Nd * list (option Nd)))) :=
    let '(rights, items) := s in
    if length rights =? length items
    then Ok (inr (inl (hd_error items, tl items, rights)))
    else
      let '(current, rights) :=
        match rights with
        | popped :: rights' => (popped, rights')
        | [] => (None, [])
        end in
      match rights with
      | [] => Ok (inr (inr (current, rights)))            (* break *)
      | _ => match current with
             | None => Ok (inl (rights, items))           (* current.is_none(): loop again *)
             | Some _ => Ok (inr (inr (current, rights)))
             end
      end.

  (** The second loop of [next], mod.rs 24-30 ([while let Some(current_val) = current]): go left. *)
  Definition in_descend_body (_ : nat) (s : option Nd * list (option Nd) * list V)
    : Res (option Nd * list (option Nd) * list V + list (option Nd) * list V) :=
    let '(current, rights, items) := s in
    match current with
    | None => Ok (inr (rights, items))
    | Some n =>
        let '(value, (l, r)) := gvcb n in
        Ok (inl (l, r :: rights, value :: items))
    end.

  (** [next] mod.rs 5-35. *)
  Definition in_next (fuel : nat) (s : in_iter) : Res (option V * in_iter) :=
    r <- loop in_find_body fuel (in_right s, in_items s) ;;
    match r with
    | inl (o, items, rights) => Ok (o, mkIn rights items true)
    | inr (current, rights) =>
        '(rights, items) <- loop in_descend_body fuel (current, rights, in_items s) ;;
        Ok (hd_error items, mkIn rights (tl items) true)
    end.

  (** [TraversalStatus] mod.rs 117-121. *)
  Inductive status := WentLeft | ReturnedSelf | WentRight.

  (** [OwnedDFSInorderIteratorWithAncestors] owned.rs 120-127. *)
  Record ina := mkIna {
    ia_right : list (option Nd);
    ia_items : list V;
    ia_status : list status
  }.

  (** [new] owned.rs 133-142. *)
  Definition ina_new (root : Nd) : ina := mkIna [Some root] [] [].

  (** Outcome of the first loop of [advance]: return from [advance], or go on with [current = Some n]. *)
  Inductive found (S : Type) := Return (s : S) | Descend (n : Nd) (s : S).
  Arguments Return {S} s.
  Arguments Descend {S} n s.

  (** The first loop of [advance], mod.rs 41-64. *)
  Definition ina_find_body (_ : nat) (s : ina) : Res (ina + found ina) :=
    match ia_status s with
    | WentRight :: st => Ok (inl (mkIna (ia_right s) (tl (ia_items s)) st))
    | WentLeft :: st => Ok (inr (Return (mkIna (ia_right s) (ia_items s) (ReturnedSelf :: st))))
    | _ =>
        let st := match ia_status s with ReturnedSelf :: st => WentRight :: st | st => st end in
        match ia_right s with
        | Some n :: rights => Ok (inr (Descend n (mkIna rights (ia_items s) st)))
        | None :: rights => Ok (inl (mkIna rights (ia_items s) st))
        | [] => Ok (inr (Return (mkIna [] [] st)))
        end
    end.

  (** The second loop of [advance], mod.rs 66-73. *)
  Definition ina_descend_body (_ : nat) (s : option Nd * ina) : Res (option Nd * ina + ina) :=
    let '(current, s) := s in
    match current with
    | None => Ok (inr s)
    | Some n =>
        let '(value, (l, r)) := gvcb n in
        Ok (inl (l, mkIna (r :: ia_right s) (value :: ia_items s) (WentLeft :: ia_status s)))
    end.

  (** [self.status_stack[status_stack_len - 1] = TraversalStatus::ReturnedSelf], mod.rs 75-76: panics on an
      empty stack. *)
  Definition set_returned (st : list status) : Res (list status) :=
    match st with [] => Panic | _ :: st' => Ok (ReturnedSelf :: st') end.

  (** [advance] mod.rs 39-77. *)
  Definition ina_advance (fuel : nat) (s : ina) : Res ina :=
    r <- loop ina_find_body fuel s ;;
    match r with
    | Return s' => Ok s'
    | Descend n s' =>
        s'' <- loop ina_descend_body fuel (Some n, s') ;;
        st <- set_returned (ia_status s'') ;;
        Ok (mkIna (ia_right s'') (ia_items s'') st)
    end.

  (** [get] mod.rs 79-85. *)
  Definition ina_get (s : ina) : option (list V) :=
    match ia_items s with [] => None | items => Some (rev items) end.

  Definition ina_next (fuel : nat) (s : ina) : Res (option (list V) * ina) :=
    s' <- ina_advance fuel s ;; Ok (ina_get s', s').

  (** [BorrowedDFSInorderIteratorWithContext] borrow.rs 180-188 (mut_borrow.rs 192-200): with the
      containers of the nodes not yielded yet. *)
  Record inc := mkInc {
    ic_right : list (option Nd);
    ic_path : list N;
    ic_anc : list V;
    ic_children : option (option Nd * option Nd);
    ic_conts : list (option Nd * option Nd);       (* into_iterator_stack *)
    ic_status : list status
  }.

  (** [new] borrow.rs 194-213. *)
  Definition inc_new (root : Nd) (path : list N) : inc := mkInc [Some root] (rev path) [] None [] [].

  (** The first loop of [advance], borrow.rs 224-250 (mut_borrow.rs 236-268). *)
  Definition inc_find_body (_ : nat) (s : inc) : Res (inc + found inc) :=
    match ic_status s with
    | WentRight :: st =>
        Ok (inl (mkInc (ic_right s) (tl (ic_path s)) (tl (ic_anc s)) (ic_children s) (ic_conts s) st))
    | WentLeft :: st =>
        match ic_conts s with
        | [] => Panic (* pop().unwrap() *)
        | c :: conts =>
            Ok (inr (Return (mkInc (ic_right s) (ic_path s) (ic_anc s) (Some c) conts (ReturnedSelf :: st))))
        end
    | _ =>
        let st := match ic_status s with ReturnedSelf :: st => WentRight :: st | st => st end in
        match ic_right s with
        | Some n :: rights =>
            Ok (inr (Descend n (mkInc rights (ic_path s) (ic_anc s) (ic_children s) (ic_conts s) st)))
        | None :: rights => Ok (inl (mkInc rights (ic_path s) (ic_anc s) (ic_children s) (ic_conts s) st))
        | [] => Ok (inr (Return (mkInc [] (ic_path s) [] (ic_children s) (ic_conts s) st)))
        end
    end.

  (** Path segment pushed for a node entered below the current status, borrow.rs 261-267. *)
  Definition push_segment (st : list status) (path : list N) : list N :=
    match st with
    | [] => path
    | WentRight :: _ => 1%N :: path
    | _ => 0%N :: path
    end.

  (** The second loop of [advance], borrow.rs 252-270 (mut_borrow.rs 270-289). *)
  Definition inc_descend_body (_ : nat) (s : option Nd * inc) : Res (option Nd * inc + inc) :=
    let '(current, s) := s in
    match current with
    | None => Ok (inr s)
    | Some n =>
        let '(value, (l, r)) := gvcb n in
        Ok (inl (l, mkInc (r :: ic_right s) (push_segment (ic_status s) (ic_path s)) (value :: ic_anc s)
                          (ic_children s) ((l, r) :: ic_conts s) (WentLeft :: ic_status s)))
    end.

  (** [advance] borrow.rs 222-280 (mut_borrow.rs 234-299). *)
  Definition inc_advance (fuel : nat) (s : inc) : Res inc :=
    r <- loop inc_find_body fuel s ;;
    match r with
    | Return s' => Ok s'
    | Descend n s' =>
        s'' <- loop inc_descend_body fuel (Some n, s') ;;
        st <- set_returned (ic_status s'') ;;
        match ic_conts s'' with
        | [] => Panic (* pop().expect(..) *)
        | c :: conts => Ok (mkInc (ic_right s'') (ic_path s'') (ic_anc s'') (Some c) conts st)
        end
    end.

  (** [get] borrow.rs 282-288. *)
  Definition inc_get (s : inc) : option (tree_context V (option Nd * option Nd)) :=
    match ic_anc s with
    | [] => None
    | anc => Some (mkCtx (rev (ic_path s)) (rev anc) (ic_children s))
    end.

  Definition inc_next (fuel : nat) (s : inc) : Res (option (tree_context V (option Nd * option Nd)) * inc) :=
    s' <- inc_advance fuel s ;; Ok (inc_get s', s').

  (** [OwnedDFSInorderIteratorWithContext] owned.rs 188-195: contexts without children. *)
  Record inco := mkInco {
    io_right : list (option Nd);
    io_path : list N;
    io_anc : list V;
    io_status : list status
  }.

  (** [new] owned.rs 201-216. *)
  Definition inco_new (root : Nd) (path : list N) : inco := mkInco [Some root] (rev path) [] [].

  (** The first loop of [advance], owned.rs 227-253. *)
  Definition inco_find_body (_ : nat) (s : inco) : Res (inco + found inco) :=
    match io_status s with
    | WentRight :: st => Ok (inl (mkInco (io_right s) (tl (io_path s)) (tl (io_anc s)) st))
    | WentLeft :: st => Ok (inr (Return (mkInco (io_right s) (io_path s) (io_anc s) (ReturnedSelf :: st))))
    | _ =>
        let st := match io_status s with ReturnedSelf :: st => WentRight :: st | st => st end in
        match io_right s with
        | Some n :: rights => Ok (inr (Descend n (mkInco rights (io_path s) (io_anc s) st)))
        | None :: rights => Ok (inl (mkInco rights (io_path s) (io_anc s) st))
        | [] => Ok (inr (Return (mkInco [] (io_path s) [] st)))
        end
    end.

  (** The second loop of [advance], owned.rs 255-271. *)
  Definition inco_descend_body (_ : nat) (s : option Nd * inco) : Res (option Nd * inco + inco) :=
    let '(current, s) := s in
    match current with
    | None => Ok (inr s)
    | Some n =>
        let '(value, (l, r)) := gvcb n in
        Ok (inl (l, mkInco (r :: io_right s) (push_segment (io_status s) (io_path s)) (value :: io_anc s)
                           (WentLeft :: io_status s)))
    end.

  (** [advance] owned.rs 225-275. *)
  Definition inco_advance (fuel : nat) (s : inco) : Res inco :=
    r <- loop inco_find_body fuel s ;;
    match r with
    | Return s' => Ok s'
    | Descend n s' =>
        s'' <- loop inco_descend_body fuel (Some n, s') ;;
        st <- set_returned (io_status s'') ;;
        Ok (mkInco (io_right s'') (io_path s'') (io_anc s'') st)
    end.

  (** [get] owned.rs 277-283. *)
  Definition inco_get (s : inco) : option (tree_context V unit) :=
    match io_anc s with
    | [] => None
    | anc => Some (mkCtx (rev (io_path s)) (rev anc) None)
    end.

  Definition inco_next (fuel : nat) (s : inco) : Res (option (tree_context V unit) * inco) :=
    s' <- inco_advance fuel s ;; Ok (inco_get s', s').

  (** [attach_context], [attach_ancestors]: owned.rs 93-108 ([moved] decides; the root is at the top
      of [right_stack]). *)
  Definition in_attach {X} (mk : Nd -> X) (s : in_iter) : Res X :=
    if in_moved s then Panic
    else match in_right s with
         | Some root :: _ => Ok (mk root)
         | _ => Panic (* root.unwrap().unwrap() *)
         end.
  Definition in_attach_ancestors : in_iter -> Res ina := in_attach ina_new.
  Definition in_attach_context : in_iter -> Res inc := in_attach (fun r => inc_new r []).
  Definition in_attach_context_owned : in_iter -> Res inco := in_attach (fun r => inco_new r []).
End In.
Arguments in_iter : clear implicits.
Arguments mkIn {Nd V} _ _ _.
Arguments in_right {Nd V} _.
Arguments in_items {Nd V} _.
Arguments in_moved {Nd V} _.
Arguments ina : clear implicits.
Arguments mkIna {Nd V} _ _ _.
Arguments ia_right {Nd V} _.
Arguments ia_items {Nd V} _.
Arguments ia_status {Nd V} _.
Arguments inc : clear implicits.
Arguments mkInc {Nd V} _ _ _ _ _ _.
Arguments ic_right {Nd V} _.
Arguments ic_path {Nd V} _.
Arguments ic_anc {Nd V} _.
Arguments ic_children {Nd V} _.
Arguments ic_conts {Nd V} _.
Arguments ic_status {Nd V} _.
Arguments inco : clear implicits.
Arguments mkInco {Nd V} _ _ _ _.
Arguments io_right {Nd V} _.
Arguments io_path {Nd V} _.
Arguments io_anc {Nd V} _.
Arguments io_status {Nd V} _.
Arguments Return {Nd S} s.
Arguments Descend {Nd S} n s.
