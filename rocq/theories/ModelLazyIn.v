(** * ModelLazyIn: the inorder iterators of one binary tree, with a record of the calls of [get_value_and_children].

    The code is that of ModelIn, where the children of a node are already what [get_value_and_children] gives when it is called, so
    nothing there says that a tree is finite.  Here every state also has a log of the nodes on which [get_value_and_children] was called, last
    call first.  The first loops of [next] and [advance] never call it and are taken from ModelIn. *)
From Verif Require Import Prelim Spec ModelNode ModelIn.

Section LazyIn.
  Context {Nd V : Type}.
  Variable gvcb : Nd -> V * (option Nd * option Nd).

  (** [OwnedDFSInorderIterator] dfs_inorder_iterators/owned.rs 41-48. *)
  Definition lin : Type := list Nd * in_iter Nd V.
  (** [new] owned.rs 54-63. *)
  Definition lin_new (root : Nd) : lin := ([], in_new root).

  (** The second loop of [next], mod.rs 24-30. *)
  Definition lin_descend_body (_ : nat) (s : list Nd * (option Nd * list (option Nd) * list V))
    : Res (list Nd * (option Nd * list (option Nd) * list V) + list Nd * (list (option Nd) * list V)) :=
    let '(log, (current, rights, items)) := s in
    match current with
    | None => Ok (inr (log, (rights, items)))
    | Some n =>
        let '(value, (l, r)) := gvcb n in
        Ok (inl (n :: log, (l, r :: rights, value :: items)))
    end.

  (** [next] mod.rs 5-35. *)
  Definition lin_next (fuel : nat) (s : lin) : Res (option V * lin) :=
    let '(log, s) := s in
    r <- loop in_find_body fuel (in_right s, in_items s) ;;
    match r with
    | inl (o, items, rights) => Ok (o, (log, mkIn rights items true))
    | inr (current, rights) =>
        '(log, (rights, items)) <- loop lin_descend_body fuel (log, (current, rights, in_items s)) ;;
        Ok (hd_error items, (log, mkIn rights (tl items) true))
    end.

  (** [OwnedDFSInorderIteratorWithAncestors] owned.rs 120-127. *)
  Definition lina : Type := list Nd * ina Nd V.
  (** [new] owned.rs 133-142. *)
  Definition lina_new (root : Nd) : lina := ([], ina_new root).

  (** The second loop of [advance], mod.rs 66-73. *)
  Definition lina_descend_body (_ : nat) (s : option Nd * lina) : Res (option Nd * lina + lina) :=
    let '(current, (log, s)) := s in
    match current with
    | None => Ok (inr (log, s))
    | Some n =>
        let '(value, (l, r)) := gvcb n in
        Ok (inl (l, (n :: log, mkIna (r :: ia_right s) (value :: ia_items s) (WentLeft :: ia_status s))))
    end.

  (** [advance] mod.rs 39-77. *)
  Definition lina_advance (fuel : nat) (s : lina) : Res lina :=
    let '(log, s) := s in
    r <- loop ina_find_body fuel s ;;
    match r with
    | Return s' => Ok (log, s')
    | Descend n s' =>
        '(log, s'') <- loop lina_descend_body fuel (Some n, (log, s')) ;;
        st <- set_returned (ia_status s'') ;;
        Ok (log, mkIna (ia_right s'') (ia_items s'') st)
    end.
  Definition lina_next (fuel : nat) (s : lina) : Res (option (list V) * lina) :=
    s' <- lina_advance fuel s ;; Ok (ina_get (snd s'), s').

  (** [BorrowedDFSInorderIteratorWithContext] borrow.rs 180-188 (mut_borrow.rs 192-200). *)
  Definition linc : Type := list Nd * inc Nd V.
  (** [new] borrow.rs 194-213. *)
  Definition linc_new (root : Nd) (path : list N) : linc := ([], inc_new root path).

  (** The second loop of [advance], borrow.rs 252-270 (mut_borrow.rs 270-289). *)
  Definition linc_descend_body (_ : nat) (s : option Nd * linc) : Res (option Nd * linc + linc) :=
    let '(current, (log, s)) := s in
    match current with
    | None => Ok (inr (log, s))
    | Some n =>
        let '(value, (l, r)) := gvcb n in
        Ok (inl (l, (n :: log, mkInc (r :: ic_right s) (push_segment (ic_status s) (ic_path s)) (value :: ic_anc s)
                                     (ic_children s) ((l, r) :: ic_conts s) (WentLeft :: ic_status s))))
    end.

  (** [advance] borrow.rs 222-280 (mut_borrow.rs 234-299). *)
  Definition linc_advance (fuel : nat) (s : linc) : Res linc :=
    let '(log, s) := s in
    r <- loop inc_find_body fuel s ;;
    match r with
    | Return s' => Ok (log, s')
    | Descend n s' =>
        '(log, s'') <- loop linc_descend_body fuel (Some n, (log, s')) ;;
        st <- set_returned (ic_status s'') ;;
        match ic_conts s'' with
        | [] => Panic (* pop().expect(..) *)
        | c :: conts => Ok (log, mkInc (ic_right s'') (ic_path s'') (ic_anc s'') (Some c) conts st)
        end
    end.
  Definition linc_next (fuel : nat) (s : linc) : Res (option (tree_context V (option Nd * option Nd)) * linc) :=
    s' <- linc_advance fuel s ;; Ok (inc_get (snd s'), s').

  (** [OwnedDFSInorderIteratorWithContext] owned.rs 188-195. *)
  Definition linco : Type := list Nd * inco Nd V.
  (** [new] owned.rs 201-216. *)
  Definition linco_new (root : Nd) (path : list N) : linco := ([], inco_new root path).

  (** The second loop of [advance], owned.rs 255-271. *)
  Definition linco_descend_body (_ : nat) (s : option Nd * linco) : Res (option Nd * linco + linco) :=
    let '(current, (log, s)) := s in
    match current with
    | None => Ok (inr (log, s))
    | Some n =>
        let '(value, (l, r)) := gvcb n in
        Ok (inl (l, (n :: log, mkInco (r :: io_right s) (push_segment (io_status s) (io_path s)) (value :: io_anc s)
                                      (WentLeft :: io_status s))))
    end.

  (** [advance] owned.rs 225-275. *)
  Definition linco_advance (fuel : nat) (s : linco) : Res linco :=
    let '(log, s) := s in
    r <- loop inco_find_body fuel s ;;
    match r with
    | Return s' => Ok (log, s')
    | Descend n s' =>
        '(log, s'') <- loop linco_descend_body fuel (Some n, (log, s')) ;;
        st <- set_returned (io_status s'') ;;
        Ok (log, mkInco (io_right s'') (io_path s'') (io_anc s'') st)
    end.
  Definition linco_next (fuel : nat) (s : linco) : Res (option (tree_context V unit) * linco) :=
    s' <- linco_advance fuel s ;; Ok (inco_get (snd s'), s').
End LazyIn.
Arguments lin : clear implicits.
Arguments lina : clear implicits.
Arguments linc : clear implicits.
Arguments linco : clear implicits.
