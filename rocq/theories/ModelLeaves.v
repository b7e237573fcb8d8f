(** * ModelLeaves: the [leaves()] iterators (leaves_iterators/).

    Stacks ([Vec]) are lists whose head is the top, queues ([VecDeque]) lists whose head is the front. *)
From Verif Require Import Prelim Spec ModelNode ModelBfs ModelPre ModelPost ModelIn.

Definition is_nil {A} (l : list A) : bool := match l with [] => true | _ => false end.

Section LeavesDfs.
  Context {Nd V : Type}.
  Variable gvc : Nd -> V * list Nd.

  (** [OwnedLeavesIterator] / [OwnedBinaryLeavesIterator], depth_first/owned.rs 6-14, 25-34. *)
  Record dleaves := mkDl {
    dl_root : option Nd;
    dl_bottom : list (list Nd);       (* traversal_stack_bottom *)
    dl_top : list (list Nd);          (* traversal_stack_top *)
    dl_items : list V                 (* item_stack *)
  }.

  (** The loop of [next], depth_first/mod.rs 19-43; the flag is [just_added]. *)
  Definition dleaves_body (_ : nat) (st : bool * dleaves) : Res (bool * dleaves + option V * dleaves) :=
    let '(just_added, s) := st in
    match dl_top s with
    | (n :: next_iter) :: rest =>
        let '(value, children) := gvc n in
        Ok (inl (true, mkDl (dl_root s) (dl_bottom s) (children :: next_iter :: rest) (value :: dl_items s)))
    | [] :: rest =>
        let popped := hd_error (dl_items s) in
        let s' := mkDl (dl_root s) (dl_bottom s) rest (tl (dl_items s)) in
        if just_added then Ok (inr (popped, s')) else Ok (inl (just_added, s'))
    | [] =>
        match dl_bottom s with
        | (n :: next_iter) :: rest =>
            let '(value, children) := gvc n in
            Ok (inl (just_added, mkDl (dl_root s) (next_iter :: rest) [children] (value :: dl_items s)))
        | [] :: rest => Ok (inl (just_added, mkDl (dl_root s) rest [] (dl_items s)))
        | [] => Ok (inr (None, s))
        end
    end.

  (** [next] depth_first/mod.rs 5-47. *)
  Definition dleaves_next (fuel : nat) (s : dleaves) : Res (option V * dleaves) :=
    match dl_root s with
    | Some root =>
        let '(value, children) := gvc root in
        loop dleaves_body fuel
          (true, mkDl None (dl_bottom s) (children :: dl_top s) (value :: dl_items s))
    | None => loop dleaves_body fuel (false, s)
    end.

  (** [leaves()] of the preorder iterator, dfs_preorder_iterators/owned.rs 159-166 (binary 465-472). *)
  Definition pre_leaves (s : pre_iter Nd) : dleaves := mkDl (pre_root s) (pre_stack s) [] [].

  (** [leaves()] of the postorder iterator, dfs_postorder_iterators/owned.rs 66-73 (binary 286-293). *)
  Definition post_leaves (s : post_iter Nd V) : dleaves := mkDl (po_root s) (po_stack s) [] [].

  (** [leaves()] of the inorder iterator, dfs_inorder_iterators/owned.rs 66-90.  (Here [gvc] is the
      [get_value_and_children] of the binary node.) *)
  Definition in_leaves (s : in_iter Nd V) : Res dleaves :=
    if in_moved s then Ok (mkDl None (map opt_list (in_right s)) [] (in_items s))
    else match in_right s with
         | [] => Panic
         | r :: _ => Ok (mkDl r [] [] (in_items s))
         end.

  (** [OwnedDFSLeavesPostorderIteratorWithAncestors], ancestors_depth_first/owned.rs. *)
  Record daleaves := mkDa {
    da_root : option Nd;
    da_items : list V;
    da_old : list (list Nd);          (* old_traversal_stack *)
    da_new : list (list Nd)           (* new_traversal_stack *)
  }.

  (** The loop of [advance], ancestors_depth_first/mod.rs 18-53; the flag is
      [pushed_another_iterator]. [inr] is a [return] or [break]. *)
  Definition daleaves_body (_ : nat) (st : bool * daleaves) : Res (bool * daleaves + daleaves) :=
    let '(pushed, s) := st in
    match da_new s with
    | (n :: top) :: rest =>
        let '(value, children) := gvc n in
        Ok (inl (true, mkDa (da_root s) (value :: da_items s) (da_old s) (children :: top :: rest)))
    | _ =>
        let new := tl (da_new s) in
        if pushed then Ok (inr (mkDa (da_root s) (da_items s) (da_old s) new))
        else
          match da_old s with
          | (n :: top) :: rest =>
              let '(value, children) := gvc n in
              Ok (inl (true, mkDa (da_root s) (value :: da_items s) (top :: rest) (children :: new)))
          | _ =>
              let old := tl (da_old s) in
              (* [if pushed_another_iterator { return; }]: false here *)
              let items := tl (da_items s) in
              let s' := mkDa (da_root s) items old new in
              match items with
              | [] => Ok (inr s')
              | _ => Ok (inl (pushed, s'))
              end
          end
    end.

  (** [advance] ancestors_depth_first/mod.rs 7-54. *)
  Definition daleaves_advance (fuel : nat) (s : daleaves) : Res daleaves :=
    match da_root s with
    | Some root =>
        let '(value, children) := gvc root in
        loop daleaves_body fuel (true, mkDa None (value :: da_items s) (da_old s) (children :: da_new s))
    | None =>
        loop daleaves_body fuel (false, mkDa None (tl (da_items s)) (da_old s) (da_new s))
    end.

  (** [get] ancestors_depth_first/mod.rs 56-62. *)
  Definition daleaves_get (s : daleaves) : option (list V) :=
    match da_items s with [] => None | items => Some (rev items) end.

  Definition daleaves_next (fuel : nat) (s : daleaves) : Res (option (list V) * daleaves) :=
    s' <- daleaves_advance fuel s ;; Ok (daleaves_get s', s').

  (** [leaves()] of the iterators with ancestors: dfs_preorder_iterators/owned.rs 313-325 (binary 578-587). *)
  Definition prea_leaves (s : prea Nd V) : daleaves := mkDa (pa_root s) (pa_items s) (pa_stack s) [].

  (** dfs_postorder_iterators/owned.rs 211-223 (binary 346-355). *)
  Definition posta_leaves (s : post_iter Nd V) : daleaves := mkDa (po_root s) (po_items s) (po_stack s) [].

  (** dfs_inorder_iterators/owned.rs 145-169. *)
  Definition ina_leaves (s : ina Nd V) : daleaves :=
    match ia_right s with
    | [r] => mkDa r (ia_items s) [] []
    | rs => mkDa None (ia_items s) (map opt_list rs) []
    end.
End LeavesDfs.
Arguments dleaves : clear implicits.
Arguments mkDl {Nd V} _ _ _ _.
Arguments dl_root {Nd V} _.
Arguments dl_bottom {Nd V} _.
Arguments dl_top {Nd V} _.
Arguments dl_items {Nd V} _.
Arguments daleaves : clear implicits.
Arguments mkDa {Nd V} _ _ _ _.
Arguments da_root {Nd V} _.
Arguments da_items {Nd V} _.
Arguments da_old {Nd V} _.
Arguments da_new {Nd V} _.

Section LeavesBfs.
  Context {Nd V : Type}.
  Variable gvc : Nd -> V * list Nd.

  (** [OwnedLeavesIterator], breadth_first/owned.rs. *)
  Record bleaves := mkBl {
    bl_root : option Nd;
    bl_old : list (list Nd);          (* old_traversal_queue *)
    bl_new : list (list Nd)           (* new_traversal_queue *)
  }.

  (** The [None => loop] of [bfs_next], breadth_first/mod.rs 17-58. Items are (has_children, value). *)
  Definition bleaves_bfs_body (_ : nat) (s : bleaves) : Res (bleaves + option (bool * V) * bleaves) :=
    match bl_old s with
    | [] =>
        match bl_new s with
        | [] => Ok (inr (None, s))
        | [] :: new => Ok (inl (mkBl (bl_root s) [] new))
        | (n :: next_queue) :: new =>
            let '(value, children) := gvc n in
            Ok (inr (Some (negb (is_nil children), value),
                     mkBl (bl_root s) [] ((next_queue :: new) ++ [children])))
        end
    | [] :: old => Ok (inl (mkBl (bl_root s) old (bl_new s)))
    | (n :: next_queue) :: old =>
        let '(value, children) := gvc n in
        Ok (inr (Some (negb (is_nil children), value),
                 mkBl (bl_root s) (next_queue :: old) (bl_new s ++ [children])))
    end.

  (** [bfs_next] breadth_first/mod.rs 5-61. *)
  Definition bleaves_bfs_next (fuel : nat) (s : bleaves) : Res (option (bool * V) * bleaves) :=
    match bl_root s with
    | Some root =>
        let '(value, children) := gvc root in
        Ok (Some (negb (is_nil children), value), mkBl None (bl_old s) (bl_new s ++ [children]))
    | None => loop bleaves_bfs_body fuel s
    end.

  (** [next] breadth_first/mod.rs 63-80. *)
  Definition bleaves_body (fuel : nat) (s : bleaves) : Res (bleaves + option V * bleaves) :=
    '(value, s) <- bleaves_bfs_next fuel s ;;
    match value with
    | None => Ok (inr (None, s))
    | Some (true, _) => Ok (inl s)
    | Some (false, v) => Ok (inr (Some v, s))
    end.
  Definition bleaves_next (fuel : nat) (s : bleaves) : Res (option V * bleaves) :=
    loop bleaves_body fuel s.

  (** [leaves()] bfs_iterators/owned.rs 65-73 (binary 267-273). *)
  Definition bfs_leaves (s : bfs_iter Nd) : bleaves := mkBl (bfs_root s) (bfs_queue s) [].

  (** [leaves()] of the breadth-first iterator with ancestors, bfs_iterators/owned.rs 191-203 (binary 334-336 and
      ancestors_breadth_first/owned.rs 63-77):
      the fields are kept, the iterators become peekable.  The state is [ModelBfs.bfsa]. *)
  Definition bfsa_leaves (s : bfsa Nd V) : bfsa Nd V := s.

  (** The loop of [advance], ancestors_breadth_first/mod.rs 96-149. *)
  Definition baleaves_body (fuel : nat) (s : bfsa Nd V) : Res (bfsa Nd V + bfsa Nd V) :=
    match ba_queue s with
    | [] => Ok (inr (mkBfsa (ba_is_root s) [] (ba_cache s) (ba_stack s) []))
    | front :: queue =>
        '(items, cache, stack) <- maybe_pop (ba_items s, ba_cache s, ba_stack s) ;;
        match front with
        | n :: iter =>
            let '(value, children) := gvc n in
            let s' := mkBfsa false (value :: items) cache stack ((iter :: queue) ++ [children]) in
            if negb (is_nil children) then Ok (inl s') else Ok (inr s')
        | [] =>
            if ba_is_root s then Ok (inr (mkBfsa false items cache stack (front :: queue)))
            else
              '(items, cache, stack) <- to_next_parent fuel (items, cache, stack) ;;
              Ok (inl (mkBfsa (ba_is_root s) items cache stack queue))
        end
    end.

  (** [advance] ancestors_breadth_first/mod.rs 95-150. *)
  Definition baleaves_advance (fuel : nat) (s : bfsa Nd V) : Res (bfsa Nd V) := loop baleaves_body fuel s.

  (** [get] ancestors_breadth_first/mod.rs 152-158 is [ModelBfs.bfsa_get]. *)
  Definition baleaves_next (fuel : nat) (s : bfsa Nd V) : Res (option (list V) * bfsa Nd V) :=
    s' <- baleaves_advance fuel s ;; Ok (bfsa_get s', s').
End LeavesBfs.
Arguments bleaves : clear implicits.
Arguments mkBl {Nd} _ _ _.
Arguments bl_root {Nd} _.
Arguments bl_old {Nd} _.
Arguments bl_new {Nd} _.
