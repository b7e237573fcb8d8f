(** * ModelPost: depth-first postorder iterators (dfs_postorder_iterators/).

    Stacks ([Vec]) are lists whose head is the top; a children iterator is the list of the items it has not
    produced yet. *)
From Verif Require Import Prelim Spec ModelNode ModelPre.

Section PostPlain.
  Context {Nd V : Type}.
  Variable gvc : Nd -> V * list Nd.

  (** [OwnedDFSPostorderIterator] owned.rs 44-51 (binary 264-271; the iterator with ancestors,
      owned.rs 189-196, has the same fields). *)
  Record post_iter := mkPost {
    po_root : option Nd;
    po_items : list V;
    po_stack : list (list Nd)
  }.

  (** [new] owned.rs 57-63. *)
  Definition post_new (root : Nd) : post_iter := mkPost (Some root) [] [].

  (** The loops of [next], mod.rs 8-30.  The outer loop runs its first branch at most once (it takes the root),
      and the inner loop is left only by [return]; both are one loop here. *)
  Definition post_next_body (_ : nat) (s : post_iter) : Res (post_iter + option V * post_iter) :=
    match po_root s with
    | Some root =>
        let '(value, children) := gvc root in
        Ok (inl (mkPost None (value :: po_items s) (children :: po_stack s)))
    | None =>
        match po_stack s with
        | (n :: top) :: rest =>
            let '(value, children) := gvc n in
            Ok (inl (mkPost None (value :: po_items s) (children :: top :: rest)))
        | [] :: rest =>
            Ok (inr (hd_error (po_items s), mkPost None (tl (po_items s)) rest))
        | [] =>
            Ok (inr (hd_error (po_items s), mkPost None (tl (po_items s)) []))
        end
    end.

  (** [next] mod.rs 5-33. *)
  Definition post_next (fuel : nat) (s : post_iter) : Res (option V * post_iter) :=
    loop post_next_body fuel s.

  (** The [while let] loop of [advance] with ancestors, mod.rs 58-69. *)
  Definition posta_body (_ : nat) (s : list V * list (list Nd))
    : Res (list V * list (list Nd) + list V * list (list Nd)) :=
    let '(items, stack) := s in
    match stack with
    | [] => Ok (inr (items, []))
    | (n :: top) :: rest =>
        let '(value, children) := gvc n in
        Ok (inl (value :: items, children :: top :: rest))
    | [] :: rest => Ok (inr (items, rest))
    end.

  (** [advance] mod.rs 49-70. *)
  Definition posta_advance (fuel : nat) (s : post_iter) : Res post_iter :=
    let '(items, stack) :=
      match po_root s with
      | Some root => let '(value, children) := gvc root in (value :: po_items s, children :: po_stack s)
      | None => (tl (po_items s), po_stack s)
      end in
    '(items, stack) <- loop posta_body fuel (items, stack) ;;
    Ok (mkPost None items stack).

  (** [get] mod.rs 72-78. *)
  Definition posta_get (s : post_iter) : option (list V) :=
    match po_items s with [] => None | items => Some (rev items) end.

  Definition posta_next (fuel : nat) (s : post_iter) : Res (option (list V) * post_iter) :=
    s' <- posta_advance fuel s ;; Ok (posta_get s', s').
End PostPlain.
Arguments mkPost {Nd V} _ _ _.
Arguments po_root {Nd V} _.
Arguments po_items {Nd V} _.
Arguments po_stack {Nd V} _.
Arguments post_iter : clear implicits.

Section PostContext.
  Context {Nd V : Type}.

  (** [OwnedDFSPostorderIteratorWithContext] owned.rs 104-111 (binary 373-380): contexts without children
      ([TreeContext<_, ()>] with [children: None]). *)
  Record postc_owned (I : Type) := mkPostcO {
    pto_root : option Nd;
    pto_stack : list (list I);
    pto_path : list N;
    pto_anc : list V
  }.
  Global Arguments mkPostcO {I} _ _ _ _.
  Global Arguments pto_root {I} _.
  Global Arguments pto_stack {I} _.
  Global Arguments pto_path {I} _.
  Global Arguments pto_anc {I} _.

  (** [new] owned.rs 117-127 (binary 386-396). *)
  Definition postco_new {I} (root : Nd) (path : list N) : postc_owned I :=
    mkPostcO (Some root) [] (rev path) [].

  Definition pto_loop_st (I : Type) : Type := list (list I) * list N * list V.

  (** The loop of [advance], owned.rs 148-170. *)
  Definition postco_body (gvc : Nd -> V * list Nd) (_ : nat) (s : pto_loop_st Nd)
    : Res (pto_loop_st Nd + pto_loop_st Nd) :=
    let '(stack, path, anc) := s in
    match stack with
    | (n :: top) :: rest =>
        path <- incr_last path ;;
        let '(value, children) := gvc n in
        Ok (inl (children :: top :: rest, usize_max :: path, value :: anc))
    | _ => Ok (inr (tl stack, tl path, anc))
    end.

  (** The loop of the binary [advance], owned.rs 417-443; the inner [for node in top.by_ref()] is
      [ModelPre.prec_scan] (skip absent children, incrementing the last path segment). *)
  Definition postcob_body {C} (gv : Nd -> V * C) (into_iter : C -> list (option Nd)) (_ : nat)
      (s : pto_loop_st (option Nd)) : Res (pto_loop_st (option Nd) + pto_loop_st (option Nd)) :=
    let '(stack, path, anc) := s in
    match stack with
    | top :: rest =>
        '(found, top', path) <- prec_scan top path ;;
        match found with
        | Some n =>
            let '(value, children) := gv n in
            Ok (inl (into_iter children :: top' :: rest, usize_max :: path, value :: anc))
        | None => Ok (inr (rest, tl path, anc))
        end
    | [] => Ok (inr ([], tl path, anc))
    end.

  (** [advance] owned.rs 135-171 (binary 404-444). *)
  Definition postco_advance_with {I C} (gv : Nd -> V * C) (into_iter : C -> list I)
      (body : nat -> pto_loop_st I -> Res (pto_loop_st I + pto_loop_st I))
      (fuel : nat) (s : postc_owned I) : Res (postc_owned I) :=
    match pto_root s with
    | Some root =>
        let '(value, children) := gv root in
        '(stack, path, anc) <-
          loop body fuel (into_iter children :: pto_stack s, usize_max :: pto_path s, value :: pto_anc s) ;;
        Ok (mkPostcO None stack path anc)
    | None =>
        match tl (pto_anc s) with
        | [] => Ok (mkPostcO None (pto_stack s) (pto_path s) [])
        | anc =>
            '(stack, path, anc) <- loop body fuel (pto_stack s, pto_path s, anc) ;;
            Ok (mkPostcO None stack path anc)
        end
    end.

  (** [get] owned.rs 173-179. *)
  Definition postco_get {I} (s : postc_owned I) : option (tree_context V unit) :=
    match pto_anc s with
    | [] => None
    | anc => Some (mkCtx (rev (pto_path s)) (rev anc) None)
    end.

  Definition postco_next (gvc : Nd -> V * list Nd) (fuel : nat) (s : postc_owned Nd)
    : Res (option (tree_context V unit) * postc_owned Nd) :=
    s' <- postco_advance_with gvc (fun l => l) (postco_body gvc) fuel s ;; Ok (postco_get s', s').

  Definition postcob_next {C} (gv : Nd -> V * C) (into_iter : C -> list (option Nd)) (fuel : nat)
      (s : postc_owned (option Nd)) : Res (option (tree_context V unit) * postc_owned (option Nd)) :=
    s' <- postco_advance_with gv into_iter (postcob_body gv into_iter) fuel s ;; Ok (postco_get s', s').

  (** [BorrowedDFSPostorderIteratorWithContext] borrow.rs 105-113 (binary 375-383;
      mut_borrow.rs 109-117 and 406-414): a second stack keeps each children container until its node is yielded.
      The container and its iterator are two copies ([ptr::read] or raw pointers) of the same list. *)
  Record postc (I C : Type) := mkPostc {
    pt_root : option Nd;
    pt_stack : list (list I);
    pt_conts : list C;                 (* into_iterator_stack *)
    pt_path : list N;
    pt_anc : list V;
    pt_children : option C
  }.
  Global Arguments mkPostc {I C} _ _ _ _ _ _.
  Global Arguments pt_root {I C} _.
  Global Arguments pt_stack {I C} _.
  Global Arguments pt_conts {I C} _.
  Global Arguments pt_path {I C} _.
  Global Arguments pt_anc {I C} _.
  Global Arguments pt_children {I C} _.

  (** [new] borrow.rs 119-130 (binary 389-403). *)
  Definition postc_new {I C} (root : Nd) (path : list N) : postc I C :=
    mkPostc (Some root) [] [] (rev path) [] None.

  (** traversal_stack, into_iterator_stack, path, ancestors. *)
  Definition pt_loop_st (I C : Type) : Type := list (list I) * list C * list N * list V.

  (** The loop of [advance], borrow.rs 156-189 (mut_borrow.rs 164-197): breaks with the popped container. *)
  Definition postc_body (gvc : Nd -> V * list Nd) (_ : nat) (s : pt_loop_st Nd (list Nd))
    : Res (pt_loop_st Nd (list Nd) + pt_loop_st Nd (list Nd) * list Nd) :=
    let '(stack, conts, path, anc) := s in
    match stack with
    | (n :: top) :: rest =>
        path <- incr_last path ;;
        let '(value, children) := gvc n in
        Ok (inl (children :: top :: rest, children :: conts, usize_max :: path, value :: anc))
    | _ =>
        match conts with
        | [] => Panic (* pop().expect(..) *)
        | c :: conts' => Ok (inr ((tl stack, conts', tl path, anc), c))
        end
    end.

  (** The loop of the binary [advance], borrow.rs 429-464 (mut_borrow.rs 466-505). *)
  Definition postcb_body {C} (gv : Nd -> V * C) (into_iter : C -> list (option Nd)) (_ : nat)
      (s : pt_loop_st (option Nd) C) : Res (pt_loop_st (option Nd) C + pt_loop_st (option Nd) C * C) :=
    let '(stack, conts, path, anc) := s in
    match stack with
    | top :: rest =>
        '(found, top', path) <- prec_scan top path ;;
        match found with
        | Some n =>
            let '(value, children) := gv n in
            Ok (inl (into_iter children :: top' :: rest, children :: conts, usize_max :: path, value :: anc))
        | None =>
            match conts with
            | [] => Panic
            | c :: conts' => Ok (inr ((rest, conts', tl path, anc), c))
            end
        end
    | [] =>
        match conts with
        | [] => Panic
        | c :: conts' => Ok (inr (([], conts', tl path, anc), c))
        end
    end.

  (** [advance] borrow.rs 138-190 (binary 411-465; mut_borrow.rs 145-198, 442-506; the last one
      also sets [children] to [None] on entry, which only shows once [get] is [None] already). *)
  Definition postc_advance_with {I C} (gv : Nd -> V * C) (into_iter : C -> list I)
      (body : nat -> pt_loop_st I C -> Res (pt_loop_st I C + pt_loop_st I C * C))
      (fuel : nat) (s : postc I C) : Res (postc I C) :=
    match pt_root s with
    | Some root =>
        let '(value, children) := gv root in
        '((stack, conts, path, anc), c) <-
          loop body fuel (into_iter children :: pt_stack s, children :: pt_conts s,
                          usize_max :: pt_path s, value :: pt_anc s) ;;
        Ok (mkPostc None stack conts path anc (Some c))
    | None =>
        match tl (pt_anc s) with
        | [] => Ok (mkPostc None (pt_stack s) (pt_conts s) (pt_path s) [] (pt_children s))
        | anc =>
            '((stack, conts, path, anc), c) <- loop body fuel (pt_stack s, pt_conts s, pt_path s, anc) ;;
            Ok (mkPostc None stack conts path anc (Some c))
        end
    end.

  (** [get] borrow.rs 192-198. *)
  Definition postc_get {I C} (s : postc I C) : option (tree_context V C) :=
    match pt_anc s with
    | [] => None
    | anc => Some (mkCtx (rev (pt_path s)) (rev anc) (pt_children s))
    end.

  Definition postc_next (gvc : Nd -> V * list Nd) (fuel : nat) (s : postc Nd (list Nd))
    : Res (option (tree_context V (list Nd)) * postc Nd (list Nd)) :=
    s' <- postc_advance_with gvc (fun l => l) (postc_body gvc) fuel s ;; Ok (postc_get s', s').

  Definition postcb_next {C} (gv : Nd -> V * C) (into_iter : C -> list (option Nd)) (fuel : nat)
      (s : postc (option Nd) C) : Res (option (tree_context V C) * postc (option Nd) C) :=
    s' <- postc_advance_with gv into_iter (postcb_body gv into_iter) fuel s ;; Ok (postc_get s', s').
End PostContext.
Arguments postc_owned : clear implicits.
Arguments postc : clear implicits.

(** [attach_context], [attach_ancestors]: owned.rs 76-93 (binary 296-313; same in borrow.rs, mut_borrow.rs). *)
Definition post_attach_ancestors {Nd V} (s : post_iter Nd V) : Res (post_iter Nd V) :=
  match po_root s with None => Panic | Some root => Ok (post_new root) end.
Definition post_attach_context_owned {Nd V I} (s : post_iter Nd V) : Res (postc_owned Nd V I) :=
  match po_root s with None => Panic | Some root => Ok (postco_new root []) end.
Definition post_attach_context {Nd V I C} (s : post_iter Nd V) : Res (postc Nd V I C) :=
  match po_root s with None => Panic | Some root => Ok (postc_new root []) end.
