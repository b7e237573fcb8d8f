(** * ModelPre: depth-first preorder iterators (dfs_preorder_iterators/mod.rs and owned.rs; the
    borrow.rs and mut_borrow.rs versions instantiate the same macros).

    Stacks ([Vec]) are lists whose head is the top; a children iterator is the list of the items it has not
    produced yet. *)
From Verif Require Import Prelim Spec ModelNode.

Section PrePlain.
  Context {Nd V : Type}.
  Variable gvc : Nd -> V * list Nd.

  (** [OwnedDFSPreorderIterator] owned.rs 139-145 (binary 445-451). *)
  Record pre_iter := mkPre {
    pre_root : option Nd;
    pre_stack : list (list Nd)
  }.

  (** [new] owned.rs 151-156. *)
  Definition pre_new (root : Nd) : pre_iter := mkPre (Some root) [].

  (** The loop of [next], mod.rs 14-24. *)
  Definition pre_next_body (_ : nat) (stack : list (list Nd))
    : Res (list (list Nd) + option Nd * list (list Nd)) :=
    match stack with
    | [] => Ok (inr (None, []))
    | top :: rest =>
        match top with
        | n :: top' => Ok (inr (Some n, top' :: rest))
        | [] => Ok (inl rest)
        end
    end.

  (** [next] mod.rs 5-33. *)
  Definition pre_next (fuel : nat) (s : pre_iter) : Res (option V * pre_iter) :=
    match pre_root s with
    | Some root =>
        let '(value, children) := gvc root in
        Ok (Some value, mkPre None (children :: pre_stack s))
    | None =>
        '(next, stack) <- loop pre_next_body fuel (pre_stack s) ;;
        match next with
        | None => Ok (None, mkPre None stack)
        | Some node =>
            let '(value, children) := gvc node in
            Ok (Some value, mkPre None (children :: stack))
        end
    end.

  (** [OwnedDFSPreorderIteratorWithAncestors] owned.rs 291-298. *)
  Record prea := mkPrea {
    pa_root : option Nd;
    pa_stack : list (list Nd);
    pa_items : list V
  }.

  (** [new] owned.rs 304-310. *)
  Definition prea_new (root : Nd) : prea := mkPrea (Some root) [] [].

  (** The loop of [advance], mod.rs 124-135. *)
  Definition prea_body (_ : nat) (s : list (list Nd) * list V)
    : Res (list (list Nd) * list V + option Nd * list (list Nd) * list V) :=
    let '(stack, items) := s in
    match stack with
    | [] => Ok (inr (None, [], items))
    | top :: rest =>
        match top with
        | n :: top' => Ok (inr (Some n, top' :: rest, items))
        | [] => Ok (inl (rest, tl items))
        end
    end.

  (** [advance] mod.rs 116-142. *)
  Definition prea_advance (fuel : nat) (s : prea) : Res prea :=
    match pa_root s with
    | Some root =>
        let '(value, children) := gvc root in
        Ok (mkPrea None (children :: pa_stack s) (value :: pa_items s))
    | None =>
        '(next, stack, items) <- loop prea_body fuel (pa_stack s, pa_items s) ;;
        match next with
        | None => Ok (mkPrea None stack items)
        | Some node =>
            let '(value, children) := gvc node in
            Ok (mkPrea None (children :: stack) (value :: items))
        end
    end.

  (** [get] mod.rs 144-150. *)
  Definition prea_get (s : prea) : option (list V) :=
    match pa_items s with [] => None | items => Some (rev items) end.

  Definition prea_next (fuel : nat) (s : prea) : Res (option (list V) * prea) :=
    s' <- prea_advance fuel s ;; Ok (prea_get s', s').
End PrePlain.
Arguments mkPre {Nd} _ _.
Arguments pre_root {Nd} _.
Arguments pre_stack {Nd} _.
Arguments pre_iter : clear implicits.
Arguments mkPrea {Nd V} _ _ _.
Arguments pa_root {Nd V} _.
Arguments pa_stack {Nd V} _.
Arguments pa_items {Nd V} _.
Arguments prea : clear implicits.

(** [*last = last.wrapping_add(1)] on [path.last_mut().expect(..)]. *)
Definition incr_last (path : list N) : Res (list N) :=
  match path with
  | [] => Panic
  | p :: path' => Ok (wrapping_succ p :: path')
  end.

Section PreContext.
  (** [I]: type of the items of a children iterator; [C]: type of the children container. *)
  Context {Nd V : Type}.

  (** [OwnedDFSPreorderIteratorWithContext] owned.rs 250-257 (binary 605-612). *)
  Record prec (I C : Type) := mkPrec {
    pc_root : option Nd;
    pc_stack : list (list I);
    pc_path : list N;
    pc_anc : list V;
    pc_children : option C
  }.
  Global Arguments mkPrec {I C} _ _ _ _ _.
  Global Arguments pc_root {I C} _.
  Global Arguments pc_stack {I C} _.
  Global Arguments pc_path {I C} _.
  Global Arguments pc_anc {I C} _.
  Global Arguments pc_children {I C} _.

  (** [new] owned.rs 263-273 (binary 618-628); [path] in Rust order. *)
  Definition prec_new {I C} (root : Nd) (path : list N) : prec I C :=
    mkPrec (Some root) [] (rev path) [] None.

  (** [get] mod.rs 219-225 (binary 285-291). *)
  Definition prec_get {I C} (s : prec I C) : option (tree_context V C) :=
    match pc_anc s with
    | [] => None
    | anc => Some (mkCtx (rev (pc_path s)) (rev anc) (pc_children s))
    end.

  (** State of the search loop: traversal_stack, path, ancestors. *)
  Definition pc_loop_st (I : Type) : Type := list (list I) * list N * list V.

  (** The loop of [advance] for n-ary trees, mod.rs 190-208. *)
  Definition prec_body (_ : nat) (s : pc_loop_st Nd) : Res (pc_loop_st Nd + option Nd * pc_loop_st Nd) :=
    let '(stack, path, anc) := s in
    match stack with
    | [] => Ok (inr (None, ([], path, anc)))
    | top :: rest =>
        match top with
        | n :: top' => path <- incr_last path ;; Ok (inr (Some n, (top' :: rest, path, anc)))
        | [] => Ok (inl (rest, tl path, tl anc))
        end
    end.

  (** The inner [while let Some(value) = top.next()] of the binary version, mod.rs 255-266: skip absent
      children, incrementing the last path segment each time. *)
  Fixpoint prec_scan (top : list (option Nd)) (path : list N)
    : Res (option Nd * list (option Nd) * list N) :=
    match top with
    | [] => Ok (None, [], path)
    | o :: top' =>
        path <- incr_last path ;;
        match o with
        | Some n => Ok (Some n, top', path)
        | None => prec_scan top' path
        end
    end.

  (** The loop of [advance] for binary trees, mod.rs 253-274. *)
  Definition precb_body (_ : nat) (s : pc_loop_st (option Nd))
    : Res (pc_loop_st (option Nd) + option Nd * pc_loop_st (option Nd)) :=
    let '(stack, path, anc) := s in
    match stack with
    | [] => Ok (inr (None, ([], path, anc)))
    | top :: rest =>
        '(found, top', path) <- prec_scan top path ;;
        match found with
        | Some n => Ok (inr (Some n, (top' :: rest, path, anc)))
        | None => Ok (inl (rest, tl path, tl anc))
        end
    end.

  (** [advance], mod.rs 168-217 (binary 231-283); the two macros differ in the search loop only. *)
  Definition prec_advance_with {I C} (gv : Nd -> V * C) (into_iter : C -> list I)
      (body : nat -> pc_loop_st I -> Res (pc_loop_st I + option Nd * pc_loop_st I))
      (fuel : nat) (s : prec I C) : Res (prec I C) :=
    match pc_root s with
    | Some root =>
        let '(value, children) := gv root in
        Ok (mkPrec None (pc_stack s) (pc_path s) (value :: pc_anc s) (Some children))
    | None =>
        match pc_anc s with
        | [] => Ok s
        | _ =>
            let '(stack, path, anc) :=
              match pc_children s with
              | Some children => (into_iter children :: pc_stack s, usize_max :: pc_path s, pc_anc s)
              | None =>
                  (pc_stack s,
                   match pc_path s with
                   | p :: path' => if (p =? usize_max)%N then path' else p :: path'
                   | [] => []
                   end,
                   tl (pc_anc s))
              end in
            '(next, (stack, path, anc)) <- loop body fuel (stack, path, anc) ;;
            match next with
            | Some node =>
                let '(value, children) := gv node in
                Ok (mkPrec None stack path (value :: anc) (Some children))
            | None => Ok (mkPrec None stack path [] None)
            end
        end
    end.

  (** n-ary: mod.rs 166-227. *)
  Definition prec_advance (gvc : Nd -> V * list Nd) : nat -> prec Nd (list Nd) -> Res (prec Nd (list Nd)) :=
    prec_advance_with gvc (fun l => l) prec_body.

  Definition prec_next (gvc : Nd -> V * list Nd) (fuel : nat) (s : prec Nd (list Nd))
    : Res (option (tree_context V (list Nd)) * prec Nd (list Nd)) :=
    s' <- prec_advance gvc fuel s ;; Ok (prec_get s', s').

  (** binary: mod.rs 229-293.  Written for any children container [C] that iterates over
      optional nodes; for the crate [C] is the array [[Option<Node>; 2]] and [into_iter] is [pair_iter]. *)
  Definition precb_advance {C} (gv : Nd -> V * C) (into_iter : C -> list (option Nd))
    : nat -> prec (option Nd) C -> Res (prec (option Nd) C) :=
    prec_advance_with gv into_iter precb_body.

  Definition precb_next {C} (gv : Nd -> V * C) (into_iter : C -> list (option Nd)) (fuel : nat) (s : prec (option Nd) C)
    : Res (option (tree_context V C) * prec (option Nd) C) :=
    s' <- precb_advance gv into_iter fuel s ;; Ok (prec_get s', s').
End PreContext.
Arguments prec : clear implicits.

(** [attach_context], [attach_ancestors]: owned.rs 169-186 (binary 475-492). *)
Definition pre_attach_ancestors {Nd V} (s : pre_iter Nd) : Res (prea Nd V) :=
  match pre_root s with None => Panic | Some root => Ok (prea_new root) end.
Definition pre_attach_context {Nd V I C} (s : pre_iter Nd) : Res (prec Nd V I C) :=
  match pre_root s with None => Panic | Some root => Ok (prec_new root []) end.
