(** * ModelEdit: a caller which replaces the children of the current context between advances.

    [while let Some(ctx) = iter.next_mut() { *ctx.children_mut() = ...; }] over the preorder and breadth-first
    [attach_context] iterators.  [next_mut] is [advance] and then [get_mut] ([streaming_iterator::StreamingIteratorMut]). *)
From Verif Require Import Prelim Spec ModelNode ModelBfs ModelPre.

(** [get_mut] (dfs_preorder_iterators/mod.rs 295-305, bfs_iterators/mod.rs 100-110) gives [&mut self.current_context] when [get] gives
    [&self.current_context]; [children_mut] (tree_context.rs 61-64) unwraps [self.children] and gives a reference to it:
    writing to it replaces the field.  The caller, with state [G], is shown the context and says what to write;
    a caller which does not want to change anything writes what it has been shown. *)
Section Caller.
  Context {S X C G : Type}.
  Variable advance : nat -> S -> Res S.
  Variable get : S -> option X.
  Variable children : S -> option C.
  Variable set_children : S -> C -> S.
  Variable edit : G -> X -> G * C.

  Definition next_edited (fuel : nat) (s : S * G) : Res (option X * (S * G)) :=
    let '(s, g) := s in
    s <- advance fuel s ;;
    match get s with
    | None => Ok (None, (s, g))
    | Some ctx =>
        (* children_mut() *)
        _ <- unwrap (children s) ;;
        let '(g, c) := edit g ctx in
        Ok (Some ctx, (set_children s c, g))
    end.
End Caller.

(** [self.current_context.children = Some(c)], through the reference. *)
Definition prec_set_children {Nd V I C} (s : prec Nd V I C) (c : C) : prec Nd V I C :=
  mkPrec (pc_root s) (pc_stack s) (pc_path s) (pc_anc s) (Some c).
Definition bfsc_set_children {V I C} (s : bfsc V I C) (c : C) : bfsc V I C :=
  mkBfsc (bc_is_root s) (bc_cache s) (bc_stack s) (bc_queue s) (bc_path s) (bc_anc s) (Some c) (bc_counter s).

(** The loop above over [dfs_preorder().attach_context()] (mod.rs 166-227) and its binary version (229-293). *)
Definition prec_next_edited {Nd V G} (gvc : Nd -> V * list Nd) (edit : G -> tree_context V (list Nd) -> G * list Nd) :=
  next_edited (prec_advance gvc) prec_get pc_children prec_set_children edit.
Definition precb_next_edited {Nd V G} (gvcb : Nd -> V * (option Nd * option Nd))
    (edit : G -> tree_context V (option Nd * option Nd) -> G * (option Nd * option Nd)) :=
  next_edited (precb_advance gvcb pair_iter) prec_get pc_children prec_set_children edit.
(** The same over [bfs().attach_context()] (mod.rs 28-98) and its binary version (196-270). *)
Definition bfsc_next_edited {Nd V G} (gvc : Nd -> V * list Nd) (edit : G -> tree_context V (list Nd) -> G * list Nd) :=
  next_edited (bfsc_advance gvc) bfsc_get bc_children bfsc_set_children edit.
Definition bfscb_next_edited {Nd V G} (gvcb : Nd -> V * (option Nd * option Nd))
    (edit : G -> tree_context V (option Nd * option Nd) -> G * (option Nd * option Nd)) :=
  next_edited (bfscb_advance gvcb pair_iter) bfsc_get bc_children bfsc_set_children edit.
