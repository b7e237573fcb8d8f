(** * ModelStreamPipe: pipelines over collections whose trees come from any iterator.

    The start of the pipeline is that of ModelPipeColl with the list of trees replaced by what the code has: an iterator, of which
    nothing is known but its [next] ([poll]).  The state also has a record of the answers of [poll], last one first.  The stages and the ends of
    the pipelines are those of ModelPipe and ModelPipeColl. *)
From Verif Require Import Prelim Spec SpecPipe ModelNode ModelPre ModelPipe ModelPipeColl.

Section StreamTracking.
  Context {Src Nd V I C : Type}.
  Variable poll : Src -> option Nd * Src.
  (** [next] of the single-tree path-tracking iterator. *)
  Variable next : nat -> ptrack Nd I C -> Res (option V * ptrack Nd I C).

  (** [OwnedDFSPreorderCollectionIteratorWithPathTracking] dfs_preorder_iterators/owned.rs 54-61 (binary 349-356;
      mut_borrow.rs 56-65, 351-360; borrow.rs 54-61, 352-361). *)
  Record strack := mkStr {
    str_source : Src;
    str_count : N;
    str_cur : option (ptrack Nd I C);
    str_asked : list (option Nd)
  }.

  (** [new] owned.rs 68-73 (363-368). *)
  Definition str_new (source : Src) : strack := mkStr source 0%N None [].

  (** [if let Some(next_tree) = self.tree_collection.next() {..} else { return None }] owned.rs 91-100: [Enumerate::next]
      counts only the trees. *)
  Definition str_take (s : strack) (cur : option (ptrack Nd I C)) : Res (strack + option V * strack) :=
    let '(o, source) := poll (str_source s) in
    match o with
    | None => Ok (inr (None, mkStr source (str_count s) cur (o :: str_asked s)))
    | Some t => count' <- checked_succ (str_count s) ;; Ok (inl (mkStr source count' (Some (pt_new t [str_count s])) (o :: str_asked s)))
    end.

  (** The loop of [next], owned.rs 84-101 (380-396). *)
  Definition str_body (fuel : nat) (s : strack) : Res (strack + option V * strack) :=
    match str_cur s with
    | Some it =>
        '(o, it) <- next fuel it ;;
        match o with
        | Some v => Ok (inr (Some v, mkStr (str_source s) (str_count s) (Some it) (str_asked s)))
        | None => str_take s (Some it)
        end
    | None => str_take s None
    end.
  Definition str_next (fuel : nat) (s : strack) : Res (option V * strack) := loop str_body fuel s.

  (** [current_path] owned.rs 114-119 (406-411). *)
  Definition str_path (s : strack) : list N :=
    match str_cur s with Some it => pt_current_path it | None => [] end.

  (** [prune_current_subtree] owned.rs 121-125 (413-417). *)
  Definition str_prune (s : strack) : strack :=
    mkStr (str_source s) (str_count s) (match str_cur s with Some it => Some (pt_prune it) | None => None end) (str_asked s).
End StreamTracking.
Arguments strack : clear implicits.
Arguments mkStr {Src Nd I C} _ _ _ _.
Arguments str_source {Src Nd I C} _.
Arguments str_count {Src Nd I C} _.
Arguments str_cur {Src Nd I C} _.
Arguments str_asked {Src Nd I C} _.

(** [into_pipeline] of a collection, prelude.rs 3600-3602 ([into_pipeline_mut] 4150, [into_pipeline_ref] 4704). *)
Definition into_pipeline_stream {Src Nd V} (poll : Src -> option Nd * Src) (gvc : Nd -> V * list Nd) (source : Src) : pipe V :=
  mkPipe (strack Src Nd Nd (list Nd)) (str_new source) (str_next poll (pt_next gvc)) str_path str_prune.

(** Binary: prelude.rs 3865-3872 (4418, 4971). *)
Definition into_pipeline_stream_binary {Src Nd V} (poll : Src -> option Nd * Src) (gvcb : Nd -> V * (option Nd * option Nd)) (source : Src) : pipe V :=
  mkPipe (strack Src Nd (option Nd) (option Nd * option Nd)) (str_new source) (str_next poll (ptb_next gvcb)) str_path str_prune.

(** The state of the first iterator inside a chain. *)
Section Source.
  Variable depth_of : list N -> Res N.
  Variable start : list N.
  Context {V : Type} (P : pipe V).
  Fixpoint source_state {A} (c : chain V A) : p_state (run_chain depth_of start P c) -> p_state P :=
    match c in chain _ A return p_state (run_chain depth_of start P c) -> p_state P with
    | c_start => fun s => s
    | c_map c' g f => fun s => source_state c' (fst s)
    | c_prune c' g f => fun s => source_state c' (pr_inner s)
    | c_prune_path c' g f => fun s => source_state c' (pr_inner s)
    | c_prune_depth c' d => fun s => source_state c' s
    end.
  Fixpoint source_state_binary {A} (c : chain V A) : p_state (run_chain_binary depth_of P c) -> p_state P :=
    match c in chain _ A return p_state (run_chain_binary depth_of P c) -> p_state P with
    | c_start => fun s => s
    | c_map c' g f => fun s => source_state_binary c' (fst s)
    | c_prune c' g f => fun s => source_state_binary c' (fst s)
    | c_prune_path c' g f => fun s => source_state_binary c' (fst s)
    | c_prune_depth c' d => fun s => source_state_binary c' s
    end.
End Source.
