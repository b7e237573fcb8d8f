(** * ModelAlias: what a caller can do with [get_mut()].

    [StreamingIteratorMut::get_mut] gives [&mut [Value]] (attach_ancestors) or [&mut TreeContext] (attach_context); with
    [ancestors_mut] and [children_mut] (tree_context.rs 50-52, 61-64) references can be moved out of the current item and others put
    in their place.  A slice keeps its length, and the caller cannot make [children] a [None] or a [Some].  [X_written s s']: [s'] is [s]
    after such writes.  [X_shown]: the cells of the references in the current item. *)
From Verif Require Import Prelim Spec ModelNode ModelBfs ModelPre ModelPost ModelIn ModelLeaves ModelColl SpecAlias.

Section Shown.
  Context {V C : Type}.
  Variable vcells : V -> list nat.
  Variable ccells : C -> list nat.
  Definition slice_cells (o : option (list V)) : list nat := match o with Some l => flat_map vcells l | None => [] end.
  Definition context_cells (o : option (tree_context V C)) : list nat :=
    match o with
    | Some c => flat_map vcells (c_ancestors c) ++ match c_children c with Some k => ccells k | None => [] end
    | None => []
    end.
  (** [Iterator::next] hands its item over. *)
  Definition item_cells (o : option V) : list nat := match o with Some v => vcells v | None => [] end.
End Shown.
(** A streaming iterator hands nothing over. *)
Definition nothing {O} (_ : O) : list nat := [].
(** An [Iterator] shows nothing and lets nothing be written. *)
Definition hidden {S} (_ : S) : list nat := [].
Definition no_write {S} (_ _ : S) : Prop := False.

Definition same_length {A} (l l' : list A) : Prop := length l' = length l.
Definition same_presence {A} (o o' : option A) : Prop := o' = None <-> o = None.

(** attach_ancestors: [get_mut_ancestors!], bfs_iterators/mod.rs 332-342, dfs_preorder_iterators/mod.rs 154-164,
    dfs_postorder_iterators/mod.rs 82-92, dfs_inorder_iterators/mod.rs 89-99, leaves_iterators/ancestors_*/mod.rs. *)
Definition bfsa_written {Nd V} (s s' : bfsa Nd V) : Prop :=
  exists items, same_length (ba_items s) items /\ s' = mkBfsa (ba_is_root s) items (ba_cache s) (ba_stack s) (ba_queue s).
Definition prea_written {Nd V} (s s' : prea Nd V) : Prop :=
  exists items, same_length (pa_items s) items /\ s' = mkPrea (pa_root s) (pa_stack s) items.
Definition posta_written {Nd V} (s s' : post_iter Nd V) : Prop :=
  exists items, same_length (po_items s) items /\ s' = mkPost (po_root s) items (po_stack s).
Definition ina_written {Nd V} (s s' : ina Nd V) : Prop :=
  exists items, same_length (ia_items s) items /\ s' = mkIna (ia_right s) items (ia_status s).
Definition daleaves_written {Nd V} (s s' : daleaves Nd V) : Prop :=
  exists items, same_length (da_items s) items /\ s' = mkDa (da_root s) items (da_old s) (da_new s).

(** attach_context: [get_mut_context!], bfs_iterators/mod.rs 100-110, dfs_preorder_iterators/mod.rs 295-305,
    dfs_postorder_iterators/mod.rs 35-45, dfs_inorder_iterators/mod.rs 101-111; available when [get()] is not [None]. *)
Definition bfsc_written {V I C} (s s' : bfsc V I C) : Prop :=
  bfsc_get s <> None /\ exists anc c, same_length (bc_anc s) anc /\ same_presence (bc_children s) c /\
  s' = mkBfsc (bc_is_root s) (bc_cache s) (bc_stack s) (bc_queue s) (bc_path s) anc c (bc_counter s).
Definition prec_written {Nd V I C} (s s' : prec Nd V I C) : Prop :=
  prec_get s <> None /\ exists anc c, same_length (pc_anc s) anc /\ same_presence (pc_children s) c /\
  s' = mkPrec (pc_root s) (pc_stack s) (pc_path s) anc c.
Definition postc_written {Nd V I C} (s s' : postc Nd V I C) : Prop :=
  postc_get s <> None /\ exists anc c, same_length (pt_anc s) anc /\ same_presence (pt_children s) c /\
  s' = mkPostc (pt_root s) (pt_stack s) (pt_conts s) (pt_path s) anc c.
Definition inc_written {Nd V} (s s' : inc Nd V) : Prop :=
  inc_get s <> None /\ exists anc c, same_length (ic_anc s) anc /\ same_presence (ic_children s) c /\
  s' = mkInc (ic_right s) (ic_path s) anc c (ic_conts s) (ic_status s).
(** The owned postorder and inorder iterators show no children. *)
Definition postco_written {Nd V I} (s s' : postc_owned Nd V I) : Prop :=
  exists anc, same_length (pto_anc s) anc /\ s' = mkPostcO (pto_root s) (pto_stack s) (pto_path s) anc.
Definition inco_written {Nd V} (s s' : inco Nd V) : Prop :=
  exists anc, same_length (io_anc s) anc /\ s' = mkInco (io_right s) (io_path s) anc (io_status s).

(** Collections, collection_iterators.rs 131-143 (223-235, 314-326, 402-414, 546-558, 850-862): [get_mut] of the current tree's iterator. *)
Definition collc_written {T S} (written : S -> S -> Prop) (s s' : collc T S) : Prop :=
  exists i i', cc_cur s = Some i /\ written i i' /\ s' = mkCollc (cc_trees s) (cc_index s) (Some i').

(** [Iterator]s, iterators over slices, iterators over contexts: the caller has done something, the state is [s] and it holds [h]. *)
Definition reached_items {St V} (vcells : V -> list nat) (next : nat -> St -> Res (option V * St)) :=
  reached next (item_cells vcells) hidden no_write.
Definition reached_slices {St V} (vcells : V -> list nat) (next : nat -> St -> Res (option (list V) * St)) get written :=
  reached next nothing (fun s => slice_cells vcells (get s)) written.
(** Whatever the caller does, no cell can be reached in two ways. *)
Definition exclusive_items {St V} (vcells : V -> list nat) (next : nat -> St -> Res (option V * St)) :=
  exclusive next (item_cells vcells) hidden no_write.
Definition exclusive_slices {St V} (vcells : V -> list nat) (next : nat -> St -> Res (option (list V) * St)) get written :=
  exclusive next nothing (fun s => slice_cells vcells (get s)) written.
Definition exclusive_contexts {St V C} (vcells : V -> list nat) (ccells : C -> list nat) (next : nat -> St -> Res (option (tree_context V C) * St)) get written :=
  exclusive next nothing (fun s => context_cells vcells ccells (get s)) written.
