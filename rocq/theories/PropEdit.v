(** * Property C44: what the caller writes to [children_mut()] is what is traversed.

    Statements only; each proof is one reference to a lemma. *)
From Coq Require Import Permutation.
From Verif Require Import Prelim PrelimFacts Spec SpecFacts SpecObs SpecEdit ModelNode ModelBfs ModelPre ModelEdit.
From Verif Require Import ProofsEdit ProofsEditMore PropTraversal.

(** ** C44 The edited tree is [t].  The caller [edit] (any function of its own state and of the context) is shown the contexts
    of the nodes of [t] in traversal order and leaves the children that [t] has there; then the traversal gives exactly these
    contexts and ends.  The nodes need not be finite trees themselves: only [t] is. *)
Theorem C44_preorder_edited : forall Nd V G (gvc : Nd -> V * list Nd) (edit : G -> tree_context V (list Nd) -> G * list Nd) t g g',
  small_tree t ->
  edits_into edit (fun x => context_at gvc (node_at x)) kids_in g (preorder (positions (subtrees t))) g' ->
  exists s, pre_attach_context (pre_new (root t)) = Ok s /\
    yields_leaving (prec_next_edited gvc edit) (s, g) (map (fun x => context_at gvc (node_at x)) (preorder (positions (subtrees t)))) g'.
Proof. intros Nd V G gvc edit t g g' Hs He; eexists; split; [reflexivity|exact (prec_edited gvc edit t g g' [] Hs He)]. Qed.
Print Assumptions C44_preorder_edited.

Theorem C44_bfs_edited : forall Nd V G (gvc : Nd -> V * list Nd) (edit : G -> tree_context V (list Nd) -> G * list Nd) t g g',
  small_tree t ->
  edits_into edit (fun x => context_at gvc (node_at x)) kids_in g (bfs (positions (subtrees t))) g' ->
  exists s, bfs_attach_context gvc (bfs_new (root t)) = Ok s /\
    yields_leaving (bfsc_next_edited gvc edit) (s, g) (map (fun x => context_at gvc (node_at x)) (bfs (positions (subtrees t)))) g'.
Proof.
  intros Nd V G gvc edit t g g' Hs He; exists (bfsc_new (nval gvc (root t)) (nkids gvc (root t)) []).
  split; [unfold bfs_attach_context; cbn; rewrite (NodeFacts.gv_eq gvc (root t)); reflexivity|exact (bfsc_edited gvc edit t g g' [] Hs He)].
Qed.
Print Assumptions C44_bfs_edited.

Theorem C44_preorder_edited_binary : forall Nd V G (gvcb : Nd -> V * (option Nd * option Nd))
    (edit : G -> tree_context V (option Nd * option Nd) -> G * (option Nd * option Nd)) t g g',
  edits_into edit (fun x => context_at gvcb (bnode_at x)) bkids_in g (preorder (flat (bpositions (bsubtrees t)))) g' ->
  exists s, pre_attach_context (pre_new (broot t)) = Ok s /\
    yields_leaving (precb_next_edited gvcb edit) (s, g) (map (fun x => context_at gvcb (bnode_at x)) (preorder (flat (bpositions (bsubtrees t))))) g'.
Proof. intros Nd V G gvcb edit t g g' He; eexists; split; [reflexivity|exact (precb_edited gvcb edit t g g' [] He)]. Qed.
Print Assumptions C44_preorder_edited_binary.

Theorem C44_bfs_edited_binary : forall Nd V G (gvcb : Nd -> V * (option Nd * option Nd))
    (edit : G -> tree_context V (option Nd * option Nd) -> G * (option Nd * option Nd)) t g g',
  edits_into edit (fun x => context_at gvcb (bnode_at x)) bkids_in g (bfs (flat (bpositions (bsubtrees t)))) g' ->
  exists s, bfs_attach_context_binary gvcb (bfs_new (broot t)) = Ok s /\
    yields_leaving (bfscb_next_edited gvcb edit) (s, g) (map (fun x => context_at gvcb (bnode_at x)) (bfs (flat (bpositions (bsubtrees t))))) g'.
Proof.
  intros Nd V G gvcb edit t g g' He; exists (bfsc_new (nval gvcb (broot t)) (nkids gvcb (broot t)) []).
  split; [unfold bfs_attach_context_binary; cbn; rewrite (NodeFacts.gv_eq gvcb (broot t)); reflexivity|exact (bfscb_edited gvcb edit t g g' [] He)].
Qed.
Print Assumptions C44_bfs_edited_binary.

(** ** A caller without state which removes children, reorders them or puts one in the place of another: there is such a tree [t] for every node [n],
    and both traversals are those of [t]. *)
Theorem C44_removals : forall Nd V (gvc : Nd -> V * list Nd) nt, node_tree gvc nt ->
  forall e : tree_context V (list Nd) -> list Nd,
  (forall c l, c_children c = Some l -> incl (e c) l /\ length (e c) <= length l) ->
  forall n, small_nodes gvc (nt n) ->
  exists t, root t = n /\
    (forall x, In x (preorder (positions (subtrees t))) -> e (context_at gvc (node_at x)) = kids_in x) /\
    (exists s, pre_attach_context (pre_new n) = Ok s /\
      yields (prec_next_edited gvc (fun _ c => (tt, e c))) (s, tt) (map (fun x => context_at gvc (node_at x)) (preorder (positions (subtrees t))))) /\
    (exists s, bfs_attach_context gvc (bfs_new n) = Ok s /\
      yields (bfsc_next_edited gvc (fun _ c => (tt, e c))) (s, tt) (map (fun x => context_at gvc (node_at x)) (bfs (positions (subtrees t))))).
Proof.
  intros Nd V gvc nt Hnt e He n Hs; destruct (removals gvc nt e Hnt He n Hs) as (t & <- & Hst & Ht).
  exists t; split; [reflexivity|]; split; [apply Forall_forall; exact Ht|]; split.
  - destruct (C44_preorder_edited _ _ _ gvc (fun _ c => (tt, e c)) t tt tt Hst) as (s & E & Hy & _).
    { apply (edits_stateless e (fun x => context_at gvc (node_at x))); exact Ht. }
    exists s; split; [exact E|exact Hy].
  - destruct (C44_bfs_edited _ _ _ gvc (fun _ c => (tt, e c)) t tt tt Hst) as (s & E & Hy & _).
    { apply (edits_stateless e (fun x => context_at gvc (node_at x))).
      eapply Permutation_Forall; [apply Permutation_sym, bfs_perm|exact Ht]. }
    exists s; split; [exact E|exact Hy].
Qed.
Print Assumptions C44_removals.

Theorem C44_removals_binary : forall Nd V (gvcb : Nd -> V * (option Nd * option Nd)) bt, node_btree gvcb bt ->
  forall e : tree_context V (option Nd * option Nd) -> option Nd * option Nd,
  (forall c l r, c_children c = Some (l, r) ->
    (fst (e c) = None \/ fst (e c) = l \/ fst (e c) = r) /\ (snd (e c) = None \/ snd (e c) = l \/ snd (e c) = r)) ->
  forall n,
  exists t, broot t = n /\
    (forall x, In x (preorder (flat (bpositions (bsubtrees t)))) -> e (context_at gvcb (bnode_at x)) = bkids_in x) /\
    (exists s, pre_attach_context (pre_new n) = Ok s /\
      yields (precb_next_edited gvcb (fun _ c => (tt, e c))) (s, tt) (map (fun x => context_at gvcb (bnode_at x)) (preorder (flat (bpositions (bsubtrees t)))))) /\
    (exists s, bfs_attach_context_binary gvcb (bfs_new n) = Ok s /\
      yields (bfscb_next_edited gvcb (fun _ c => (tt, e c))) (s, tt) (map (fun x => context_at gvcb (bnode_at x)) (bfs (flat (bpositions (bsubtrees t)))))).
Proof.
  intros Nd V gvcb bt Hbt e He n; destruct (bremovals gvcb bt e Hbt He n) as (t & <- & Ht).
  exists t; split; [reflexivity|]; split; [apply Forall_forall; exact Ht|]; split.
  - destruct (C44_preorder_edited_binary _ _ _ gvcb (fun _ c => (tt, e c)) t tt tt) as (s & E & Hy & _).
    { apply (edits_stateless e (fun x => context_at gvcb (bnode_at x))); exact Ht. }
    exists s; split; [exact E|exact Hy].
  - destruct (C44_bfs_edited_binary _ _ _ gvcb (fun _ c => (tt, e c)) t tt tt) as (s & E & Hy & _).
    { apply (edits_stateless e (fun x => context_at gvcb (bnode_at x))).
      eapply Permutation_Forall; [apply Permutation_sym, bfs_perm|exact Ht]. }
    exists s; split; [exact E|exact Hy].
Qed.
Print Assumptions C44_removals_binary.

(** A caller which counts the nodes, reverses the root's children and adds one more, and takes all children away from
    the second node that it is shown. *)
Definition ex_edit (g : nat) (c : tree_context nat (list (tree nat))) : nat * list (tree nat) :=
  let l := match c_children c with Some l => l | None => [] end in
  (S g, match c_path c with [] => rev l ++ [TNode 9 []] | _ => if g =? 1 then [] else l end).
(** What it makes of [ex_tree]. *)
Definition ex_edited : tree (tree nat) :=
  TNode ex_tree [TNode (TNode 6 [TNode 8 []]) []; subtrees (TNode 3 []);
    subtrees (TNode 2 [TNode 4 []; TNode 5 [TNode 7 []]]); subtrees (TNode 9 [])].

Example C44_small_met : small_tree ex_edited.
Proof. repeat constructor; cbv; discriminate. Qed.
Example C44_edits_met :
  edits_into ex_edit (fun x => context_at tree_gvc (node_at x)) kids_in 0 (preorder (positions (subtrees ex_edited))) 8.
Proof. repeat (econstructor; [vm_compute; reflexivity|]); constructor. Qed.
Example C44_edits_bfs_met :
  edits_into ex_edit (fun x => context_at tree_gvc (node_at x)) kids_in 0 (bfs (positions (subtrees ex_edited))) 8.
Proof. repeat (econstructor; [vm_compute; reflexivity|]); constructor. Qed.
Example C44_ex : exists s l, calls (prec_next_edited tree_gvc ex_edit) 10 (prec_new ex_tree [], 0) 10 = Ok (l, (s, 8)) /\
  map (option_map (fun c => (c_path c, last (c_ancestors c) 0))) l = map (option_map (fun '(p, v) => (map N.of_nat p, v)))
    [Some ([], 1); Some ([0], 6); Some ([1], 3); Some ([2], 2); Some ([2;0], 4); Some ([2;1], 5); Some ([2;1;0], 7); Some ([3], 9); None; None].
Proof. vm_compute; do 2 eexists; split; reflexivity. Qed.
Example C44_bfs_ex : exists s l, calls (bfsc_next_edited tree_gvc ex_edit) 10 (bfsc_new (nval tree_gvc ex_tree) (nkids tree_gvc ex_tree) [], 0) 20 = Ok (l, (s, 8)) /\
  map (option_map (fun c => (c_path c, last (c_ancestors c) 0))) l = map (option_map (fun '(p, v) => (map N.of_nat p, v)))
    [Some ([], 1); Some ([0], 6); Some ([1], 3); Some ([2], 2); Some ([3], 9); Some ([2;0], 4); Some ([2;1], 5); Some ([2;1;0], 7); None; None].
Proof. vm_compute; do 2 eexists; split; reflexivity. Qed.

(** The binary one: swaps the children of the root, and takes those of the second node away. *)
Definition ex_editb (g : nat) (c : tree_context nat (option (btree nat) * option (btree nat))) : nat * (option (btree nat) * option (btree nat)) :=
  let '(l, r) := match c_children c with Some p => p | None => (None, None) end in
  (S g, match c_path c with [] => (r, l) | _ => if g =? 1 then (None, None) else (l, r) end).
Definition ex_editedb : btree (btree nat) :=
  BNode ex_btree (Some (BNode (BNode 3 (Some (BNode 5 None None)) None) None None))
    (Some (bsubtrees (BNode 2 None (Some (BNode 4 (Some (BNode 6 None None)) None))))).
Example C44_edits_binary_met :
  edits_into ex_editb (fun x => context_at btree_gvcb (bnode_at x)) bkids_in 0 (preorder (flat (bpositions (bsubtrees ex_editedb)))) 5.
Proof. repeat (econstructor; [vm_compute; reflexivity|]); constructor. Qed.
Example C44_edits_bfs_binary_met :
  edits_into ex_editb (fun x => context_at btree_gvcb (bnode_at x)) bkids_in 0 (bfs (flat (bpositions (bsubtrees ex_editedb)))) 5.
Proof. repeat (econstructor; [vm_compute; reflexivity|]); constructor. Qed.
Example C44_binary_ex : exists s l, calls (precb_next_edited btree_gvcb ex_editb) 7 (prec_new ex_btree [], 0) 10 = Ok (l, (s, 5)) /\
  map (option_map (fun c => (c_path c, last (c_ancestors c) 0))) l = map (option_map (fun '(p, v) => (map N.of_nat p, v)))
    [Some ([], 1); Some ([0], 3); Some ([1], 2); Some ([1;1], 4); Some ([1;1;0], 6); None; None].
Proof. vm_compute; do 2 eexists; split; reflexivity. Qed.

(** Removals: nodes at depth 1 lose their children, others keep the first one only. *)
Definition ex_removal (c : tree_context nat (list (tree nat))) : list (tree nat) :=
  match c_children c with Some l => if length (c_path c) =? 1 then [] else firstn 1 l | None => [] end.
Example C44_removals_met : forall c l, c_children c = Some l -> incl (ex_removal c) l /\ length (ex_removal c) <= length l.
Proof.
  intros c l E; unfold ex_removal; rewrite E; destruct (length (c_path c) =? 1).
  - split; [intros x []|cbn; lia].
  - split; [|rewrite firstn_length; lia].
    destruct l as [|x l]; [intros y []|intros y [->|[]]; left; reflexivity].
Qed.
Definition ex_removalb (c : tree_context nat (option (btree nat) * option (btree nat))) : option (btree nat) * option (btree nat) :=
  match c_children c with Some (l, r) => (None, l) | None => (None, None) end.
Example C44_removals_binary_met : forall c l r, c_children c = Some (l, r) ->
  (fst (ex_removalb c) = None \/ fst (ex_removalb c) = l \/ fst (ex_removalb c) = r) /\
  (snd (ex_removalb c) = None \/ snd (ex_removalb c) = l \/ snd (ex_removalb c) = r).
Proof. intros c l r E; unfold ex_removalb; rewrite E; cbn; auto. Qed.
