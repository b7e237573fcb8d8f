(** * Properties C06-C08, C20, C41: breadth-first ancestors and contexts, and what happens past the end.

    Statements only; each proof is one reference to a lemma. *)
From Verif Require Import Prelim PrelimFacts Spec SpecFacts SpecObs ModelNode ModelBfs ModelPre ModelPost ModelIn ModelLeaves.
From Verif Require Import NodeFacts Slots ProofsPlain ProofsPre ProofsPost ProofsIn ProofsTree BfsCore ProofsBfs ProofsBfsAnc ProofsMore.
From Verif Require Import PropTraversal.

(** ** C06 breadth-first with ancestors.

    [yields_to_end]: every call up to and including the first one that gives [None]. See C41 for what comes after. *)
Theorem C06_bfs_ancestors : forall Nd V (gvc : Nd -> V * list Nd) nt, node_tree gvc nt -> forall n,
  exists s, bfs_attach_ancestors gvc (bfs_new n) = Ok s /\
    yields_to_end (bfsa_next gvc) s (map (ancestors_at gvc) (bfs (positions (nt n)))).
Proof.
  intros Nd V gvc nt H n; exists (bfsa_new gvc n); split; [unfold bfs_attach_ancestors; cbn; destruct (gvc n); reflexivity|].
  exact (bfsa_yields gvc nt n H).
Qed.
Print Assumptions C06_bfs_ancestors.

Theorem C06_bfs_ancestors_binary : forall Nd V (gvcb : Nd -> V * (option Nd * option Nd)) bt, node_btree gvcb bt -> forall n,
  exists s, bfs_attach_ancestors (binary_gvc gvcb) (bfs_new n) = Ok s /\
    yields_to_end (bfsa_next (binary_gvc gvcb)) s (map (ancestors_at gvcb) (bfs (flat (bpositions (bt n))))).
Proof.
  intros Nd V gvcb bt H n; exists (bfsa_new (binary_gvc gvcb) n).
  split; [unfold bfs_attach_ancestors; cbn; destruct (binary_gvc gvcb n); reflexivity|].
  rewrite <- (ancestors_flat gvcb (@bfs)) by apply @bfs_map; exact (bfsa_yields _ _ n (node_binary gvcb bt H)).
Qed.
Print Assumptions C06_bfs_ancestors_binary.

Example C06_ex : exists s, calls (bfsa_next tree_gvc) 9 (bfsa_new tree_gvc ex_tree) 20 =
  Ok ([Some [1]; Some [1;2]; Some [1;3]; Some [1;6]; Some [1;2;4]; Some [1;2;5]; Some [1;6;8]; Some [1;2;5;7]; None], s).
Proof. vm_compute; eexists; reflexivity. Qed.

(** ** C07, C08 breadth-first with context *)
Theorem C07_bfs_context : forall Nd V (gvc : Nd -> V * list Nd) nt, node_tree gvc nt ->
  forall n, small_nodes gvc (nt n) ->
  exists s, bfs_attach_context gvc (bfs_new n) = Ok s /\
    yields (bfsc_next gvc) s (map (context_at gvc) (bfs (positions (nt n)))).
Proof.
  intros Nd V gvc nt H n Hs; exists (bfsc_new (nval gvc n) (nkids gvc n) []).
  split; [unfold bfs_attach_context; cbn; rewrite (gv_eq gvc n); reflexivity|].
  exact (bfsc_yields gvc nt [] n H Hs).
Qed.
Print Assumptions C07_bfs_context.

Example C07_ex : exists s l, calls (bfsc_next tree_gvc) 10 (bfsc_new (nval tree_gvc ex_tree) (nkids tree_gvc ex_tree) []) 20 = Ok (l, s) /\
  map (option_map c_path) l = map (option_map (map N.of_nat))
    [Some []; Some [0]; Some [1]; Some [2]; Some [0;0]; Some [0;1]; Some [2;0]; Some [0;1;0]; None; None].
Proof. vm_compute; do 2 eexists; split; reflexivity. Qed.

Theorem C08_bfs_context_binary : forall Nd V (gvcb : Nd -> V * (option Nd * option Nd)) bt, node_btree gvcb bt ->
  forall n, exists s, bfs_attach_context_binary gvcb (bfs_new n) = Ok s /\
    yields (bfscb_next gvcb pair_iter) s (map (context_at gvcb) (bfs (flat (bpositions (bt n))))).
Proof.
  intros Nd V gvcb bt H n; exists (bfsc_new (nval gvcb n) (nkids gvcb n) []).
  split; [unfold bfs_attach_context_binary; cbn; rewrite (gv_eq gvcb n); reflexivity|].
  exact (bfscb_yields gvcb pair_iter _ _ [] n (slot_law_binary gvcb bt H) (small_law_binary gvcb) I).
Qed.
Print Assumptions C08_bfs_context_binary.

Example C08_ex : exists s l, calls (bfscb_next btree_gvcb pair_iter) 8 (bfsc_new (nval btree_gvcb ex_btree) (nkids btree_gvcb ex_btree) []) 20 = Ok (l, s) /\
  map (option_map c_path) l = map (option_map (map N.of_nat))
    [Some []; Some [0]; Some [1]; Some [0;1]; Some [1;0]; Some [0;1;0]; None; None].
Proof. vm_compute; do 2 eexists; split; reflexivity. Qed.

(** ** C20 [attach_ancestors().leaves()] of a breadth-first iterator after any number [k] of advances
    (up to the one that exhausts it): the leaves not yet yielded, in level order. *)
Theorem C20_bfs_ancestors_leaves : forall Nd V (gvc : Nd -> V * list Nd) nt, node_tree gvc nt -> forall n k s,
  k <= S (length (bfs (positions (nt n)))) ->
  after (bfsa_next gvc) k (bfsa_new gvc n) s ->
  yields (baleaves_next gvc) (bfsa_leaves s)
    (map (ancestors_at gvc) (filter (fun p => is_leaf gvc (pos_here p)) (skipn k (bfs (positions (nt n)))))).
Proof. intros Nd V gvc nt H n; exact (baleaves_yields gvc nt n H). Qed.
Print Assumptions C20_bfs_ancestors_leaves.

Theorem C20_bfs_ancestors_leaves_binary : forall Nd V (gvcb : Nd -> V * (option Nd * option Nd)) bt, node_btree gvcb bt -> forall n k s,
  k <= S (length (bfs (flat (bpositions (bt n))))) ->
  after (bfsa_next (binary_gvc gvcb)) k (bfsa_new (binary_gvc gvcb) n) s ->
  yields (baleaves_next (binary_gvc gvcb)) (bfsa_leaves s)
    (map (ancestors_at gvcb) (filter (fun p => is_bleaf gvcb (pos_here p)) (skipn k (bfs (flat (bpositions (bt n))))))).
Proof.
  intros Nd V gvcb bt H n k s Hk Ha; rewrite <- (leaf_lines gvcb (@bfs)) by apply @bfs_map.
  refine (baleaves_yields _ _ n (node_binary gvcb bt H) k s _ Ha).
  rewrite <- (map_length line), <- bfs_map; unfold positions; rewrite (line_flat _ [] []), bfs_map, map_length; exact Hk.
Qed.
Print Assumptions C20_bfs_ancestors_leaves_binary.

Example C20_ex : exists s1 l1, calls (bfsa_next tree_gvc) 3 (bfsa_new tree_gvc ex_tree) 20 = Ok (l1, s1) /\
  exists s2, calls (baleaves_next tree_gvc) 5 (bfsa_leaves s1) 20 = Ok ([Some [1;2;4]; Some [1;6;8]; Some [1;2;5;7]; None; None], s2).
Proof. vm_compute; do 2 eexists; split; [reflexivity|eexists; reflexivity]. Qed.

(** ** C41 exhausted iterators stay exhausted -- except the breadth-first one with ancestors *)
Theorem C41_bfs_ancestors_refuted : forall Nd V (gvc : Nd -> V * list Nd) nt, node_tree gvc nt -> forall n,
  exists os s, calls (bfsa_next gvc) (S (length (bfs (positions (nt n))))) (bfsa_new gvc n) ⇓ Ok (os ++ [None], s) /\
    (fun fuel => bfsa_next gvc fuel s) ⇓ Panic.
Proof.
  intros Nd V gvc nt H n.
  set (l := bfs (positions (nt n))).
  destruct (bfsa_yields gvc nt n H (S (length l))) as [s Hs]; [unfold l; rewrite map_length; auto|].
  exists (map (nth_error (map (ancestors_at gvc) l)) (seq 0 (length l))), s; split.
  - rewrite seq_S, map_app in Hs; cbn [map Nat.add] in Hs.
    rewrite (proj2 (nth_error_None _ (length l))) in Hs by (rewrite map_length; auto); exact Hs.
  - apply (bfsa_overrun gvc nt n H); eexists; exact Hs.
Qed.
Print Assumptions C41_bfs_ancestors_refuted.

Theorem C41_context_exhausted : forall Nd V (gvc : Nd -> V * list Nd) nt, node_tree gvc nt ->
  forall n, small_nodes gvc (nt n) ->
  stays_exhausted (bfsc_next gvc) (bfsc_new (nval gvc n) (nkids gvc n) []) /\
  stays_exhausted (prec_next gvc) (prec_new n []) /\
  stays_exhausted (postc_next gvc) (postc_new n []) /\
  stays_exhausted (postco_next gvc) (postco_new n []).
Proof.
  intros Nd V gvc nt H n Hs; repeat split; eapply yields_stays.
  - exact (bfsc_yields gvc nt [] n H Hs).
  - exact (prec_yields gvc nt [] n H Hs).
  - exact (postc_yields gvc nt [] n H Hs).
  - exact (postco_yields gvc nt [] n H Hs).
Qed.
Print Assumptions C41_context_exhausted.

Theorem C41_context_exhausted_binary : forall Nd V (gvcb : Nd -> V * (option Nd * option Nd)) bt, node_btree gvcb bt -> forall n,
  stays_exhausted (bfscb_next gvcb pair_iter) (bfsc_new (nval gvcb n) (nkids gvcb n) []) /\
  stays_exhausted (precb_next gvcb pair_iter) (prec_new n []) /\
  stays_exhausted (postcb_next gvcb pair_iter) (postc_new n []) /\
  stays_exhausted (postcob_next gvcb pair_iter) (postco_new n []) /\
  stays_exhausted (inc_next gvcb) (inc_new n []) /\
  stays_exhausted (inco_next gvcb) (inco_new n []).
Proof.
  intros Nd V gvcb bt H n; repeat split; eapply yields_stays.
  - exact (bfscb_yields gvcb pair_iter _ _ [] n (slot_law_binary gvcb bt H) (small_law_binary gvcb) I).
  - exact (precb_yields gvcb pair_iter _ _ [] (slot_law_binary gvcb bt H) (small_law_binary gvcb) n I).
  - exact (postcb_yields gvcb pair_iter _ _ [] (slot_law_binary gvcb bt H) (small_law_binary gvcb) n I).
  - exact (postcob_yields gvcb pair_iter _ _ [] n (slot_law_binary gvcb bt H) (small_law_binary gvcb) I).
  - exact (inc_yields gvcb bt [] H n).
  - exact (inco_yields gvcb bt [] n H).
Qed.
Print Assumptions C41_context_exhausted_binary.

(** The binary preorder and postorder iterators are the case [gvc := binary_gvc gvcb]. *)
Theorem C41_ancestors_exhausted : forall Nd V (gvc : Nd -> V * list Nd) nt, node_tree gvc nt -> forall n,
  stays_exhausted (prea_next gvc) (prea_new n) /\ stays_exhausted (posta_next gvc) (post_new n).
Proof.
  intros Nd V gvc nt H n; split; eapply yields_stays; [apply prea_yields, H|apply posta_yields, H].
Qed.
Print Assumptions C41_ancestors_exhausted.

Theorem C41_inorder_ancestors_exhausted : forall Nd V (gvcb : Nd -> V * (option Nd * option Nd)) bt, node_btree gvcb bt -> forall n,
  stays_exhausted (ina_next gvcb) (ina_new n).
Proof. intros Nd V gvcb bt H n; eapply yields_stays, ina_yields, H. Qed.
Print Assumptions C41_inorder_ancestors_exhausted.

Example C41_ex : exists s, calls (prea_next tree_gvc) 9 (prea_new (TNode 1 [TNode 2 []])) 10 =
  Ok ([Some [1]; Some [1;2]; None; None; None; None; None; None; None], s).
Proof. vm_compute; eexists; reflexivity. Qed.
Example C41_ex_panic : calls (bfsa_next tree_gvc) 4 (bfsa_new tree_gvc (TNode 1 [TNode 2 []])) 10 = Panic.
Proof. vm_compute; reflexivity. Qed.
