(** * Properties C16-C19, C21: the [leaves()] iterators (C20 is in PropBfs.v).

    Statements only; each proof is one reference to a lemma.  [is_leaf], [is_bleaf] (childless), [prefixb] and
    [parent_entered] and [lasts] are defined in SpecObs.v. *)
From Coq Require Import Permutation.
From Verif Require Import Prelim PrelimFacts Spec SpecFacts SpecObs ModelNode ModelBfs ModelPre ModelPost ModelIn ModelLeaves.
From Verif Require Import NodeFacts Slots ProofsPlain ProofsPre ProofsTree ProofsBfs ProofsMore ProofsLeaves ProofsLeavesMid ProofsLeavesTotal ProofsLeavesAll.
From Verif Require Import PropTraversal.

(** ** C16 [leaves()] before any [next()]: the childless nodes, left to right.

    For binary trees [gvc] is [binary_gvc gvcb] in the first theorem. *)
Theorem C16_leaves : forall Nd V (gvc : Nd -> V * list Nd) nt, node_tree gvc nt -> forall n,
  yields (dleaves_next gvc) (pre_leaves (pre_new n)) (map (nval gvc) (filter (is_leaf gvc) (preorder (nt n)))) /\
  yields (dleaves_next gvc) (post_leaves (post_new n)) (map (nval gvc) (filter (is_leaf gvc) (preorder (nt n)))).
Proof. intros Nd V gvc nt H n; split; exact (dleaves_yields_fresh gvc nt H n []). Qed.
Print Assumptions C16_leaves.

Theorem C16_leaves_binary : forall Nd V (gvcb : Nd -> V * (option Nd * option Nd)) bt, node_btree gvcb bt -> forall n,
  let l := map (nval gvcb) (filter (is_bleaf gvcb) (preorder (flat (bt n)))) in
  yields (dleaves_next (binary_gvc gvcb)) (pre_leaves (pre_new n)) l /\
  yields (dleaves_next (binary_gvc gvcb)) (post_leaves (post_new n)) l /\
  exists s, in_leaves (in_new n) = Ok s /\ yields (dleaves_next (binary_gvc gvcb)) s l.
Proof.
  intros Nd V gvcb bt H n l.
  assert (E : l = map (nval (binary_gvc gvcb)) (filter (is_leaf (binary_gvc gvcb)) (preorder (flat (bt n))))).
  { unfold l; rewrite (filter_ext _ _ (is_leaf_binary gvcb)); apply map_ext; intros; symmetry; apply nval_binary. }
  rewrite E; pose proof (dleaves_yields_fresh _ _ (node_binary gvcb bt H) n []) as Hy.
  split; [exact Hy|split; [exact Hy|eexists; split; [reflexivity|exact Hy]]].
Qed.
Print Assumptions C16_leaves_binary.

Example C16_ex : exists s, calls (dleaves_next tree_gvc) 6 (pre_leaves (pre_new ex_tree)) 20 =
  Ok ([Some 4; Some 7; Some 3; Some 8; None; None], s).
Proof. vm_compute; eexists; reflexivity. Qed.

(** ** C17 [leaves()] of a breadth-first iterator after any number [k] of [next()]: the childless nodes among the
    nodes not yet yielded, in level order. *)
Theorem C17_bfs_leaves : forall Nd V (gvc : Nd -> V * list Nd) nt, node_tree gvc nt -> forall n k s,
  after (bfs_next gvc) k (bfs_new n) s ->
  yields (bleaves_next gvc) (bfs_leaves s) (map (nval gvc) (filter (is_leaf gvc) (skipn k (bfs (nt n))))).
Proof. intros Nd V gvc nt H; exact (bleaves_yields gvc nt H). Qed.
Print Assumptions C17_bfs_leaves.

Theorem C17_bfs_leaves_binary : forall Nd V (gvcb : Nd -> V * (option Nd * option Nd)) bt, node_btree gvcb bt -> forall n k s,
  after (bfs_next (binary_gvc gvcb)) k (bfs_new n) s ->
  yields (bleaves_next (binary_gvc gvcb)) (bfs_leaves s)
    (map (nval gvcb) (filter (is_bleaf gvcb) (skipn k (bfs (flat (bt n)))))).
Proof.
  intros Nd V gvcb bt H n k s Ha; pose proof (bleaves_yields _ _ (node_binary gvcb bt H) n k s Ha) as Hy.
  rewrite (filter_ext _ _ (is_leaf_binary gvcb)), (map_ext _ _ (nval_binary gvcb)) in Hy; exact Hy.
Qed.
Print Assumptions C17_bfs_leaves_binary.

Example C17_ex : exists l1 s1, calls (bfs_next tree_gvc) 4 (bfs_new ex_tree) 20 = Ok (l1, s1) /\
  exists s2, calls (bleaves_next tree_gvc) 5 (bfs_leaves s1) 20 = Ok ([Some 4; Some 8; Some 7; None; None], s2).
Proof. vm_compute; do 2 eexists; split; [reflexivity|eexists; reflexivity]. Qed.

(** ** C18 [leaves()] of a depth-first iterator after any number [k] of [next()].

    What the documentation promises is false: a leaf that has not been yielded can be lost. *)
Theorem C18_preorder_leaves_refuted : exists (t : tree nat) k s,
  after (pre_next tree_gvc) k (pre_new t) s /\
  ~ yields (dleaves_next tree_gvc) (pre_leaves s)
      (map (nval tree_gvc) (filter (is_leaf tree_gvc) (skipn k (preorder (subtrees t))))).
Proof.
  exists (TNode 1 [TNode 2 []; TNode 3 []]), 1, (mkPre None [[TNode 2 []; TNode 3 []]]); split.
  - exists [Some 1], 1; intros [|f] Hf; [lia|reflexivity].
  - intros H; pose proof (yields_unique _ _ _ _ _ _ H (dleaves_yields_mid tree_gvc subtrees (@node_tree_tree nat) _ _)); discriminate.
Qed.
Print Assumptions C18_preorder_leaves_refuted.

Theorem C18_postorder_leaves_refuted : exists (t : tree nat) k s,
  after (post_next tree_gvc) k (post_new t) s /\
  ~ yields (dleaves_next tree_gvc) (post_leaves s)
      (map (nval tree_gvc) (filter (is_leaf tree_gvc) (skipn k (postorder (subtrees t))))).
Proof.
  exists (TNode 1 [TNode 2 []; TNode 3 []]), 1, (mkPost None [1] [[TNode 3 []]]); split.
  - exists [Some 2], 4; intros f Hf; do 4 (destruct f as [|f]; [lia|]); reflexivity.
  - intros H; pose proof (yields_unique _ _ _ _ _ _ H (dleaves_yields_mid tree_gvc subtrees (@node_tree_tree nat) _ _)); discriminate.
Qed.
Print Assumptions C18_postorder_leaves_refuted.

Theorem C18_inorder_leaves_refuted : exists (t : btree nat) k s s',
  after (in_next btree_gvcb) k (in_new t) s /\ in_leaves s = Ok s' /\
  ~ yields (dleaves_next (binary_gvc btree_gvcb)) s'
      (map (nval btree_gvcb) (filter (is_bleaf btree_gvcb) (skipn k (inorder (bsubtrees t))))).
Proof.
  exists (BNode 1 (Some (BNode 2 None None)) (Some (BNode 3 None None))), 1,
    (mkIn [None; Some (BNode 3 None None)] [1] true), (mkDl None [[]; [BNode 3 None None]] [] [1]); split; [|split].
  - exists [Some 2], 4; intros f Hf; do 4 (destruct f as [|f]; [lia|]); reflexivity.
  - reflexivity.
  - intros H.
    pose proof (yields_unique _ _ _ _ _ _ H (dleaves_yields_mid _ _ (node_binary _ _ (@node_btree_btree nat)) _ _)); discriminate.
Qed.
Print Assumptions C18_inorder_leaves_refuted.

(** Exactly what happens: of the leaves not yet yielded, those are lost whose parent has already been yielded or is
    an ancestor of a node already yielded; the others come in order, then [None] forever. *)
Theorem C18_preorder_leaves_exact : forall Nd V (gvc : Nd -> V * list Nd) nt, node_tree gvc nt -> forall n k s,
  after (pre_next gvc) k (pre_new n) s ->
  let L := preorder (positions (nt n)) in
  yields (dleaves_next gvc) (pre_leaves s)
    (map (fun p => nval gvc (pos_here p))
      (filter (fun p => is_leaf gvc (pos_here p) && negb (parent_entered (firstn k L) p)) (skipn k L))).
Proof.
  intros Nd V gvc nt H n k s Ha.
  refine (pre_leaves_mid gvc (map Some) _ (slot_law_nary gvc nt H) gvc n _ k s Ha).
  intros m; rewrite (gv_eq gvc m) at 1; f_equal; induction (nkids gvc m) as [|c cs IH]; [reflexivity|]; cbn; f_equal; exact IH.
Qed.
Print Assumptions C18_preorder_leaves_exact.

Theorem C18_postorder_leaves_exact : forall Nd V (gvc : Nd -> V * list Nd) nt, node_tree gvc nt -> forall n k s,
  after (post_next gvc) k (post_new n) s ->
  let L := postorder (positions (nt n)) in
  yields (dleaves_next gvc) (post_leaves s)
    (map (fun p => nval gvc (pos_here p))
      (filter (fun p => is_leaf gvc (pos_here p) && negb (parent_entered (firstn k L) p)) (skipn k L))).
Proof.
  intros Nd V gvc nt H n k s Ha.
  refine (post_leaves_mid gvc (map Some) _ (slot_law_nary gvc nt H) gvc n _ k s Ha).
  intros m; rewrite (gv_eq gvc m) at 1; f_equal; induction (nkids gvc m) as [|c cs IH]; [reflexivity|]; cbn; f_equal; exact IH.
Qed.
Print Assumptions C18_postorder_leaves_exact.

Theorem C18_leaves_exact_binary : forall Nd V (gvcb : Nd -> V * (option Nd * option Nd)) bt, node_btree gvcb bt -> forall n k,
  let lost L p := parent_entered (firstn k L) p in
  let rest L := map (fun p => nval gvcb (pos_here p))
    (filter (fun p => is_bleaf gvcb (pos_here p) && negb (lost L p)) (skipn k L)) in
  (forall s, after (pre_next (binary_gvc gvcb)) k (pre_new n) s ->
     yields (dleaves_next (binary_gvc gvcb)) (pre_leaves s) (rest (preorder (flat (bpositions (bt n)))))) /\
  (forall s, after (post_next (binary_gvc gvcb)) k (post_new n) s ->
     yields (dleaves_next (binary_gvc gvcb)) (post_leaves s) (rest (postorder (flat (bpositions (bt n)))))) /\
  (forall s, after (in_next gvcb) k (in_new n) s ->
     exists s', in_leaves s = Ok s' /\
     yields (dleaves_next (binary_gvc gvcb)) s' (rest (inorder (bpositions (bt n))))).
Proof.
  intros Nd V gvcb bt H n k lost rest.
  assert (E : forall L, rest L = spec_mid gvcb (binary_gvc gvcb) L k).
  { intros L; unfold rest, spec_mid, pv; f_equal; apply filter_ext; intros p; rewrite is_leaf_binary; reflexivity. }
  split; [|split]; intros s Ha; rewrite E.
  - exact (pre_leaves_mid gvcb pair_iter _ (slot_law_binary gvcb bt H) _ n (Hg_binary gvcb) k s Ha).
  - exact (post_leaves_mid gvcb pair_iter _ (slot_law_binary gvcb bt H) _ n (Hg_binary gvcb) k s Ha).
  - exact (in_leaves_mid gvcb bt H n k s Ha).
Qed.
Print Assumptions C18_leaves_exact_binary.

(** After [1], [2], [4] the leaf [3] is lost, since its parent [1] was yielded; 7 and 8 are found. *)
Example C18_ex : exists l1 s1, calls (pre_next tree_gvc) 3 (pre_new ex_tree) 20 = Ok (l1, s1) /\
  exists s2, calls (dleaves_next tree_gvc) 4 (pre_leaves s1) 20 = Ok ([Some 7; Some 8; None; None], s2).
Proof. vm_compute; do 2 eexists; split; [reflexivity|eexists; reflexivity]. Qed.

(** ** C19 [attach_ancestors().leaves()] before any [advance()] *)
Theorem C19_ancestors_leaves : forall Nd V (gvc : Nd -> V * list Nd) nt, node_tree gvc nt -> forall n,
  let l := map (ancestors_at gvc) (filter (fun p => is_leaf gvc (pos_here p)) (preorder (positions (nt n)))) in
  yields (daleaves_next gvc) (prea_leaves (prea_new n)) l /\ yields (daleaves_next gvc) (posta_leaves (post_new n)) l.
Proof. intros Nd V gvc nt H n l; split; exact (daleaves_yields_fresh gvc nt H n). Qed.
Print Assumptions C19_ancestors_leaves.

Theorem C19_ancestors_leaves_binary : forall Nd V (gvcb : Nd -> V * (option Nd * option Nd)) bt, node_btree gvcb bt -> forall n,
  let l := map (ancestors_at gvcb) (filter (fun p => is_bleaf gvcb (pos_here p)) (preorder (flat (bpositions (bt n))))) in
  yields (daleaves_next (binary_gvc gvcb)) (prea_leaves (prea_new n)) l /\
  yields (daleaves_next (binary_gvc gvcb)) (posta_leaves (post_new n)) l /\
  yields (daleaves_next (binary_gvc gvcb)) (ina_leaves (ina_new n)) l.
Proof.
  intros Nd V gvcb bt H n l.
  pose proof (daleaves_yields_fresh _ _ (node_binary gvcb bt H) n) as Hy.
  pose proof (leaf_lines gvcb (@preorder) (bt n) 0 (@preorder_map)) as E; cbn [skipn] in E; cbn beta in Hy; rewrite E in Hy.
  split; [exact Hy|split; exact Hy].
Qed.
Print Assumptions C19_ancestors_leaves_binary.

Example C19_ex : exists s, calls (daleaves_next tree_gvc) 6 (prea_leaves (prea_new ex_tree)) 20 =
  Ok ([Some [1;2;4]; Some [1;2;5;7]; Some [1;3]; Some [1;6;8]; None; None], s).
Proof. vm_compute; eexists; reflexivity. Qed.

(** ** C21 [attach_ancestors().leaves()] of a depth-first iterator that has been advanced: the slices are wrong *)
Definition ex_bushy : tree nat := TNode 1 [TNode 2 [TNode 3 []; TNode 4 [TNode 5 []; TNode 6 []]]; TNode 7 []].
Definition ex_chain : tree nat := TNode 1 [TNode 2 [TNode 3 []]; TNode 4 []].

Theorem C21_preorder_refuted : exists (t : tree nat) k s,
  after (prea_next tree_gvc) k (prea_new t) s /\
  ~ yields (daleaves_next tree_gvc) (prea_leaves s)
      (map (ancestors_at tree_gvc) (filter (fun p => is_leaf tree_gvc (pos_here p)) (skipn k (preorder (positions (subtrees t)))))).
Proof.
  exists ex_chain, 2, (mkPrea None [[TNode 3 []]; [TNode 4 []]] [2; 1]); split.
  - exists [Some [1]; Some [1; 2]], 6; intros f Hf; do 6 (destruct f as [|f]; [lia|]); reflexivity.
  - intros H; destruct (H 1) as [s' [F HF]]; specialize (HF (F + 6) ltac:(lia)).
    replace (F + 6) with (S (S (S (S (S (S F)))))) in HF by lia; discriminate.
Qed.
Print Assumptions C21_preorder_refuted.

Theorem C21_postorder_refuted : exists (t : tree nat) k s,
  after (posta_next tree_gvc) k (post_new t) s /\
  ~ yields (daleaves_next tree_gvc) (posta_leaves s)
      (map (ancestors_at tree_gvc) (filter (fun p => is_leaf tree_gvc (pos_here p)) (skipn k (postorder (positions (subtrees t)))))).
Proof.
  exists ex_bushy, 1, (mkPost None [3; 2; 1] [[TNode 4 [TNode 5 []; TNode 6 []]]; [TNode 7 []]]); split.
  - exists [Some [1; 2; 3]], 6; intros f Hf; do 6 (destruct f as [|f]; [lia|]); reflexivity.
  - intros H; destruct (H 3) as [s' [F HF]]; specialize (HF (F + 6) ltac:(lia)).
    replace (F + 6) with (S (S (S (S (S (S F)))))) in HF by lia; vm_compute in HF; discriminate.
Qed.
Print Assumptions C21_postorder_refuted.

Definition ex_bchain : btree nat := BNode 1 (Some (BNode 2 None (Some (BNode 3 None None)))) None.

Theorem C21_inorder_refuted : exists (t : btree nat) k s,
  after (ina_next btree_gvcb) k (ina_new t) s /\
  ~ yields (daleaves_next (binary_gvc btree_gvcb)) (ina_leaves s)
      (map (ancestors_at btree_gvcb) (filter (fun p => is_bleaf btree_gvcb (pos_here p)) (skipn k (inorder (bpositions (bsubtrees t)))))).
Proof.
  exists ex_bchain, 1.
  eexists; split.
  - exists [Some [1; 2]], 6; intros f Hf; do 6 (destruct f as [|f]; [lia|]); reflexivity.
  - intros H; destruct (H 1) as [s' [F HF]]; specialize (HF (F + 6) ltac:(lia)).
    replace (F + 6) with (S (S (S (S (S (S F)))))) in HF by lia; discriminate.
Qed.
Print Assumptions C21_inorder_refuted.

(** It can even end too early: [None] is followed by another leaf. *)
Theorem C21_premature_end_refuted : exists (t : tree nat) k s,
  after (prea_next tree_gvc) k (prea_new t) s /\ ~ stays_exhausted (daleaves_next tree_gvc) (prea_leaves s).
Proof.
  exists ex_chain, 2, (mkPrea None [[TNode 3 []]; [TNode 4 []]] [2; 1]); split.
  - exists [Some [1]; Some [1; 2]], 6; intros f Hf; do 6 (destruct f as [|f]; [lia|]); reflexivity.
  - intros H.
    specialize (H 2 [Some [1; 3]] (mkDa None [] [[TNode 4 []]] [])).
    destruct H with (k := 1) as [s2 [F HF]].
    { exists 8; intros f Hf; do 8 (destruct f as [|f]; [lia|]); reflexivity. }
    specialize (HF (F + 6) ltac:(lia)); replace (F + 6) with (S (S (S (S (S (S F)))))) in HF by lia; discriminate.
Qed.
Print Assumptions C21_premature_end_refuted.

(** But it never panics and always terminates, whatever the state it starts from. *)
Theorem C21_no_panic : forall Nd V (gvc : Nd -> V * list Nd) nt, node_tree gvc nt -> forall s k,
  exists os s', calls (daleaves_next gvc) k s ⇓ Ok (os, s').
Proof. intros Nd V gvc nt H s k; exact (da_calls_total gvc nt H k s). Qed.
Print Assumptions C21_no_panic.

(** No leaf is lost and none is repeated, whatever the place where the iterator was left: from some number of calls on, the
    last elements of the slices are exactly the leaves not passed yet, each once. *)
Theorem C21_preorder_complete : forall Nd V (gvc : Nd -> V * list Nd) nt, node_tree gvc nt -> forall n k s,
  after (prea_next gvc) k (prea_new n) s ->
  exists K, forall j, K <= j -> exists os s', calls (daleaves_next gvc) j (prea_leaves s) ⇓ Ok (os, s') /\
    Permutation (lasts os) (map (nval gvc) (filter (is_leaf gvc) (skipn k (preorder (nt n))))).
Proof.
  intros Nd V gvc nt H n k s Ha; rewrite <- (prea_left gvc nt H n k s Ha); exact (da_all gvc nt H (prea_leaves s)).
Qed.
Print Assumptions C21_preorder_complete.

Theorem C21_postorder_complete : forall Nd V (gvc : Nd -> V * list Nd) nt, node_tree gvc nt -> forall n k s,
  after (posta_next gvc) k (post_new n) s ->
  exists K, forall j, K <= j -> exists os s', calls (daleaves_next gvc) j (posta_leaves s) ⇓ Ok (os, s') /\
    Permutation (lasts os) (map (nval gvc) (filter (is_leaf gvc) (skipn k (postorder (nt n))))).
Proof.
  intros Nd V gvc nt H n k s Ha; rewrite <- (posta_left gvc nt H n k s Ha); exact (da_all gvc nt H (posta_leaves s)).
Qed.
Print Assumptions C21_postorder_complete.

Theorem C21_inorder_complete : forall Nd V (gvcb : Nd -> V * (option Nd * option Nd)) bt, node_btree gvcb bt -> forall n k s,
  after (ina_next gvcb) k (ina_new n) s ->
  exists K, forall j, K <= j -> exists os s', calls (daleaves_next (binary_gvc gvcb)) j (ina_leaves s) ⇓ Ok (os, s') /\
    Permutation (lasts os) (map (nval gvcb) (filter (is_bleaf gvcb) (skipn k (inorder (bt n))))).
Proof.
  intros Nd V gvcb bt H n k s Ha; pose proof (node_binary gvcb bt H) as H'.
  pose proof (da_all (binary_gvc gvcb) _ H' (ina_leaves s)) as Hd.
  rewrite (ina_left gvcb bt H H' n k s Ha) in Hd; destruct Hd as [K HK]; exists K; intros j Hj.
  destruct (HK j Hj) as (os & s' & Hc & Hp); exists os, s'; split; [exact Hc|].
  rewrite (filter_ext (is_bleaf gvcb) (is_leaf (binary_gvc gvcb))), (map_ext (nval gvcb) (nval (binary_gvc gvcb))); [exact Hp| |].
  - intros m; unfold nval, binary_gvc; destruct (gvcb m); reflexivity.
  - intros m; rewrite bleaf_kids; unfold is_bleaf; rewrite nkids_pair; reflexivity.
Qed.
Print Assumptions C21_inorder_complete.

(** But not always in order: here the leaves left are 2, 5, 6, 7. *)
Definition ex_order : tree nat := TNode 1 [TNode 2 []; TNode 3 [TNode 4 [TNode 5 []]; TNode 6 []]; TNode 7 []].

Lemma calls_front {S A} (next : nat -> S -> Res (option A * S)) k j : forall s f os s', calls next (k + j) s f = Ok (os, s') ->
  exists l1 s1 l2, calls next k s f = Ok (l1, s1) /\ os = l1 ++ l2.
Proof.
  induction k as [|k IH]; intros s f os s' H; [exists [], s, os; split; reflexivity|].
  cbn [calls Nat.add] in H |- *; destruct (next f s) as [[o s1]| | |]; cbn [bindR] in H |- *; try discriminate H.
  destruct (calls next (k + j) s1 f) as [[l s2]| | |] eqn:E; cbn [bindR] in H; try discriminate H; injection H as <- <-.
  destruct (IH _ _ _ _ E) as (l1 & s3 & l2 & E1 & ->); rewrite E1; exists (o :: l1), s3, l2; split; reflexivity.
Qed.

Theorem C21_order_refuted : exists (t : tree nat) k s,
  after (prea_next tree_gvc) k (prea_new t) s /\
  ~ exists j os s', calls (daleaves_next tree_gvc) j (prea_leaves s) ⇓ Ok (os, s') /\
    lasts os = map (nval tree_gvc) (filter (is_leaf tree_gvc) (skipn k (preorder (subtrees t)))).
Proof.
  exists ex_order, 1, (mkPrea None [[TNode 2 []; TNode 3 [TNode 4 [TNode 5 []]; TNode 6 []]; TNode 7 []]] [1]); split.
  - exists [Some [1]], 6; intros f Hf; do 6 (destruct f as [|f]; [lia|]); reflexivity.
  - intros (j & os & s' & [F HF] & E); specialize (HF (F + 8) ltac:(lia)).
    replace (F + 8) with (S (S (S (S (S (S (S (S F)))))))) in HF by lia.
    change (map _ _) with [2; 5; 6; 7] in E.
    do 3 (destruct j as [|j]; [vm_compute in HF; injection HF as <- _; discriminate|]).
    destruct (calls_front _ 3 j _ _ _ _ HF) as (l1 & s1 & l2 & Hc & ->).
    vm_compute in Hc; injection Hc as <- _; discriminate.
Qed.
Print Assumptions C21_order_refuted.

Example C21_ex : exists s, calls (daleaves_next tree_gvc) 4 (prea_leaves (mkPrea None [[TNode 3 []]; [TNode 4 []]] [2; 1])) 20 =
  Ok ([Some [1; 3]; None; Some [4]; None], s).
Proof. vm_compute; eexists; reflexivity. Qed.
