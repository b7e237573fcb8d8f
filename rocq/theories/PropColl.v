(** * Properties C23, C24, C48 (and C27, C46 for collections): collections of trees.

    [each], [in_tree], [small_collection] are in SpecObs.v. *)
From Coq Require Import Permutation.
From Verif Require Import Prelim PrelimFacts Spec SpecFacts SpecObs ModelNode ModelBfs ModelPre ModelPost ModelIn ModelColl.
From Verif Require Import NodeFacts Slots ProofsPlain ProofsPre ProofsPost ProofsIn ProofsTree ProofsBfs ProofsPath ProofsColl PropTraversal.

Definition ex_trees : list (tree nat) := [TNode 9 []; ex_tree; TNode 10 [TNode 11 []]].
Definition ex_btrees : list (btree nat) := [BNode 9 None None; ex_btree].

(** ** C23 the [_each] iterators concatenate *)
Theorem C23_bfs_each : forall Nd V (gvc : Nd -> V * list Nd) nt, node_tree gvc nt -> forall trees,
  yields (bfs_each_next gvc) (coll_new trees) (flat_map (fun t => map (nval gvc) (bfs (nt t))) trees).
Proof. intros Nd V gvc nt H trees; apply coll_yields; intros t; exact (bfs_yields gvc nt H t). Qed.
Print Assumptions C23_bfs_each.

Theorem C23_preorder_each : forall Nd V (gvc : Nd -> V * list Nd) nt, node_tree gvc nt -> forall trees,
  yields (pre_each_next gvc) (coll_new trees) (flat_map (fun t => map (nval gvc) (preorder (nt t))) trees).
Proof. intros Nd V gvc nt H trees; apply coll_yields; intros t; exact (pre_yields gvc nt H t). Qed.
Print Assumptions C23_preorder_each.

Theorem C23_postorder_each : forall Nd V (gvc : Nd -> V * list Nd) nt, node_tree gvc nt -> forall trees,
  yields (post_each_next gvc) (coll_new trees) (flat_map (fun t => map (nval gvc) (postorder (nt t))) trees).
Proof. intros Nd V gvc nt H trees; apply coll_yields; intros t; exact (post_yields gvc nt H t). Qed.
Print Assumptions C23_postorder_each.

Theorem C23_inorder_each : forall Nd V (gvcb : Nd -> V * (option Nd * option Nd)) bt, node_btree gvcb bt -> forall trees,
  yields (in_each_next gvcb) (coll_new trees) (flat_map (fun t => map (nval gvcb) (inorder (bt t))) trees).
Proof. intros Nd V gvcb bt H trees; apply coll_yields; intros t; exact (in_yields gvcb bt H t). Qed.
Print Assumptions C23_inorder_each.

Theorem C23_each_binary : forall Nd V (gvcb : Nd -> V * (option Nd * option Nd)) bt, node_btree gvcb bt -> forall trees,
  yields (bfs_each_next (binary_gvc gvcb)) (coll_new trees) (flat_map (fun t => map (nval gvcb) (bfs (flat (bt t)))) trees) /\
  yields (pre_each_next (binary_gvc gvcb)) (coll_new trees) (flat_map (fun t => map (nval gvcb) (preorder (flat (bt t)))) trees) /\
  yields (post_each_next (binary_gvc gvcb)) (coll_new trees) (flat_map (fun t => map (nval gvcb) (postorder (flat (bt t)))) trees).
Proof.
  intros Nd V gvcb bt H trees; repeat split; apply coll_yields; intros t; rewrite <- (map_ext _ _ (nval_binary gvcb)).
  - exact (bfs_yields _ _ (node_binary gvcb bt H) t).
  - exact (pre_yields _ _ (node_binary gvcb bt H) t).
  - exact (post_yields _ _ (node_binary gvcb bt H) t).
Qed.
Print Assumptions C23_each_binary.

Example C23_ex : exists s, calls (post_each_next tree_gvc) 13 (coll_new ex_trees) 20 =
  Ok ([Some 9; Some 4; Some 7; Some 5; Some 2; Some 3; Some 8; Some 6; Some 1; Some 11; Some 10; None; None], s).
Proof. vm_compute; eexists; reflexivity. Qed.

(** ** C24 [attach_context()] of a collection: the contexts of each tree, the tree's index first in the path *)
Theorem C24_bfs_context : forall Nd V (gvc : Nd -> V * list Nd) nt, node_tree gvc nt ->
  forall trees, small_collection trees -> Forall (fun t => small_nodes gvc (nt t)) trees ->
  exists s, coll_attach (coll_new trees : coll Nd (bfs_iter Nd)) = Ok s /\
    yields (bfsc_each_next gvc) s (each (fun i t => map (fun p => context_at gvc (in_tree i p)) (bfs (positions (nt t)))) trees).
Proof.
  intros Nd V gvc nt H trees Hc Hs; eexists; split; [reflexivity|].
  eapply (collc_yields _ _ _ (fun f s o s' => bind_get _ _ f s o s') (fun t => small_nodes gvc (nt t))); [|exact Hs|exact Hc].
  intros i t Ht.
  unfold bfsc_start; rewrite (gv_eq gvc t).
  rewrite <- (each_nary gvc nt (@bfs)) by apply @bfs_map; exact (bfsc_yields gvc nt [i] t H Ht).
Qed.
Print Assumptions C24_bfs_context.

Theorem C24_preorder_context : forall Nd V (gvc : Nd -> V * list Nd) nt, node_tree gvc nt ->
  forall trees, small_collection trees -> Forall (fun t => small_nodes gvc (nt t)) trees ->
  exists s, coll_attach (coll_new trees : coll Nd (pre_iter Nd)) = Ok s /\
    yields (prec_each_next gvc) s (each (fun i t => map (fun p => context_at gvc (in_tree i p)) (preorder (positions (nt t)))) trees).
Proof.
  intros Nd V gvc nt H trees Hc Hs; eexists; split; [reflexivity|].
  eapply (collc_yields _ _ _ (fun f s o s' => bind_get _ _ f s o s') (fun t => small_nodes gvc (nt t))); [|exact Hs|exact Hc].
  intros i t Ht.
  rewrite <- (each_nary gvc nt (@preorder)) by apply @preorder_map; exact (prec_yields gvc nt [i] t H Ht).
Qed.
Print Assumptions C24_preorder_context.

Theorem C24_postorder_context : forall Nd V (gvc : Nd -> V * list Nd) nt, node_tree gvc nt ->
  forall trees, small_collection trees -> Forall (fun t => small_nodes gvc (nt t)) trees ->
  exists s, coll_attach (coll_new trees : coll Nd (post_iter Nd V)) = Ok s /\
    yields (postc_each_next gvc) s (each (fun i t => map (fun p => context_at gvc (in_tree i p)) (postorder (positions (nt t)))) trees).
Proof.
  intros Nd V gvc nt H trees Hc Hs; eexists; split; [reflexivity|].
  eapply (collc_yields _ _ _ (fun f s o s' => bind_get _ _ f s o s') (fun t => small_nodes gvc (nt t))); [|exact Hs|exact Hc].
  intros i t Ht.
  rewrite <- (each_nary gvc nt (@postorder)) by apply @postorder_map; exact (postc_yields gvc nt [i] t H Ht).
Qed.
Print Assumptions C24_postorder_context.

Theorem C24_postorder_owned_context : forall Nd V (gvc : Nd -> V * list Nd) nt, node_tree gvc nt ->
  forall trees, small_collection trees -> Forall (fun t => small_nodes gvc (nt t)) trees ->
  exists s, coll_attach (coll_new trees : coll Nd (post_iter Nd V)) = Ok s /\
    yields (postco_each_next gvc) s (each (fun i t => map (fun p => no_children (context_at gvc (in_tree i p))) (postorder (positions (nt t)))) trees).
Proof.
  intros Nd V gvc nt H trees Hc Hs; eexists; split; [reflexivity|].
  eapply (collc_yields _ _ _ (fun f s o s' => bind_get _ _ f s o s') (fun t => small_nodes gvc (nt t))); [|exact Hs|exact Hc].
  intros i t Ht.
  rewrite <- (map_map (fun p => context_at gvc (in_tree i p)) no_children).
  rewrite <- (each_nary gvc nt (@postorder)) by apply @postorder_map; exact (postco_yields gvc nt [i] t H Ht).
Qed.
Print Assumptions C24_postorder_owned_context.

Theorem C24_bfs_context_binary : forall Nd V (gvcb : Nd -> V * (option Nd * option Nd)) bt, node_btree gvcb bt ->
  forall trees, small_collection trees ->
  exists s, coll_attach (coll_new trees : coll Nd (bfs_iter Nd)) = Ok s /\
    yields (bfscb_each_next gvcb) s (each (fun i t => map (fun p => context_at gvcb (in_tree i p)) (bfs (flat (bpositions (bt t))))) trees).
Proof.
  intros Nd V gvcb bt H trees Hc; eexists; split; [reflexivity|].
  eapply (collc_yields _ _ _ (fun f s o s' => bind_get _ _ f s o s') (fun _ => True)); [|apply Forall_forall; auto|exact Hc].
  intros i t _.
  unfold bfsc_start; rewrite (gv_eq gvcb t).
  rewrite <- (each_flat gvcb bt (@bfs)) by apply @bfs_map; exact (bfscb_yields gvcb pair_iter _ _ [i] t (slot_law_binary gvcb bt H) (small_law_binary gvcb) I).
Qed.
Print Assumptions C24_bfs_context_binary.

Theorem C24_preorder_context_binary : forall Nd V (gvcb : Nd -> V * (option Nd * option Nd)) bt, node_btree gvcb bt ->
  forall trees, small_collection trees ->
  exists s, coll_attach (coll_new trees : coll Nd (pre_iter Nd)) = Ok s /\
    yields (precb_each_next gvcb) s (each (fun i t => map (fun p => context_at gvcb (in_tree i p)) (preorder (flat (bpositions (bt t))))) trees).
Proof.
  intros Nd V gvcb bt H trees Hc; eexists; split; [reflexivity|].
  eapply (collc_yields _ _ _ (fun f s o s' => bind_get _ _ f s o s') (fun _ => True)); [|apply Forall_forall; auto|exact Hc].
  intros i t _.
  rewrite <- (each_flat gvcb bt (@preorder)) by apply @preorder_map; exact (precb_yields gvcb pair_iter _ _ [i] (slot_law_binary gvcb bt H) (small_law_binary gvcb) t I).
Qed.
Print Assumptions C24_preorder_context_binary.

Theorem C24_postorder_context_binary : forall Nd V (gvcb : Nd -> V * (option Nd * option Nd)) bt, node_btree gvcb bt ->
  forall trees, small_collection trees ->
  exists s, coll_attach (coll_new trees : coll Nd (post_iter Nd V)) = Ok s /\
    yields (postcb_each_next gvcb) s (each (fun i t => map (fun p => context_at gvcb (in_tree i p)) (postorder (flat (bpositions (bt t))))) trees).
Proof.
  intros Nd V gvcb bt H trees Hc; eexists; split; [reflexivity|].
  eapply (collc_yields _ _ _ (fun f s o s' => bind_get _ _ f s o s') (fun _ => True)); [|apply Forall_forall; auto|exact Hc].
  intros i t _.
  rewrite <- (each_flat gvcb bt (@postorder)) by apply @postorder_map; exact (postcb_yields gvcb pair_iter _ _ [i] (slot_law_binary gvcb bt H) (small_law_binary gvcb) t I).
Qed.
Print Assumptions C24_postorder_context_binary.

Theorem C24_postorder_owned_context_binary : forall Nd V (gvcb : Nd -> V * (option Nd * option Nd)) bt, node_btree gvcb bt ->
  forall trees, small_collection trees ->
  exists s, coll_attach (coll_new trees : coll Nd (post_iter Nd V)) = Ok s /\
    yields (postcob_each_next gvcb) s (each (fun i t => map (fun p => no_children (context_at gvcb (in_tree i p))) (postorder (flat (bpositions (bt t))))) trees).
Proof.
  intros Nd V gvcb bt H trees Hc; eexists; split; [reflexivity|].
  eapply (collc_yields _ _ _ (fun f s o s' => bind_get _ _ f s o s') (fun _ => True)); [|apply Forall_forall; auto|exact Hc].
  intros i t _.
  rewrite <- (map_map (fun p => context_at gvcb (in_tree i p)) no_children).
  rewrite <- (each_flat gvcb bt (@postorder)) by apply @postorder_map; exact (postcob_yields gvcb pair_iter _ _ [i] t (slot_law_binary gvcb bt H) (small_law_binary gvcb) I).
Qed.
Print Assumptions C24_postorder_owned_context_binary.

Theorem C24_inorder_context : forall Nd V (gvcb : Nd -> V * (option Nd * option Nd)) bt, node_btree gvcb bt ->
  forall trees, small_collection trees ->
  exists s, coll_attach (coll_new trees : coll Nd (in_iter Nd V)) = Ok s /\
    yields (inc_each_next gvcb) s (each (fun i t => map (fun p => context_at gvcb (in_tree i p)) (inorder (bpositions (bt t)))) trees).
Proof.
  intros Nd V gvcb bt H trees Hc; eexists; split; [reflexivity|].
  eapply (collc_yields _ _ _ (fun f s o s' => bind_get _ _ f s o s') (fun _ => True)); [|apply Forall_forall; auto|exact Hc].
  intros i t _.
  rewrite <- each_in; exact (inc_yields gvcb bt [i] H t).
Qed.
Print Assumptions C24_inorder_context.

Theorem C24_inorder_owned_context : forall Nd V (gvcb : Nd -> V * (option Nd * option Nd)) bt, node_btree gvcb bt ->
  forall trees, small_collection trees ->
  exists s, coll_attach (coll_new trees : coll Nd (in_iter Nd V)) = Ok s /\
    yields (inco_each_next gvcb) s (each (fun i t => map (fun p => no_children (context_at gvcb (in_tree i p))) (inorder (bpositions (bt t)))) trees).
Proof.
  intros Nd V gvcb bt H trees Hc; eexists; split; [reflexivity|].
  eapply (collc_yields _ _ _ (fun f s o s' => bind_get _ _ f s o s') (fun _ => True)); [|apply Forall_forall; auto|exact Hc].
  intros i t _.
  rewrite <- (map_map (fun p => context_at gvcb (in_tree i p)) no_children).
  rewrite <- each_in; exact (inco_yields gvcb bt [i] t H).
Qed.
Print Assumptions C24_inorder_owned_context.

Example C24_hyps : small_collection ex_trees /\ Forall (fun t => small_nodes tree_gvc (subtrees t)) ex_trees.
Proof. split; [cbv; discriminate|repeat constructor; cbv; discriminate]. Qed.
Example C24_ex : exists s l, calls (prec_each_next tree_gvc) 13 (mkCollc ex_trees usize_max None) 20 = Ok (l, s) /\
  map (option_map c_path) l = map (option_map (map N.of_nat))
    [Some [0]; Some [1]; Some [1;0]; Some [1;0;0]; Some [1;0;1]; Some [1;0;1;0]; Some [1;1]; Some [1;2]; Some [1;2;0]; Some [2]; Some [2;0]; None; None].
Proof. vm_compute; do 2 eexists; split; reflexivity. Qed.

(** ** C48 when [attach_context()] of a collection iterator panics

    After [k] calls of [next()]: it panics iff [k] is positive and not larger than the number of nodes.  Otherwise
    it gives a context iterator: the full one of C24 for [k = 0], and an empty one after the end.  ([S'] is the state
    of the single-tree context iterator.) *)
Ltac attach_cases Hs Ha :=
  split; [intros ->; exact (after_fun _ _ _ _ _ Hs (after_0 _ _))|];
  split; [intros S'; rewrite Ha;
    match goal with |- context [?k =? 0] => destruct (Nat.eqb_spec k 0) as [E0|E0] end;
    [split; [discriminate|lia]|];
    match goal with |- context [?k <=? ?n] => destruct (Nat.leb_spec k n) as [Ek|Ek] end;
    split; (discriminate || lia || (intros _; reflexivity) || (intros; lia))|];
  repeat split; intros Hk; rewrite Ha;
  match goal with |- context [?k =? 0] => destruct (Nat.eqb_spec k 0) as [E0|E0]; [lia|] end;
  match goal with |- context [?k <=? ?n] => destruct (Nat.leb_spec k n) as [Ek|Ek]; [lia|] end;
  (eexists; split; [reflexivity|]; exact (collc_yields_nil _ _ _ (fun f s o s' => bind_get _ _ f s o s') (fun _ => False) (fun _ _ => []) (fun _ _ H => False_ind _ H) _)).

Theorem C48_bfs : forall Nd V (gvc : Nd -> V * list Nd) nt, node_tree gvc nt -> forall trees k,
  exists s, after (bfs_each_next gvc) k (coll_new trees) s /\
    (k = 0 -> s = coll_new trees) /\
    (forall S', coll_attach (S:=S') s = Panic <-> 1 <= k <= length (flat_map (fun t => bfs (nt t)) trees)) /\
    (length (flat_map (fun t => bfs (nt t)) trees) < k -> exists s', coll_attach s = Ok s' /\ yields (bfsc_each_next gvc) s' []).
Proof.
  intros Nd V gvc nt H trees k.
  destruct (coll_attach_rule _ _ _ (bfs_yields gvc nt H) (bfs_nonempty gvc nt) trees k) as (s & Hs & Ha).
  exists s; rewrite <- (length_nodes (fun t => bfs (nt t)) (nval gvc)); split; [exact Hs|].
  attach_cases Hs Ha.
Qed.
Print Assumptions C48_bfs.

Theorem C48_bfs_binary : forall Nd V (gvcb : Nd -> V * (option Nd * option Nd)) bt, node_btree gvcb bt -> forall trees k,
  exists s, after (bfs_each_next (binary_gvc gvcb)) k (coll_new trees) s /\
    (k = 0 -> s = coll_new trees) /\
    (forall S', coll_attach (S:=S') s = Panic <-> 1 <= k <= length (flat_map (fun t => bfs (flat (bt t))) trees)) /\
    (length (flat_map (fun t => bfs (flat (bt t))) trees) < k -> exists s', coll_attach s = Ok s' /\ yields (bfscb_each_next gvcb) s' []).
Proof.
  intros Nd V gvcb bt H trees k.
  destruct (coll_attach_rule _ _ _ (bfs_yields _ _ (node_binary gvcb bt H)) (bfs_nonempty (binary_gvc gvcb) (fun n => flat (bt n))) trees k) as (s & Hs & Ha).
  exists s; rewrite <- (length_nodes (fun t => bfs (flat (bt t))) (nval (binary_gvc gvcb))); split; [exact Hs|].
  attach_cases Hs Ha.
Qed.
Print Assumptions C48_bfs_binary.

Theorem C48_preorder : forall Nd V (gvc : Nd -> V * list Nd) nt, node_tree gvc nt -> forall trees k,
  exists s, after (pre_each_next gvc) k (coll_new trees) s /\
    (k = 0 -> s = coll_new trees) /\
    (forall S', coll_attach (S:=S') s = Panic <-> 1 <= k <= length (flat_map (fun t => preorder (nt t)) trees)) /\
    (length (flat_map (fun t => preorder (nt t)) trees) < k -> exists s', coll_attach s = Ok s' /\ yields (prec_each_next gvc) s' []).
Proof.
  intros Nd V gvc nt H trees k.
  destruct (coll_attach_rule _ _ _ (pre_yields gvc nt H) (preorder_nonempty gvc nt) trees k) as (s & Hs & Ha).
  exists s; rewrite <- (length_nodes (fun t => preorder (nt t)) (nval gvc)); split; [exact Hs|].
  attach_cases Hs Ha.
Qed.
Print Assumptions C48_preorder.

Theorem C48_preorder_binary : forall Nd V (gvcb : Nd -> V * (option Nd * option Nd)) bt, node_btree gvcb bt -> forall trees k,
  exists s, after (pre_each_next (binary_gvc gvcb)) k (coll_new trees) s /\
    (k = 0 -> s = coll_new trees) /\
    (forall S', coll_attach (S:=S') s = Panic <-> 1 <= k <= length (flat_map (fun t => preorder (flat (bt t))) trees)) /\
    (length (flat_map (fun t => preorder (flat (bt t))) trees) < k -> exists s', coll_attach s = Ok s' /\ yields (precb_each_next gvcb) s' []).
Proof.
  intros Nd V gvcb bt H trees k.
  destruct (coll_attach_rule _ _ _ (pre_yields _ _ (node_binary gvcb bt H)) (preorder_nonempty (binary_gvc gvcb) (fun n => flat (bt n))) trees k) as (s & Hs & Ha).
  exists s; rewrite <- (length_nodes (fun t => preorder (flat (bt t))) (nval (binary_gvc gvcb))); split; [exact Hs|].
  attach_cases Hs Ha.
Qed.
Print Assumptions C48_preorder_binary.

Theorem C48_postorder : forall Nd V (gvc : Nd -> V * list Nd) nt, node_tree gvc nt -> forall trees k,
  exists s, after (post_each_next gvc) k (coll_new trees) s /\
    (k = 0 -> s = coll_new trees) /\
    (forall S', coll_attach (S:=S') s = Panic <-> 1 <= k <= length (flat_map (fun t => postorder (nt t)) trees)) /\
    (length (flat_map (fun t => postorder (nt t)) trees) < k -> exists s', coll_attach s = Ok s' /\ yields (postc_each_next gvc) s' []) /\
    (length (flat_map (fun t => postorder (nt t)) trees) < k -> exists s', coll_attach s = Ok s' /\ yields (postco_each_next gvc) s' []).
Proof.
  intros Nd V gvc nt H trees k.
  destruct (coll_attach_rule _ _ _ (post_yields gvc nt H) (postorder_nonempty gvc nt) trees k) as (s & Hs & Ha).
  exists s; rewrite <- (length_nodes (fun t => postorder (nt t)) (nval gvc)); split; [exact Hs|].
  attach_cases Hs Ha.
Qed.
Print Assumptions C48_postorder.

Theorem C48_postorder_binary : forall Nd V (gvcb : Nd -> V * (option Nd * option Nd)) bt, node_btree gvcb bt -> forall trees k,
  exists s, after (post_each_next (binary_gvc gvcb)) k (coll_new trees) s /\
    (k = 0 -> s = coll_new trees) /\
    (forall S', coll_attach (S:=S') s = Panic <-> 1 <= k <= length (flat_map (fun t => postorder (flat (bt t))) trees)) /\
    (length (flat_map (fun t => postorder (flat (bt t))) trees) < k -> exists s', coll_attach s = Ok s' /\ yields (postcb_each_next gvcb) s' []) /\
    (length (flat_map (fun t => postorder (flat (bt t))) trees) < k -> exists s', coll_attach s = Ok s' /\ yields (postcob_each_next gvcb) s' []).
Proof.
  intros Nd V gvcb bt H trees k.
  destruct (coll_attach_rule _ _ _ (post_yields _ _ (node_binary gvcb bt H)) (postorder_nonempty (binary_gvc gvcb) (fun n => flat (bt n))) trees k) as (s & Hs & Ha).
  exists s; rewrite <- (length_nodes (fun t => postorder (flat (bt t))) (nval (binary_gvc gvcb))); split; [exact Hs|].
  attach_cases Hs Ha.
Qed.
Print Assumptions C48_postorder_binary.

Theorem C48_inorder : forall Nd V (gvcb : Nd -> V * (option Nd * option Nd)) bt, node_btree gvcb bt -> forall trees k,
  exists s, after (in_each_next gvcb) k (coll_new trees) s /\
    (k = 0 -> s = coll_new trees) /\
    (forall S', coll_attach (S:=S') s = Panic <-> 1 <= k <= length (flat_map (fun t => inorder (bt t)) trees)) /\
    (length (flat_map (fun t => inorder (bt t)) trees) < k -> exists s', coll_attach s = Ok s' /\ yields (inc_each_next gvcb) s' []) /\
    (length (flat_map (fun t => inorder (bt t)) trees) < k -> exists s', coll_attach s = Ok s' /\ yields (inco_each_next gvcb) s' []).
Proof.
  intros Nd V gvcb bt H trees k.
  destruct (coll_attach_rule _ _ _ (in_yields gvcb bt H) (inorder_nonempty gvcb bt) trees k) as (s & Hs & Ha).
  exists s; rewrite <- (length_nodes (fun t => inorder (bt t)) (nval gvcb)); split; [exact Hs|].
  attach_cases Hs Ha.
Qed.
Print Assumptions C48_inorder.

(** The documentation says that [attach_context] must be called before the first [next()]; the wording "panics if
    [next()] has been called" would be wrong: after [ex_trees] is exhausted there is no panic. *)
Theorem C48_panics_once_started_refuted : ~ (forall (trees : list (tree nat)) k s,
  1 <= k -> after (pre_each_next tree_gvc) k (coll_new trees) s ->
  coll_attach (S:=prec (tree nat) nat (tree nat) (list (tree nat))) s = Panic).
Proof.
  intros H; destruct (C48_preorder _ _ _ _ (@node_tree_tree nat) ex_trees 12) as (s & Hs & _ & Hp & _).
  specialize (H ex_trees 12 s ltac:(lia) Hs); apply Hp in H; cbn in H; lia.
Qed.
Print Assumptions C48_panics_once_started_refuted.
Example C48_ex_sizes : length (flat_map (fun t => preorder (subtrees t)) ex_trees) = 11.
Proof. reflexivity. Qed.

(** ** C27 for collections: the path of a context leads back to its node through the collection's [at_path] *)
Definition a_context_each {Nd V} (gvc : Nd -> V * list Nd) (trees : list Nd) (c : tree_context V (list Nd)) : Prop :=
  (exists s, coll_attach (coll_new trees : coll Nd (bfs_iter Nd)) = Ok s /\ gives (bfsc_each_next gvc) s c) \/
  (exists s, coll_attach (coll_new trees : coll Nd (pre_iter Nd)) = Ok s /\ gives (prec_each_next gvc) s c) \/
  (exists s, coll_attach (coll_new trees : coll Nd (post_iter Nd V)) = Ok s /\ gives (postc_each_next gvc) s c).
Definition a_context_each_binary {Nd V} (gvcb : Nd -> V * (option Nd * option Nd)) (trees : list Nd)
    (c : tree_context V (option Nd * option Nd)) : Prop :=
  (exists s, coll_attach (coll_new trees : coll Nd (bfs_iter Nd)) = Ok s /\ gives (bfscb_each_next gvcb) s c) \/
  (exists s, coll_attach (coll_new trees : coll Nd (pre_iter Nd)) = Ok s /\ gives (precb_each_next gvcb) s c) \/
  (exists s, coll_attach (coll_new trees : coll Nd (post_iter Nd V)) = Ok s /\ gives (postcb_each_next gvcb) s c) \/
  (exists s, coll_attach (coll_new trees : coll Nd (in_iter Nd V)) = Ok s /\ gives (inc_each_next gvcb) s c).

Theorem C27_collection : forall Nd V (gvc : Nd -> V * list Nd) nt, node_tree gvc nt ->
  forall trees, small_collection trees -> Forall (fun t => small_nodes gvc (nt t)) trees ->
  forall c, a_context_each gvc trees c ->
  exists m, coll_at_path gvc trees (c_path c) = Some m /\ last_opt (c_ancestors c) = Some (nval gvc m) /\
    ctx_children c = Ok (nkids gvc m).
Proof.
  intros Nd V gvc nt H trees Hc Hs c Ha.
  assert (Hq : exists i t q, nth_error trees i = Some t /\ In q (preorder (positions (nt t))) /\ c = context_at gvc (in_tree i q)).
  { destruct Ha as [(s & E & Hg)|[(s & E & Hg)|(s & E & Hg)]].
    - destruct (C24_bfs_context _ _ _ _ H trees Hc Hs) as (s' & E' & Hy); rewrite E in E'; injection E' as <-.
      pose proof (yields_gives _ _ _ _ Hy Hg) as Hin; apply in_each in Hin as (i & t & q & Hi & Hq & ->).
      exists i, t, q; repeat split; [exact Hi|eapply Permutation_in; [apply bfs_perm|exact Hq]].
    - destruct (C24_preorder_context _ _ _ _ H trees Hc Hs) as (s' & E' & Hy); rewrite E in E'; injection E' as <-.
      pose proof (yields_gives _ _ _ _ Hy Hg) as Hin; apply in_each in Hin as (i & t & q & Hi & Hq & ->).
      exists i, t, q; auto.
    - destruct (C24_postorder_context _ _ _ _ H trees Hc Hs) as (s' & E' & Hy); rewrite E in E'; injection E' as <-.
      pose proof (yields_gives _ _ _ _ Hy Hg) as Hin; apply in_each in Hin as (i & t & q & Hi & Hq & ->).
      exists i, t, q; repeat split; [exact Hi|eapply Permutation_in; [apply postorder_perm|exact Hq]]. }
  destruct Hq as (i & t & q & Hi & Hq & ->).
  destruct (context_met gvc nt H t q Hq) as (Hm & m & Ha' & Hk); destruct (met_last _ _ _ _ Hm) as (m' & Ha'' & Hl).
  rewrite Ha' in Ha''; injection Ha'' as <-; exists m.
  split; [|split; [exact Hl|unfold ctx_children; cbn in Hk |- *; injection Hk as ->; reflexivity]].
  cbn; rewrite iter_nth_spec, Nat2N.id, Hi; exact Ha'.
Qed.
Print Assumptions C27_collection.

Theorem C27_collection_binary : forall Nd V (gvcb : Nd -> V * (option Nd * option Nd)) bt, node_btree gvcb bt ->
  forall trees, small_collection trees -> forall c, a_context_each_binary gvcb trees c ->
  exists m, coll_at_path_binary gvcb trees (c_path c) = Some m /\ last_opt (c_ancestors c) = Some (nval gvcb m) /\
    ctx_children c = Ok (nkids gvcb m).
Proof.
  intros Nd V gvcb bt H trees Hc c Ha.
  assert (Hq : exists i t q, nth_error trees i = Some t /\ In q (preorder (flat (bpositions (bt t)))) /\ c = context_at gvcb (in_tree i q)).
  { destruct Ha as [(s & E & Hg)|[(s & E & Hg)|[(s & E & Hg)|(s & E & Hg)]]].
    - destruct (C24_bfs_context_binary _ _ _ _ H trees Hc) as (s' & E' & Hy); rewrite E in E'; injection E' as <-.
      pose proof (yields_gives _ _ _ _ Hy Hg) as Hin; apply in_each in Hin as (i & t & q & Hi & Hq & ->).
      exists i, t, q; repeat split; [exact Hi|eapply Permutation_in; [apply bfs_perm|exact Hq]].
    - destruct (C24_preorder_context_binary _ _ _ _ H trees Hc) as (s' & E' & Hy); rewrite E in E'; injection E' as <-.
      pose proof (yields_gives _ _ _ _ Hy Hg) as Hin; apply in_each in Hin as (i & t & q & Hi & Hq & ->).
      exists i, t, q; auto.
    - destruct (C24_postorder_context_binary _ _ _ _ H trees Hc) as (s' & E' & Hy); rewrite E in E'; injection E' as <-.
      pose proof (yields_gives _ _ _ _ Hy Hg) as Hin; apply in_each in Hin as (i & t & q & Hi & Hq & ->).
      exists i, t, q; repeat split; [exact Hi|eapply Permutation_in; [apply postorder_perm|exact Hq]].
    - destruct (C24_inorder_context _ _ _ _ H trees Hc) as (s' & E' & Hy); rewrite E in E'; injection E' as <-.
      pose proof (yields_gives _ _ _ _ Hy Hg) as Hin; apply in_each in Hin as (i & t & q & Hi & Hq & ->).
      exists i, t, q; repeat split; [exact Hi|eapply Permutation_in; [apply inorder_perm|exact Hq]]. }
  destruct Hq as (i & t & q & Hi & Hq & ->).
  destruct (bcontext_met gvcb bt H t q Hq) as (Hm & m & Ha' & Hk); destruct (met_last _ _ _ _ Hm) as (m' & Ha'' & Hl).
  rewrite Ha' in Ha''; injection Ha'' as <-; exists m.
  split; [|split; [exact Hl|unfold ctx_children; cbn in Hk |- *; injection Hk as ->; reflexivity]].
  cbn; rewrite iter_nth_spec, Nat2N.id, Hi; exact Ha'.
Qed.
Print Assumptions C27_collection_binary.

(** The hypothesis [a_context_each] is met: the context of node 7 of tree number 1. *)
Example C27_collection_met : exists c, a_context_each tree_gvc ex_trees c /\ c_path c = [1; 0; 1; 0]%N.
Proof.
  destruct (C24_bfs_context _ _ _ _ (@node_tree_tree nat) ex_trees (proj1 C24_hyps) (proj2 C24_hyps)) as (s & E & Hy).
  eexists; split; [left; exists s; split; [exact E|]|].
  - eapply gives_yields; [exact Hy|]; cbn; do 8 right; left; reflexivity.
  - reflexivity.
Qed.
