(** * C57: collections of trees that are made while they are traversed

    A collection gives its trees through an iterator ([poll]) of which nothing is assumed: it may never end, and may give more trees after it
    gave [None].  [polls poll k c] are the first [k] answers of [c], and [goes_over] says that [k] calls of [next()] give the items of
    the trees of [c], one tree after the other, a [None] for each [None] of [c], and that [c] has been asked only as often as that takes (SpecStream). *)
From Verif Require Import Prelim PrelimFacts Spec SpecFacts SpecObs SpecLazy SpecStream ModelNode ModelBfs ModelPre ModelPost ModelIn ModelColl ModelLazy ModelLazyIn ModelStream.
From Verif Require Import NodeFacts Slots ProofsPlain ProofsPre ProofsPost ProofsIn ProofsTree ProofsBfs ProofsPath ProofsColl ProofsStream PropTraversal PropLazy.

Lemma stream_bfs_ne {A B} (f : A -> B) (t : tree A) : map f (bfs t) <> [].
Proof. eapply perm_nonempty; [apply Permutation.Permutation_map, bfs_perm|destruct t; discriminate]. Qed.
Lemma stream_pre_ne {A B} (f : A -> B) (t : tree A) : map f (preorder t) <> [].
Proof. destruct t; discriminate. Qed.
Lemma stream_post_ne {A B} (f : A -> B) (t : tree A) : map f (postorder t) <> [].
Proof. eapply perm_nonempty; [apply Permutation.Permutation_map, postorder_perm|destruct t; discriminate]. Qed.
Lemma stream_in_ne {A B} (f : A -> B) (t : btree A) : map f (inorder t) <> [].
Proof. eapply perm_nonempty; [apply Permutation.Permutation_map, inorder_perm|destruct t; discriminate]. Qed.

(** ** The iterators without context *)
Theorem C57_bfs : forall Nd V (gvc : Nd -> V * list Nd) nt, node_tree gvc nt -> forall Src (poll : Src -> option Nd * Src) c k,
  goes_over poll (fun _ t => map (nval gvc) (bfs (nt t))) (bfs_stream_next poll gvc) sc_asked c (scoll_new c) k.
Proof.
  intros Nd V gvc nt H Src poll c k; apply (scoll_all_yields poll _ _ (fun t => map (nval gvc) (bfs (nt t)))); intros t _.
  split; [apply stream_bfs_ne|exact (bfs_yields gvc nt H t)].
Qed.
Print Assumptions C57_bfs.

Theorem C57_preorder : forall Nd V (gvc : Nd -> V * list Nd) nt, node_tree gvc nt -> forall Src (poll : Src -> option Nd * Src) c k,
  goes_over poll (fun _ t => map (nval gvc) (preorder (nt t))) (pre_stream_next poll gvc) sc_asked c (scoll_new c) k.
Proof.
  intros Nd V gvc nt H Src poll c k; apply (scoll_all_yields poll _ _ (fun t => map (nval gvc) (preorder (nt t)))); intros t _.
  split; [apply stream_pre_ne|exact (pre_yields gvc nt H t)].
Qed.
Print Assumptions C57_preorder.

Theorem C57_postorder : forall Nd V (gvc : Nd -> V * list Nd) nt, node_tree gvc nt -> forall Src (poll : Src -> option Nd * Src) c k,
  goes_over poll (fun _ t => map (nval gvc) (postorder (nt t))) (post_stream_next poll gvc) sc_asked c (scoll_new c) k.
Proof.
  intros Nd V gvc nt H Src poll c k; apply (scoll_all_yields poll _ _ (fun t => map (nval gvc) (postorder (nt t)))); intros t _.
  split; [apply stream_post_ne|exact (post_yields gvc nt H t)].
Qed.
Print Assumptions C57_postorder.

Theorem C57_inorder : forall Nd V (gvcb : Nd -> V * (option Nd * option Nd)) bt, node_btree gvcb bt -> forall Src (poll : Src -> option Nd * Src) c k,
  goes_over poll (fun _ t => map (nval gvcb) (inorder (bt t))) (in_stream_next poll gvcb) sc_asked c (scoll_new c) k.
Proof.
  intros Nd V gvcb bt H Src poll c k; apply (scoll_all_yields poll _ _ (fun t => map (nval gvcb) (inorder (bt t)))); intros t _.
  split; [apply stream_in_ne|exact (in_yields gvcb bt H t)].
Qed.
Print Assumptions C57_inorder.

Theorem C57_binary : forall Nd V (gvcb : Nd -> V * (option Nd * option Nd)) bt, node_btree gvcb bt -> forall Src (poll : Src -> option Nd * Src) c k,
  goes_over poll (fun _ t => map (nval gvcb) (bfs (flat (bt t)))) (bfs_stream_next poll (binary_gvc gvcb)) sc_asked c (scoll_new c) k /\
  goes_over poll (fun _ t => map (nval gvcb) (preorder (flat (bt t)))) (pre_stream_next poll (binary_gvc gvcb)) sc_asked c (scoll_new c) k /\
  goes_over poll (fun _ t => map (nval gvcb) (postorder (flat (bt t)))) (post_stream_next poll (binary_gvc gvcb)) sc_asked c (scoll_new c) k.
Proof.
  intros Nd V gvcb bt H Src poll c k; repeat split.
  - apply (scoll_all_yields poll _ _ (fun t => map (nval gvcb) (bfs (flat (bt t))))); intros t _; rewrite <- (map_ext _ _ (nval_binary gvcb)).
    split; [apply stream_bfs_ne|exact (bfs_yields _ _ (node_binary gvcb bt H) t)].
  - apply (scoll_all_yields poll _ _ (fun t => map (nval gvcb) (preorder (flat (bt t))))); intros t _; rewrite <- (map_ext _ _ (nval_binary gvcb)).
    split; [apply stream_pre_ne|exact (pre_yields _ _ (node_binary gvcb bt H) t)].
  - apply (scoll_all_yields poll _ _ (fun t => map (nval gvcb) (postorder (flat (bt t))))); intros t _; rewrite <- (map_ext _ _ (nval_binary gvcb)).
    split; [apply stream_post_ne|exact (post_yields _ _ (node_binary gvcb bt H) t)].
Qed.
Print Assumptions C57_binary.

(** ** The iterators with context

    The path of a context starts with the number of the answer by which the collection gave the tree, a [None] counting as an answer. *)
Theorem C57_bfs_context : forall Nd V (gvc : Nd -> V * list Nd) nt, node_tree gvc nt -> forall Src (poll : Src -> option Nd * Src) c k,
  (N.of_nat k <= usize_max)%N -> (forall t, In (Some t) (polls poll k c) -> small_nodes gvc (nt t)) ->
  exists s, scoll_attach (scoll_new c : scoll Src Nd (bfs_iter Nd)) = Ok s /\
    goes_over poll (fun i t => map (fun p => context_at gvc (in_tree i p)) (bfs (positions (nt t)))) (bfsc_stream_next poll gvc) scc_asked c s k.
Proof.
  intros Nd V gvc nt H Src poll c k Hk Hs; eexists; split; [reflexivity|].
  apply (scollc_all_yields poll _ _ _ (fun f s o s' => bind_get _ _ f s o s')); [exact Hk|]; intros i t Ht; split; [apply stream_bfs_ne|].
  unfold bfsc_start; rewrite (gv_eq gvc t).
  rewrite <- (each_nary gvc nt (@bfs)) by apply @bfs_map; exact (bfsc_yields gvc nt [i] t H (Hs t Ht)).
Qed.
Print Assumptions C57_bfs_context.

Theorem C57_preorder_context : forall Nd V (gvc : Nd -> V * list Nd) nt, node_tree gvc nt -> forall Src (poll : Src -> option Nd * Src) c k,
  (N.of_nat k <= usize_max)%N -> (forall t, In (Some t) (polls poll k c) -> small_nodes gvc (nt t)) ->
  exists s, scoll_attach (scoll_new c : scoll Src Nd (pre_iter Nd)) = Ok s /\
    goes_over poll (fun i t => map (fun p => context_at gvc (in_tree i p)) (preorder (positions (nt t)))) (prec_stream_next poll gvc) scc_asked c s k.
Proof.
  intros Nd V gvc nt H Src poll c k Hk Hs; eexists; split; [reflexivity|].
  apply (scollc_all_yields poll _ _ _ (fun f s o s' => bind_get _ _ f s o s')); [exact Hk|]; intros i t Ht; split; [apply stream_pre_ne|].
  rewrite <- (each_nary gvc nt (@preorder)) by apply @preorder_map; exact (prec_yields gvc nt [i] t H (Hs t Ht)).
Qed.
Print Assumptions C57_preorder_context.

Theorem C57_postorder_context : forall Nd V (gvc : Nd -> V * list Nd) nt, node_tree gvc nt -> forall Src (poll : Src -> option Nd * Src) c k,
  (N.of_nat k <= usize_max)%N -> (forall t, In (Some t) (polls poll k c) -> small_nodes gvc (nt t)) ->
  exists s, scoll_attach (scoll_new c : scoll Src Nd (post_iter Nd V)) = Ok s /\
    goes_over poll (fun i t => map (fun p => context_at gvc (in_tree i p)) (postorder (positions (nt t)))) (postc_stream_next poll gvc) scc_asked c s k.
Proof.
  intros Nd V gvc nt H Src poll c k Hk Hs; eexists; split; [reflexivity|].
  apply (scollc_all_yields poll _ _ _ (fun f s o s' => bind_get _ _ f s o s')); [exact Hk|]; intros i t Ht; split; [apply stream_post_ne|].
  rewrite <- (each_nary gvc nt (@postorder)) by apply @postorder_map; exact (postc_yields gvc nt [i] t H (Hs t Ht)).
Qed.
Print Assumptions C57_postorder_context.

Theorem C57_postorder_owned_context : forall Nd V (gvc : Nd -> V * list Nd) nt, node_tree gvc nt -> forall Src (poll : Src -> option Nd * Src) c k,
  (N.of_nat k <= usize_max)%N -> (forall t, In (Some t) (polls poll k c) -> small_nodes gvc (nt t)) ->
  exists s, scoll_attach (scoll_new c : scoll Src Nd (post_iter Nd V)) = Ok s /\
    goes_over poll (fun i t => map (fun p => no_children (context_at gvc (in_tree i p))) (postorder (positions (nt t)))) (postco_stream_next poll gvc) scc_asked c s k.
Proof.
  intros Nd V gvc nt H Src poll c k Hk Hs; eexists; split; [reflexivity|].
  apply (scollc_all_yields poll _ _ _ (fun f s o s' => bind_get _ _ f s o s')); [exact Hk|]; intros i t Ht; split; [apply stream_post_ne|].
  rewrite <- (map_map (fun p => context_at gvc (in_tree i p)) no_children).
  rewrite <- (each_nary gvc nt (@postorder)) by apply @postorder_map; exact (postco_yields gvc nt [i] t H (Hs t Ht)).
Qed.
Print Assumptions C57_postorder_owned_context.

Theorem C57_bfs_context_binary : forall Nd V (gvcb : Nd -> V * (option Nd * option Nd)) bt, node_btree gvcb bt -> forall Src (poll : Src -> option Nd * Src) c k,
  (N.of_nat k <= usize_max)%N ->
  exists s, scoll_attach (scoll_new c : scoll Src Nd (bfs_iter Nd)) = Ok s /\
    goes_over poll (fun i t => map (fun p => context_at gvcb (in_tree i p)) (bfs (flat (bpositions (bt t))))) (bfscb_stream_next poll gvcb) scc_asked c s k.
Proof.
  intros Nd V gvcb bt H Src poll c k Hk; eexists; split; [reflexivity|].
  apply (scollc_all_yields poll _ _ _ (fun f s o s' => bind_get _ _ f s o s')); [exact Hk|]; intros i t Ht; split; [apply stream_bfs_ne|].
  unfold bfsc_start; rewrite (gv_eq gvcb t).
  rewrite <- (each_flat gvcb bt (@bfs)) by apply @bfs_map; exact (bfscb_yields gvcb pair_iter _ _ [i] t (slot_law_binary gvcb bt H) (small_law_binary gvcb) I).
Qed.
Print Assumptions C57_bfs_context_binary.

Theorem C57_preorder_context_binary : forall Nd V (gvcb : Nd -> V * (option Nd * option Nd)) bt, node_btree gvcb bt -> forall Src (poll : Src -> option Nd * Src) c k,
  (N.of_nat k <= usize_max)%N ->
  exists s, scoll_attach (scoll_new c : scoll Src Nd (pre_iter Nd)) = Ok s /\
    goes_over poll (fun i t => map (fun p => context_at gvcb (in_tree i p)) (preorder (flat (bpositions (bt t))))) (precb_stream_next poll gvcb) scc_asked c s k.
Proof.
  intros Nd V gvcb bt H Src poll c k Hk; eexists; split; [reflexivity|].
  apply (scollc_all_yields poll _ _ _ (fun f s o s' => bind_get _ _ f s o s')); [exact Hk|]; intros i t Ht; split; [apply stream_pre_ne|].
  rewrite <- (each_flat gvcb bt (@preorder)) by apply @preorder_map; exact (precb_yields gvcb pair_iter _ _ [i] (slot_law_binary gvcb bt H) (small_law_binary gvcb) t I).
Qed.
Print Assumptions C57_preorder_context_binary.

Theorem C57_postorder_context_binary : forall Nd V (gvcb : Nd -> V * (option Nd * option Nd)) bt, node_btree gvcb bt -> forall Src (poll : Src -> option Nd * Src) c k,
  (N.of_nat k <= usize_max)%N ->
  exists s, scoll_attach (scoll_new c : scoll Src Nd (post_iter Nd V)) = Ok s /\
    goes_over poll (fun i t => map (fun p => context_at gvcb (in_tree i p)) (postorder (flat (bpositions (bt t))))) (postcb_stream_next poll gvcb) scc_asked c s k.
Proof.
  intros Nd V gvcb bt H Src poll c k Hk; eexists; split; [reflexivity|].
  apply (scollc_all_yields poll _ _ _ (fun f s o s' => bind_get _ _ f s o s')); [exact Hk|]; intros i t Ht; split; [apply stream_post_ne|].
  rewrite <- (each_flat gvcb bt (@postorder)) by apply @postorder_map; exact (postcb_yields gvcb pair_iter _ _ [i] (slot_law_binary gvcb bt H) (small_law_binary gvcb) t I).
Qed.
Print Assumptions C57_postorder_context_binary.

Theorem C57_postorder_owned_context_binary : forall Nd V (gvcb : Nd -> V * (option Nd * option Nd)) bt, node_btree gvcb bt -> forall Src (poll : Src -> option Nd * Src) c k,
  (N.of_nat k <= usize_max)%N ->
  exists s, scoll_attach (scoll_new c : scoll Src Nd (post_iter Nd V)) = Ok s /\
    goes_over poll (fun i t => map (fun p => no_children (context_at gvcb (in_tree i p))) (postorder (flat (bpositions (bt t))))) (postcob_stream_next poll gvcb) scc_asked c s k.
Proof.
  intros Nd V gvcb bt H Src poll c k Hk; eexists; split; [reflexivity|].
  apply (scollc_all_yields poll _ _ _ (fun f s o s' => bind_get _ _ f s o s')); [exact Hk|]; intros i t Ht; split; [apply stream_post_ne|].
  rewrite <- (map_map (fun p => context_at gvcb (in_tree i p)) no_children).
  rewrite <- (each_flat gvcb bt (@postorder)) by apply @postorder_map; exact (postcob_yields gvcb pair_iter _ _ [i] t (slot_law_binary gvcb bt H) (small_law_binary gvcb) I).
Qed.
Print Assumptions C57_postorder_owned_context_binary.

Theorem C57_inorder_context : forall Nd V (gvcb : Nd -> V * (option Nd * option Nd)) bt, node_btree gvcb bt -> forall Src (poll : Src -> option Nd * Src) c k,
  (N.of_nat k <= usize_max)%N ->
  exists s, scoll_attach (scoll_new c : scoll Src Nd (in_iter Nd V)) = Ok s /\
    goes_over poll (fun i t => map (fun p => context_at gvcb (in_tree i p)) (inorder (bpositions (bt t)))) (inc_stream_next poll gvcb) scc_asked c s k.
Proof.
  intros Nd V gvcb bt H Src poll c k Hk; eexists; split; [reflexivity|].
  apply (scollc_all_yields poll _ _ _ (fun f s o s' => bind_get _ _ f s o s')); [exact Hk|]; intros i t Ht; split; [apply stream_in_ne|].
  rewrite <- each_in; exact (inc_yields gvcb bt [i] H t).
Qed.
Print Assumptions C57_inorder_context.

Theorem C57_inorder_owned_context : forall Nd V (gvcb : Nd -> V * (option Nd * option Nd)) bt, node_btree gvcb bt -> forall Src (poll : Src -> option Nd * Src) c k,
  (N.of_nat k <= usize_max)%N ->
  exists s, scoll_attach (scoll_new c : scoll Src Nd (in_iter Nd V)) = Ok s /\
    goes_over poll (fun i t => map (fun p => no_children (context_at gvcb (in_tree i p))) (inorder (bpositions (bt t)))) (inco_stream_next poll gvcb) scc_asked c s k.
Proof.
  intros Nd V gvcb bt H Src poll c k Hk; eexists; split; [reflexivity|].
  apply (scollc_all_yields poll _ _ _ (fun f s o s' => bind_get _ _ f s o s')); [exact Hk|]; intros i t Ht; split; [apply stream_in_ne|].
  rewrite <- (map_map (fun p => context_at gvcb (in_tree i p)) no_children).
  rewrite <- each_in; exact (inco_yields gvcb bt [i] t H).
Qed.
Print Assumptions C57_inorder_owned_context.

(** ** [attach_context()] in the middle

    It panics iff the last call of [next()] gave an item.  Otherwise - also when a tree may still come after a [None] - it is what
    it would be on a new iterator of the rest of the collection: the trees are counted from 0 again.  This holds whatever the trees and their iterators are. *)
Theorem C57_attach_late : forall Src T S A (poll : Src -> option T * Src) (new : T -> S) (next : nat -> S -> Res (option A * S)) c k os s,
  calls (scoll_next poll new next) k (scoll_new c) ⇓ Ok (os, s) -> forall S',
  exists j, rev (sc_asked s) = polls poll j c /\
    match last os None with
    | Some _ => scoll_attach (S:=S') s = Panic
    | None => scoll_attach (S:=S') s = scoll_attach (scoll_new (polled poll j c) : scoll Src T S)
    end.
Proof.
  intros Src T S A poll new next c k os s [F HF] S'; specialize (HF F (le_n _)).
  destruct (scoll_calls_books poll new next k F (scoll_new c) os s None HF (conj (fun _ => eq_refl) (fun _ => eq_refl))) as [(l & H1 & H2 & H3) H4]; cbn [sc_source sc_asked scoll_new] in *.
  exists (length l); rewrite app_nil_r in H1; rewrite H1, rev_involutive; split; [exact H2|].
  unfold scoll_attach; rewrite <- H3; cbn [scoll_new sc_cur sc_source].
  destruct (last os None) as [v|], (sc_cur s) as [it|]; try reflexivity; [destruct H4 as [_ H4]; discriminate (H4 eq_refl)|destruct H4 as [H4 _]; discriminate (H4 eq_refl)].
Qed.
Print Assumptions C57_attach_late.

(** ** Endless trees in endless collections

    The trees may have no bottom and no last child either: [k] calls of [next()] give what they would give if every tree were cut off below depth [k] and after [k] children. *)
Theorem C57_endless_trees : forall Nd V C It (gv : Nd -> V * C) (into_iter : C -> It) (pollk : It -> option Nd * It) Src (poll : Src -> option Nd * Src) c k,
  goes_over poll (fun _ t => map (nval gv) (bfs (cut gv into_iter pollk k k t))) (lbfs_stream_next poll gv into_iter pollk) sc_asked c (scoll_new c) k /\
  goes_over poll (fun _ t => map (nval gv) (preorder (cut gv into_iter pollk k k t))) (lpre_stream_next poll gv into_iter pollk) sc_asked c (scoll_new c) k.
Proof.
  intros Nd V C It gv into_iter pollk Src poll c k; split.
  - apply (scoll_all poll _ _ (fun t => map (nval gv) (bfs (cut gv into_iter pollk k k t)))), Forall_forall; intros [t|] _; [|exact I].
    split; [apply stream_bfs_ne|]; intros i Hi; exact (proj1 (C51_bfs gv into_iter pollk t i k k Hi Hi)).
  - apply (scoll_all poll _ _ (fun t => map (nval gv) (preorder (cut gv into_iter pollk k k t)))), Forall_forall; intros [t|] _; [|exact I].
    split; [apply stream_pre_ne|]; intros i Hi; exact (proj1 (C51_preorder gv into_iter pollk t i k k Hi Hi)).
Qed.
Print Assumptions C57_endless_trees.

(** ** Examples *)
(** The collection gives, over and over, a tree with the root [n], then [None]. *)
Definition ex_poll (n : nat) : option (tree nat) * nat :=
  (if Nat.even n then Some (TNode n [TNode (n + 1) []]) else None, S n).
Example C57_ex : exists s, calls (post_stream_next ex_poll tree_gvc) 7 (scoll_new 0) 20 =
  Ok ([Some 1; Some 0; None; Some 3; Some 2; None; Some 5], s) /\ sc_source s = 5.
Proof. vm_compute; eexists; split; reflexivity. Qed.
Example C57_ex_takes : takes ex_poll (fun _ t => map (nval tree_gvc) (postorder (subtrees t))) 0 7 5.
Proof. split; [cbv; lia|intros i Hi; do 5 (destruct i as [|i]; [cbv; lia|]); lia]. Qed.
Example C57_ex_context : exists s l, calls (prec_stream_next ex_poll tree_gvc) 7 (mkScc 0 usize_max None []) 20 = Ok (l, s) /\
  map (option_map c_path) l = map (option_map (map N.of_nat)) [Some [0]; Some [0; 0]; None; Some [2]; Some [2; 0]; None; Some [4]].
Proof. vm_compute; do 2 eexists; split; reflexivity. Qed.
Example C57_hyps : (N.of_nat 7 <= usize_max)%N /\ forall t, In (Some t) (polls ex_poll 7 0) -> small_nodes tree_gvc (subtrees t).
Proof.
  split; [vm_compute; discriminate|]; intros t Ht; repeat (destruct Ht as [Ht|Ht]; [try discriminate; injection Ht as <-; repeat constructor; cbv; discriminate|]); destruct Ht.
Qed.
Example C57_ex_attach_panics : exists s, calls (pre_stream_next ex_poll tree_gvc) 2 (scoll_new 0) 20 = Ok ([Some 0; Some 1], s) /\ scoll_attach (S:=nat) s = Panic.
Proof. vm_compute; eexists; split; reflexivity. Qed.
Example C57_ex_attach_late : exists s, calls (pre_stream_next ex_poll tree_gvc) 3 (scoll_new 0) 20 = Ok ([Some 0; Some 1; None], s) /\
  scoll_attach (S:=nat) s = Ok (mkScc 2 usize_max None []).
Proof. vm_compute; eexists; split; reflexivity. Qed.
(** Every tree of the collection goes down for ever: the node [n] has the one child [S n]. *)
Example C57_ex_endless : exists s, calls (lpre_stream_next (fun n => (Some (10 * n), S n)) (fun n : nat => (n, S n)) (fun n => Some n) (fun o => (o, None))) 3 (scoll_new 1) 20 =
  Ok ([Some 10; Some 11; Some 12], s) /\ sc_source s = 2.
Proof. vm_compute; eexists; split; reflexivity. Qed.
