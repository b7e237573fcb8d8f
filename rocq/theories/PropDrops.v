(** * Property C50: what the owned breadth-first context iterators do with the values they took out of the tree.

    The claim a user relies on: a value is dropped at most once, and not lost.  It is true of complete traversals.  An
    iterator that is dropped before it returned [None] leaks values: each value it took was dropped or leaked, once. *)
From Coq Require Import Permutation.
From Verif Require Import Prelim PrelimFacts Spec SpecFacts SpecObs ModelNode ModelBfs ModelOwn ModelDrops NodeFacts Slots ProofsPlain ProofsPre ProofsBfs ProofsDropsIter PropTraversal.

(** [k] calls of [next()], then a drop of the iterator, n-ary and binary: the contexts, and what became of the values. *)
Definition bfs_use {Nd V} (gvc : Nd -> V * list Nd) (k : nat) (n : Nd) : nat -> Res (list (option (tree_context V (list Nd))) * dlog V) :=
  use_and_drop (dbfs_next gvc (fun c => c) fetch_nary) dbfs_drop k (dbfs_new gvc n []).
Definition bfs_binary_use {Nd V} (gvcb : Nd -> V * (option Nd * option Nd)) (k : nat) (n : Nd)
  : nat -> Res (list (option (tree_context V (option Nd * option Nd))) * dlog V) :=
  use_and_drop (dbfs_next gvcb pair_iter (bfsc_skip (Nd:=Nd))) dbfs_drop k (dbfs_new gvcb n []).

(** The values of nodes. *)
Definition values_at {Nd V C} (gv : Nd -> V * C) (l : list (pos Nd)) : list V := map (fun p => nval gv (pos_here p)) l.

(** ** No value is dropped twice: the values taken out of the tree (the root's from the start) are dropped or leaked, each once. *)
Theorem C50_each_value_once : forall Nd V (gvc : Nd -> V * list Nd) nt, node_tree gvc nt ->
  forall n, small_nodes gvc (nt n) ->
  forall k, exists g,
    bfs_use gvc k n ⇓ Ok (map (nth_error (map (context_at gvc) (bfs (positions (nt n))))) (seq 0 k), g) /\
    Permutation (dropped g ++ leaked g) (values_at gvc (firstn (max 1 k) (bfs (positions (nt n))))).
Proof. intros Nd V gvc nt H n Hs k; destruct (drops_nary gvc nt [] n k H Hs) as (g & H1 & H2 & _); eauto. Qed.
Print Assumptions C50_each_value_once.

Theorem C50_each_value_once_binary : forall Nd V (gvcb : Nd -> V * (option Nd * option Nd)) bt, node_btree gvcb bt ->
  forall n k, exists g,
    bfs_binary_use gvcb k n ⇓ Ok (map (nth_error (map (context_at gvcb) (bfs (flat (bpositions (bt n)))))) (seq 0 k), g) /\
    Permutation (dropped g ++ leaked g) (values_at gvcb (firstn (max 1 k) (bfs (flat (bpositions (bt n)))))).
Proof.
  intros Nd V gvcb bt H n k.
  destruct (drops_run gvcb pair_iter _ _ [] n (slot_law_binary gvcb bt H) (small_law_binary gvcb) I k) as (g & H1 & H2 & _); eauto.
Qed.
Print Assumptions C50_each_value_once_binary.

(** ** A traversal that reached [None] drops every value of the tree, once, and leaks nothing. *)
Theorem C50_complete_traversal : forall Nd V (gvc : Nd -> V * list Nd) nt, node_tree gvc nt ->
  forall n, small_nodes gvc (nt n) ->
  forall k, length (bfs (positions (nt n))) < k ->
  exists os g, bfs_use gvc k n ⇓ Ok (os, g) /\ leaked g = [] /\
    Permutation (dropped g) (values_at gvc (bfs (positions (nt n)))).
Proof.
  intros Nd V gvc nt H n Hs k Hk; destruct (drops_nary gvc nt [] n k H Hs) as (g & H1 & H2 & H3 & _).
  specialize (H3 Hk); rewrite H3, app_nil_r, firstn_all2 in H2 by (change (annotate [] [] (nt n)) with (positions (nt n)); lia); eauto.
Qed.
Print Assumptions C50_complete_traversal.

Theorem C50_complete_traversal_binary : forall Nd V (gvcb : Nd -> V * (option Nd * option Nd)) bt, node_btree gvcb bt ->
  forall n k, length (bfs (flat (bpositions (bt n)))) < k ->
  exists os g, bfs_binary_use gvcb k n ⇓ Ok (os, g) /\ leaked g = [] /\
    Permutation (dropped g) (values_at gvcb (bfs (flat (bpositions (bt n))))).
Proof.
  intros Nd V gvcb bt H n k Hk.
  destruct (drops_run gvcb pair_iter _ _ [] n (slot_law_binary gvcb bt H) (small_law_binary gvcb) I k) as (g & H1 & H2 & H3 & _).
  specialize (H3 Hk); rewrite H3, app_nil_r, firstn_all2 in H2 by (change (bannotate [] [] (bt n)) with (bpositions (bt n)); lia); eauto.
Qed.
Print Assumptions C50_complete_traversal_binary.

(** ** An iterator dropped just after it yielded the [i]-th child of a node leaks the values of the children before it. *)
Theorem C50_early_drop_leaks_siblings : forall Nd V (gvc : Nd -> V * list Nd) nt, node_tree gvc nt ->
  forall n, small_nodes gvc (nt n) ->
  forall k c above parent path i, nth_error (bfs (positions (nt n))) k = Some c ->
    pos_above c = above ++ [parent] -> pos_path c = path ++ [i] ->
  exists os g other, bfs_use gvc (S k) n ⇓ Ok (os, g) /\
    Permutation (leaked g) (map (nval gvc) (firstn i (nkids gvc parent)) ++ other).
Proof.
  intros Nd V gvc nt H n Hs k c above parent path i Hn Ha Hp; destruct (drops_nary gvc nt [] n (S k) H Hs) as (g & H1 & _ & _ & H4).
  destruct (H4 k c above parent path i eq_refl Hn Ha Hp) as (other & Ho); eauto.
Qed.
Print Assumptions C50_early_drop_leaks_siblings.

Theorem C50_early_drop_leaks_left : forall Nd V (gvcb : Nd -> V * (option Nd * option Nd)) bt, node_btree gvcb bt ->
  forall n k c above parent path left, nth_error (bfs (flat (bpositions (bt n)))) k = Some c ->
    pos_above c = above ++ [parent] -> pos_path c = path ++ [1] -> nleft gvcb parent = Some left ->
  exists os g other, bfs_binary_use gvcb (S k) n ⇓ Ok (os, g) /\ Permutation (leaked g) (nval gvcb left :: other).
Proof.
  intros Nd V gvcb bt H n k c above parent path left Hn Ha Hp Hl.
  destruct (drops_run gvcb pair_iter _ _ [] n (slot_law_binary gvcb bt H) (small_law_binary gvcb) I (S k)) as (g & H1 & _ & _ & H4).
  destruct (H4 k c above parent path 1 eq_refl Hn Ha Hp) as (other & Ho).
  rewrite nkids_pair, Hl in Ho; cbn in Ho; eauto 6.
Qed.
Print Assumptions C50_early_drop_leaks_left.

(** So "an iterator dropped early leaks nothing" is false, for every tree whose root has two children. *)
Theorem C50_early_drop_refuted : forall Nd V (gvc : Nd -> V * list Nd) nt, node_tree gvc nt ->
  forall n, small_nodes gvc (nt n) -> 2 <= length (nkids gvc n) ->
  ~ forall k, exists os g, bfs_use gvc k n ⇓ Ok (os, g) /\ leaked g = [].
Proof.
  intros Nd V gvc nt H n Hs Hk Hall; destruct (Hall 3) as (os & g & H1 & Hg).
  destruct (nkids gvc n) as [|x [|y l]] eqn:E; cbn in Hk; try lia.
  destruct (C50_early_drop_leaks_siblings Nd V gvc nt H n Hs 2 (mkPos [1] [n] y) [] n [] 1) as (os' & g' & other & H2 & Hp); auto.
  - pose proof (slot_law_nary gvc nt H) as HT.
    pose proof (pnode gvc (map Some) _ HT) as Hn.
    pose proof (bfs_rem_root _ _ Hn (mkPos [] [] n)) as Hr.
    apply (bfs_rem_step _ _ Hn) in Hr as (l1 & E1 & Hr).
    unfold nkids, pkids, pbelow, pslots in Hr; cbn [snd pos_here pos_path pos_above] in Hr; fold (nkids gvc n) in Hr; rewrite E in Hr.
    cbn [map pk app] in Hr.
    apply (bfs_rem_step _ _ Hn) in Hr as (l2 & E2 & Hr); cbn [app] in Hr.
    apply (bfs_rem_step _ _ Hn) in Hr as (l3 & E3 & _); subst l1 l2.
    unfold ptree in E1; cbn [pos_here pos_path pos_above] in E1; unfold positions; rewrite E1; reflexivity.
  - pose proof (conv_fun _ _ _ H1 H2) as Eg; injection Eg as <- <-; rewrite Hg in Hp.
    rewrite E in Hp; cbn in Hp; apply Permutation_nil in Hp; discriminate.
Qed.
Print Assumptions C50_early_drop_refuted.

(** Concrete runs: a complete traversal, an early drop that leaks, and the root's value when [next()] was never called. *)
Example C50_ex : exists os, bfs_use tree_gvc 9 ex_tree 20 = Ok (os, mkLog [1; 2; 5; 7; 6; 8; 4; 3] []).
Proof. vm_compute; eexists; reflexivity. Qed.
Example C50_ex_early : exists os, bfs_use tree_gvc 4 ex_tree 20 = Ok (os, mkLog [6; 1] [2; 3]).
Proof. vm_compute; eexists; reflexivity. Qed.
Example C50_ex_none : exists os, bfs_use tree_gvc 0 ex_tree 20 = Ok (os, mkLog [1] []).
Proof. vm_compute; eexists; reflexivity. Qed.
Example C50_ex_binary : exists os, bfs_binary_use btree_gvcb 5 ex_btree 20 = Ok (os, mkLog [5; 3; 1] [2; 4]).
Proof. vm_compute; eexists; reflexivity. Qed.
(** The hypotheses of the theorems on early drops. *)
Example C50_ex_sibling : exists c, nth_error (bfs (positions (subtrees ex_tree))) 3 = Some c /\
  pos_above c = [] ++ [ex_tree] /\ pos_path c = [] ++ [2] /\ 2 <= length (nkids tree_gvc ex_tree).
Proof. vm_compute; eexists; repeat split; auto. Qed.
