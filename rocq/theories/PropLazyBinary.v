(** * C51, C52, C57 and C59 for binary trees that are made while they are traversed

    The iterators that binary nodes inherit ([BinaryChildren], prelude.rs 157-160) ask the children iterator [both] of a node, the two children that are there, one by one ([front]).
    Here their results are stated on the binary tree itself: [bcut d n] is the tree of [n] cut off below depth [d], [bwhole n t] says that [t] is all of it (SpecLazy), and [flat] lists
    the children of a node, the left one first (Spec). *)
From Coq Require Import Permutation.
From Verif Require Import Prelim PrelimFacts Spec SpecFacts SpecObs SpecLazy SpecLazyLeaves SpecStream ModelNode ModelPre ModelPost ModelBfs ModelLazy ModelLazyLeaves ModelLazyLeavesIn ModelStream ModelStreamLazy.
From Verif Require Import ProofsStream PropLazy PropLazyLeaves PropStream.

Section Binary.
  Context {Nd V : Type}.
  Variable gvcb : Nd -> V * (option Nd * option Nd).
  Local Notation bcut := (bcut gvcb).
  Local Notation above d := (fun p => length (pos_path p) < d).
  Local Notation is_leaf n := (match snd (gvcb n) with (None, None) => true | _ => false end).
  Local Notation leaf p := (is_leaf (pos_here p)).
  Local Notation answers k l := (map (nth_error l) (seq 0 k)).

  Lemma two_items b c : first_items front (S (S b)) (both (Nd := Nd) c) = both c.
  Proof. destruct c as [[l|] [r|]]; cbn; destruct b; reflexivity. Qed.
  Lemma cut_two b : forall d n, cut gvcb both front d (S (S b)) n = flat (bcut d n).
  Proof.
    induction d as [|d IH]; intros n; [reflexivity|]; cbn [cut SpecLazy.bcut flat]; rewrite two_items; unfold both, pair_iter.
    destruct (snd (gvcb n)) as [[l|] [r|]]; cbn; rewrite ?IH; reflexivity.
  Qed.
  Lemma uncut_two d l : Forall (above d) l -> Forall (uncut gvcb both front d 3) l.
  Proof.
    apply Forall_impl; intros p H; split; [exact H|]; rewrite two_items; unfold both, pair_iter; destruct (snd (gvcb (pos_here p))) as [[x|] [y|]]; cbn; lia.
  Qed.
  Lemma whole_two : forall t n, bwhole gvcb n t -> whole gvcb both front n (flat t).
  Proof.
    induction t as [v l r IHl IHr] using btree_ind'; intros n H; inversion H as [? ? ? H1 H2]; subst; constructor; unfold both, pair_iter.
    destruct (snd (gvcb v)) as [a b]; cbn [fst snd] in *.
    inversion H1; subst; inversion H2; subst; cbn; repeat (eapply wholes_more; [reflexivity|auto|]); eapply wholes_end; reflexivity.
  Qed.
  Lemma childless_two n : childless gvcb both front n = is_leaf n.
  Proof. unfold childless, both, front, pair_iter; destruct (snd (gvcb n)) as [[l|] [r|]]; reflexivity. Qed.
  Lemma childless_filter {A} (f : A -> Nd) l : filter (fun a => childless gvcb both front (f a)) l = filter (fun a => is_leaf (f a)) l.
  Proof. apply filter_ext; intros a; apply childless_two. Qed.

  (** C51.  [k] calls of [next()], without context: preorder and breadth first, with ancestors and without. *)
  Theorem C51_binary_inherited : forall (n : Nd) (k d : nat), k <= d -> let t := flat (bcut d n) in
    (exists s, calls (lpre_next gvcb both front) k (lpre_new n) ⇓ Ok (answers k (map (nval gvcb) (preorder t)), s)) /\
    (exists s, calls (lprea_next gvcb both front) k (lprea_new n) ⇓ Ok (answers k (map (ancestors_at gvcb) (preorder (positions t))), s)) /\
    (exists s, calls (lbfs_next gvcb both front) k (lbfs_new n) ⇓ Ok (answers k (map (nval gvcb) (bfs t)), s)) /\
    (k <= S (length (bfs t)) ->
     exists s, calls (lbfsa_next gvcb both front) k (lbfsa_new gvcb both n) ⇓ Ok (answers k (map (ancestors_at gvcb) (bfs (positions t))), s)).
  Proof.
    intros n k d Hk t; unfold t; rewrite <- (cut_two k).
    destruct (C51_preorder gvcb both front n k d (S (S k)) Hk ltac:(lia)) as (H1 & H2 & _).
    destruct (C51_bfs gvcb both front n k d (S (S k)) Hk ltac:(lia)) as (H3 & H4 & _); auto.
  Qed.

  (** C51.  Postorder: the first [k] positions must lie above the depth of the cut. *)
  Theorem C51_binary_inherited_postorder : forall (n : Nd) (k d : nat), let t := flat (bcut d n) in Forall (above d) (firstn k (postorder (positions t))) ->
    (exists s, calls (lpost_next gvcb both front) k (lpost_new n) ⇓ Ok (answers k (map (nval gvcb) (postorder t)), s)) /\
    (exists s, calls (lposta_next gvcb both front) k (lpost_new n) ⇓ Ok (answers k (map (ancestors_at gvcb) (postorder (positions t))), s)).
  Proof.
    intros n k d t Hc; apply uncut_two in Hc; unfold t in *; rewrite <- (cut_two 1) in *.
    destruct (C51_postorder gvcb both front n k d 3 Hc) as (H1 & H2 & _); auto.
  Qed.

  (** C52.  Where [get_value_and_children] has been called after [k] calls of [next()]. *)
  Theorem C52_binary_inherited : forall (n : Nd) (k d : nat), k <= d -> let t := flat (bcut d n) in
    (forall s, after (lpre_next gvcb both front) k (lpre_new n) s -> rev (lp_log s) = firstn k (preorder t)) /\
    (forall s, after (lprea_next gvcb both front) k (lprea_new n) s -> rev (lpa_log s) = firstn k (preorder t)) /\
    (forall s, after (lbfs_next gvcb both front) k (lbfs_new n) s -> rev (lb_log s) = firstn k (bfs t)) /\
    (k <= S (length (bfs t)) -> forall s, after (lbfsa_next gvcb both front) k (lbfsa_new gvcb both n) s -> rev (lba_log s) = firstn (Nat.max 1 k) (bfs t)).
  Proof.
    intros n k d Hk t; unfold t; rewrite <- (cut_two k).
    destruct (C52_preorder gvcb both front n k d (S (S k)) Hk ltac:(lia)) as (H1 & H2 & _).
    destruct (C52_bfs gvcb both front n k d (S (S k)) Hk ltac:(lia)) as (H3 & H4 & _); auto.
  Qed.
  Theorem C52_binary_inherited_postorder : forall (n : Nd) (k d : nat), let P := postorder (positions (flat (bcut d n))) in Forall (above d) (firstn k P) ->
    (forall s, after (lpost_next gvcb both front) k (lpost_new n) s -> Permutation (lt_log s) (entered k P)) /\
    (forall s, after (lposta_next gvcb both front) k (lpost_new n) s -> Permutation (lt_log s) (entered k P)).
  Proof.
    intros n k d P Hc; apply uncut_two in Hc; unfold P in *; rewrite <- (cut_two 1) in *.
    destruct (C52_postorder_cut gvcb both front n k d 3 Hc) as (H1 & H2 & _); auto.
  Qed.

  (** C57.  The inherited iterators over a collection, endless or not, of binary trees, endless or not. *)
  Theorem C57_endless_binary_trees : forall Src (poll : Src -> option Nd * Src) c k,
    goes_over poll (fun _ t => map (nval gvcb) (bfs (flat (bcut k t)))) (lbfs_stream_next poll gvcb both front) sc_asked c (scoll_new c) k /\
    goes_over poll (fun _ t => map (nval gvcb) (preorder (flat (bcut k t)))) (lpre_stream_next poll gvcb both front) sc_asked c (scoll_new c) k.
  Proof.
    intros Src poll c k; split.
    - apply (scoll_all poll _ _ (fun t => map (nval gvcb) (bfs (flat (bcut k t))))), Forall_forall; intros [t|] _; [|exact I].
      split; [apply stream_bfs_ne|]; intros i Hi; apply (C51_binary_inherited t i k Hi).
    - apply (scoll_all poll _ _ (fun t => map (nval gvcb) (preorder (flat (bcut k t))))), Forall_forall; intros [t|] _; [|exact I].
      split; [apply stream_pre_ne|]; intros i Hi; apply (C51_binary_inherited t i k Hi).
  Qed.

  (** C59.  [leaves()] of fresh preorder and postorder iterators: the leaves from left to right. *)
  Theorem C59_binary_depth_first : forall (n : Nd) (k j d : nat), let t := flat (bcut d n) in Forall (above d) (firstn j (postorder (positions t))) ->
    k <= length (filter (fun p => leaf p) (firstn j (postorder (positions t)))) ->
    let leaves := filter (fun p => leaf p) (preorder (positions t)) in
    (exists s, calls (ldl_next gvcb both front) k (lpre_leaves (lpre_new n)) ⇓ Ok (answers k (map (fun p => nval gvcb (pos_here p)) leaves), s)) /\
    (exists s, calls (ldl_next gvcb both front) k (lpost_leaves (lpost_new n)) ⇓ Ok (answers k (map (fun p => nval gvcb (pos_here p)) leaves), s)) /\
    (exists s, calls (ldal_next gvcb both front) k (lprea_leaves (lprea_new n)) ⇓ Ok (answers k (map (ancestors_at gvcb) leaves), s)) /\
    (exists s, calls (ldal_next gvcb both front) k (lposta_leaves (lpost_new n)) ⇓ Ok (answers k (map (ancestors_at gvcb) leaves), s)).
  Proof.
    intros n k j d t Hc Hk leaves; apply uncut_two in Hc; rewrite <- (childless_filter pos_here) in Hk; unfold leaves; rewrite <- (childless_filter pos_here).
    unfold t in *; rewrite <- (cut_two 1) in *; exact (C59_depth_first gvcb both front n k j d 3 Hc Hk).
  Qed.

  (** C59.  A finite tree: all leaves from left to right, then [None] for ever; breadth first also after [i] calls of [next()]. *)
  Theorem C59_binary_whole : forall (n : Nd) (b : btree Nd), bwhole gvcb n b -> let t := flat b in
    let leaves := filter (fun p => leaf p) (preorder (positions t)) in
    yields (ldl_next gvcb both front) (lpre_leaves (lpre_new n)) (map (fun p => nval gvcb (pos_here p)) leaves) /\
    yields (ldl_next gvcb both front) (lpost_leaves (lpost_new n)) (map (fun p => nval gvcb (pos_here p)) leaves) /\
    yields (ldal_next gvcb both front) (lprea_leaves (lprea_new n)) (map (ancestors_at gvcb) leaves) /\
    yields (ldal_next gvcb both front) (lposta_leaves (lpost_new n)) (map (ancestors_at gvcb) leaves) /\
    (forall i s, i <= length (bfs t) -> after (lbfs_next gvcb both front) i (lbfs_new n) s ->
     yields (lbl_next gvcb both front) (lbfs_leaves s) (map (nval gvcb) (filter (fun m => is_leaf m) (skipn i (bfs t))))).
  Proof.
    intros n b Hw t leaves; unfold leaves; rewrite <- (childless_filter pos_here).
    destruct (C59_whole gvcb both front n t (whole_two b n Hw)) as (H1 & H2 & H3 & H4 & H5 & _).
    split; [exact H1|split; [exact H2|split; [exact H3|split; [exact H4|]]]].
    intros i s Hi Ha; rewrite <- (childless_filter (fun m => m)); exact (H5 i s Hi Ha).
  Qed.
End Binary.
Print Assumptions C51_binary_inherited.
Print Assumptions C51_binary_inherited_postorder.
Print Assumptions C52_binary_inherited.
Print Assumptions C52_binary_inherited_postorder.
Print Assumptions C57_endless_binary_trees.
Print Assumptions C59_binary_depth_first.
Print Assumptions C59_binary_whole.

(** ** Examples *)
(** Even nodes have the left child [n + 1], which is a leaf, and the right child [n + 2]: the tree never ends to the right. *)
Definition ex_lb (n : nat) : nat * (option nat * option nat) := (10 * n, if Nat.even n then (Some (n + 1), Some (n + 2)) else (None, None)).
Example C51_binary_inherited_ex : exists s, calls (lpre_next ex_lb both front) 5 (lpre_new 0) ⇓ Ok ([Some 0; Some 10; Some 20; Some 30; Some 40], s).
Proof. exact (proj1 (C51_binary_inherited ex_lb 0 5 5 (le_n 5))). Qed.
Example C51_binary_inherited_bfs_ex : exists s, calls (lbfs_next ex_lb both front) 5 (lbfs_new 0) ⇓ Ok ([Some 0; Some 10; Some 20; Some 30; Some 40], s).
Proof. exact (proj1 (proj2 (proj2 (C51_binary_inherited ex_lb 0 5 5 (le_n 5))))). Qed.
Example C52_binary_inherited_ex : forall s, after (lbfs_next ex_lb both front) 3 (lbfs_new 0) s -> rev (lb_log s) = [0; 1; 2].
Proof. exact (proj1 (proj2 (proj2 (C52_binary_inherited ex_lb 0 3 3 (le_n 3))))). Qed.
(** In postorder the first two nodes are the leaves 1 and 3; the nodes on the way, 0 and 2, have been entered. *)
Example C51_binary_inherited_postorder_ex : (exists s, calls (lpost_next ex_lb both front) 2 (lpost_new 0) ⇓ Ok ([Some 10; Some 30], s)) /\
  forall s, after (lpost_next ex_lb both front) 2 (lpost_new 0) s -> Permutation (lt_log s) [1; 3; 0; 2].
Proof.
  assert (H : Forall (fun p : pos nat => length (pos_path p) < 4) (firstn 2 (postorder (positions (flat (bcut ex_lb 4 0)))))) by (repeat constructor).
  split; [exact (proj1 (C51_binary_inherited_postorder ex_lb 0 2 4 H))|exact (proj1 (C52_binary_inherited_postorder ex_lb 0 2 4 H))].
Qed.
Example C57_endless_binary_trees_ex : exists s, calls (lpre_stream_next (fun n => (Some (if n =? 1 then 3 else 4 * n), S n)) ex_lb both front) 4 (scoll_new 1) 20 = Ok ([Some 30; Some 80; Some 90; Some 100], s) /\ sc_source s = 3.
Proof. vm_compute; eexists; split; reflexivity. Qed.
Example C59_binary_depth_first_ex : exists s, calls (ldl_next ex_lb both front) 2 (lpre_leaves (lpre_new 0)) ⇓ Ok ([Some 10; Some 30], s).
Proof. refine (proj1 (C59_binary_depth_first ex_lb 0 2 2 4 _ _)); [repeat constructor|vm_compute; lia]. Qed.
Definition ex_lbw (n : nat) : nat * (option nat * option nat) := (10 * n, match n with 0 => (None, Some 1) | 1 => (Some 2, Some 3) | _ => (None, None) end).
Example C59_binary_whole_ex : bwhole ex_lbw 0 (BNode 0 None (Some (BNode 1 (Some (BNode 2 None None)) (Some (BNode 3 None None))))) /\
  yields (ldl_next ex_lbw both front) (lpost_leaves (lpost_new 0)) [20; 30].
Proof.
  assert (H : bwhole ex_lbw 0 (BNode 0 None (Some (BNode 1 (Some (BNode 2 None None)) (Some (BNode 3 None None)))))) by (repeat constructor).
  split; [exact H|exact (proj1 (proj2 (C59_binary_whole ex_lbw 0 _ H)))].
Qed.
