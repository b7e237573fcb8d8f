(** * C59: [leaves()] of inorder iterators over binary trees that are made while they are traversed

    [bcut d n] is the binary tree of [n] cut off below depth [d], [bwhole n t] says that [t] is all of it, and [entered] is that of C52 (SpecLazy);
    [flat] lists the children of a node, the left one first (Spec). *)
From Coq Require Import Permutation.
From Verif Require Import Prelim PrelimFacts Spec SpecObs SpecLazy SpecLazyLeaves ModelNode ModelPre ModelPost ModelBfs ModelIn ModelLazy ModelLazyIn ModelLazyLeaves ModelLazyLeavesIn.
From Verif Require NodeFacts PropLeaves.
From Verif Require Import SpecFacts ProofsLazyInRun ProofsLazyLeavesIn ProofsLazyLeavesMid PropLazyLeaves.

Section C59In.
  Context {Nd V : Type}.
  Variable gvcb : Nd -> V * (option Nd * option Nd).
  Local Notation bcut := (bcut gvcb).
  Local Notation above d := (fun p => length (pos_path p) < d).
  Local Notation is_leaf n := (match snd (gvcb n) with (None, None) => true | _ => false end).
  Local Notation leaf p := (is_leaf (pos_here p)).
  Local Notation answers k l := (map (nth_error l) (seq 0 k)).

  Lemma leaf_childless n : childless gvcb both front n = is_leaf n.
  Proof. unfold childless, both, front, pair_iter; destruct (snd (gvcb n)) as [[l|] [r|]]; reflexivity. Qed.
  Lemma leaf_filter {A} (f : A -> Nd) l : filter (fun a => childless gvcb both front (f a)) l = filter (fun a => is_leaf (f a)) l.
  Proof. apply filter_ext; intros a; apply leaf_childless. Qed.

  (** A node has fewer than three children. *)
  Lemma flat_bcut : forall d n, cut gvcb both front d 3 n = flat (bcut d n).
  Proof.
    induction d as [|d IH]; intros n; [reflexivity|]; cbn [cut SpecLazy.bcut flat]; unfold both, pair_iter.
    destruct (snd (gvcb n)) as [[l|] [r|]]; cbn; rewrite ?IH; reflexivity.
  Qed.
  Lemma above_uncut d l : Forall (above d) l -> Forall (uncut gvcb both front d 3) l.
  Proof.
    apply Forall_impl; intros p H; split; [exact H|]; unfold both, pair_iter; destruct (snd (gvcb (pos_here p))) as [[x|] [y|]]; cbn; lia.
  Qed.
  Lemma whole_flat : forall t n, bwhole gvcb n t -> whole gvcb both front n (flat t).
  Proof.
    induction t as [v l r IHl IHr] using btree_ind'; intros n H; inversion H as [? ? ? H1 H2]; subst; constructor; unfold both, pair_iter.
    destruct (snd (gvcb v)) as [a b]; cbn [fst snd] in *.
    inversion H1; subst; inversion H2; subst; cbn; repeat (eapply wholes_more; [reflexivity|auto|]); eapply wholes_end; reflexivity.
  Qed.

  (** C59.  [leaves()] of a fresh inorder iterator, with ancestors or without: as soon as the tree is finite where the traversal looks, the first [k] calls of [next()]
      come back and give the first [k] leaves from left to right. *)
  Theorem C59_inorder : forall (n : Nd) (k j d : nat), let t := flat (bcut d n) in Forall (above d) (firstn j (postorder (positions t))) ->
    k <= length (filter (fun p => leaf p) (firstn j (postorder (positions t)))) ->
    let leaves := filter (fun p => leaf p) (preorder (positions t)) in
    (exists s s', lin_leaves (lin_new n) = Ok s /\
       calls (ldl_next gvcb both front) k s ⇓ Ok (answers k (map (fun p => nval gvcb (pos_here p)) leaves), s')) /\
    (exists s', calls (ldal_next gvcb both front) k (lina_leaves (lina_new n)) ⇓ Ok (answers k (map (ancestors_at gvcb) leaves), s')).
  Proof.
    intros n k j d t Hc Hk leaves; apply above_uncut in Hc; rewrite <- (leaf_filter pos_here) in Hk; unfold leaves; rewrite <- (leaf_filter pos_here).
    unfold t in *; rewrite <- flat_bcut in *; destruct (C59_depth_first gvcb both front n k j d 3 Hc Hk) as ((s1 & H1) & _ & (s2 & H2) & _).
    split; [eexists _, s1; split; [reflexivity|exact H1]|exists s2; exact H2].
  Qed.

  (** C59.  A finite tree: all leaves from left to right, then [None] for ever. *)
  Theorem C59_inorder_whole : forall (n : Nd) (t : btree Nd), bwhole gvcb n t ->
    let leaves := filter (fun p => leaf p) (preorder (positions (flat t))) in
    (exists s, lin_leaves (lin_new n) = Ok s /\ yields (ldl_next gvcb both front) s (map (fun p => nval gvcb (pos_here p)) leaves)) /\
    yields (ldal_next gvcb both front) (lina_leaves (lina_new n)) (map (ancestors_at gvcb) leaves).
  Proof.
    intros n t Hw leaves; unfold leaves; rewrite <- (leaf_filter pos_here).
    destruct (C59_whole gvcb both front n (flat t) (whole_flat t n Hw)) as (H1 & _ & H2 & _); split; [eexists; split; [reflexivity|exact H1]|exact H2].
  Qed.

  (** C59.  When the leaf at position [i] in postorder has just been given, [get_value_and_children] has been called once on each node up to it in postorder and once on each of
      its ancestors, and on no other node. *)
  Theorem C59_calls_inorder : forall (n : Nd) (i d : nat) (p : pos Nd), let P := postorder (positions (flat (bcut d n))) in
    Forall (above d) (firstn (S i) P) -> nth_error P i = Some p -> leaf p = true ->
    let k := length (filter (fun p => leaf p) (firstn (S i) P)) in
    (forall s s', lin_leaves (lin_new n) = Ok s -> after (ldl_next gvcb both front) k s s' -> Permutation (ldl_log s') (entered (S i) P)) /\
    (forall s', after (ldal_next gvcb both front) k (lina_leaves (lina_new n)) s' -> Permutation (lda_log s') (entered (S i) P)).
  Proof.
    intros n i d p P Hc Hp Hl k; apply above_uncut in Hc; rewrite <- leaf_childless in Hl; unfold k; rewrite <- (leaf_filter pos_here).
    unfold P in *; rewrite <- flat_bcut in *; destruct (C59_calls_depth_first gvcb both front n i d 3 p Hc Hp Hl) as (H1 & _ & H2 & _).
    split; [intros s s' [= <-]; apply H1|exact H2].
  Qed.

  (** C59.  When it has given its first [None], over a finite tree, [get_value_and_children] has been called exactly once on each node. *)
  Theorem C59_inorder_exactly_once : forall (n : Nd) (t : btree Nd) (k : nat), bwhole gvcb n t -> length (filter (fun m => is_leaf m) (preorder (flat t))) < k ->
    (forall s s', lin_leaves (lin_new n) = Ok s -> after (ldl_next gvcb both front) k s s' -> Permutation (ldl_log s') (preorder (flat t))) /\
    (forall s', after (ldal_next gvcb both front) k (lina_leaves (lina_new n)) s' -> Permutation (lda_log s') (preorder (flat t))).
  Proof.
    intros n t k Hw Hk; rewrite <- (leaf_filter (fun m => m)) in Hk.
    destruct (C59_exactly_once gvcb both front n (flat t) k (whole_flat t n Hw)) as [H _]; destruct (H Hk) as (H1 & _ & H2 & _).
    split; [intros s s' [= <-]; apply H1|exact H2].
  Qed.

  (** C59.  [leaves()] of an inorder iterator that has been advanced over a finite tree: the plain iterator loses the leaves whose parent has been entered (C18); with ancestors
      the slices end in the leaves not passed yet, each once, in some order (C21). *)
  Theorem C59_inorder_mid : forall (n : Nd) (t : btree Nd), bwhole gvcb n t ->
    (forall k s, after (lin_next gvcb) k (lin_new n) s -> let L := inorder (bpositions t) in
     exists s', lin_leaves s = Ok s' /\
       yields (ldl_next gvcb both front) s'
         (map (fun p => nval gvcb (pos_here p)) (filter (fun p => leaf p && negb (parent_entered (firstn k L) p)) (skipn k L)))) /\
    (forall k s, after (lina_next gvcb) k (lina_new n) s ->
     exists K, forall j, K <= j -> exists os s', calls (ldal_next gvcb both front) j (lina_leaves s) ⇓ Ok (os, s') /\
       Permutation (lasts os) (map (nval gvcb) (filter (fun m => is_leaf m) (skipn k (inorder t))))).
  Proof.
    intros n t Hw; split; intros k s Ha.
    - intros L; destruct (mid_in gvcb n t Hw k s Ha) as (s1 & Ha1 & HR).
      destruct (proj2 (proj2 (PropLeaves.C18_leaves_exact_binary _ _ btree_gvcb bsubtrees NodeFacts.node_btree_btree t k)) s1 Ha1) as (s1' & Hl & Hy).
      destruct (Ri_leaves gvcb _ _ _ HR Hl) as (s2' & Hl2 & HR'); exists s2'; split; [exact Hl2|].
      pose proof (yields_Rb gvcb _ _ _ HR' Hy) as Hy2.
      pose proof (in_filter gvcb n t Hw (fun path => negb (existsb (fun q => prefixb (removelast path) (pos_path q)) (firstn k L))) k) as E; cbv beta in E.
      cbv beta zeta in Hy2; unfold parent_entered in Hy2 |- *.
      assert (Hent : forall path, existsb (fun q => prefixb (removelast path) (pos_path q)) (firstn k (inorder (bpositions (bsubtrees t)))) =
        existsb (fun q => prefixb (removelast path) (pos_path q)) (firstn k L)).
      { intros path; unfold L; rewrite <- (ProofsLazyIn.in_lab t), firstn_map; fold (bpositions (bsubtrees t)).
        generalize (firstn k (inorder (bpositions (bsubtrees t)))); intros l; induction l as [|q l IH]; [reflexivity|]; cbn [map existsb]; rewrite IH; reflexivity. }
      rewrite (filter_ext _ (fun p => is_bleaf btree_gvcb (pos_here p) && negb (existsb (fun q => prefixb (removelast (pos_path p)) (pos_path q)) (firstn k L)))) in Hy2
        by (intros p; rewrite Hent; reflexivity).
      rewrite E in Hy2; exact Hy2.
    - destruct (mid_ina gvcb n t Hw k s Ha) as (s1 & Ha1 & HR).
      destruct (PropLeaves.C21_inorder_complete _ _ btree_gvcb bsubtrees NodeFacts.node_btree_btree t k s1 Ha1) as (K & HK); exists K; intros j Hj.
      destruct (HK j Hj) as (os & s1' & Hc & Hp); destruct (calls_Rba gvcb _ _ _ _ _ (Ria_leaves gvcb _ _ HR) Hc) as (s2' & Hc2).
      eexists _, s2'; split; [exact Hc2|]; rewrite lasts_map.
      pose proof (in_filter gvcb n t Hw (fun _ => true) k) as E.
      rewrite (filter_ext _ (fun p => is_bleaf btree_gvcb (pos_here p)) (fun p => andb_true_r _)), (filter_ext _ (fun p => leaf p) (fun p => andb_true_r _)) in E.
      rewrite <- (bannotate_here_inorder t), skipn_map, filter_of_map, map_map, <- E.
      rewrite <- (bannotate_here_inorder (bsubtrees t)), skipn_map, filter_of_map, map_map in Hp.
      apply Permutation_map, Hp.
  Qed.

  (** C59.  When the way down, left where there is a left child and right elsewhere, never ends, the first call of [next()] does not come back. *)
  Theorem C59_inorder_endless : forall path : nat -> Nd,
    (forall i, match snd (gvcb (path i)) with (Some l, _) => l = path (S i) | (None, Some r) => r = path (S i) | (None, None) => False end) -> forall fuel,
    (forall s, lin_leaves (lin_new (path 0)) = Ok s -> ldl_next gvcb both front fuel s = OutOfFuel) /\
    ldal_next gvcb both front fuel (lina_leaves (lina_new (path 0))) = OutOfFuel.
  Proof.
    intros path Hp fuel.
    assert (He : endless_first_children gvcb both front (path 0)).
    { exists path; split; [reflexivity|]; intros i; specialize (Hp i); unfold both, front, pair_iter; destruct (snd (gvcb (path i))) as [[l|] [r|]]; cbn in *; subst; tauto. }
    destruct (proj1 (C59_endless gvcb both front (path 0)) He fuel) as (H1 & _ & H2 & _).
    split; [intros s [= <-]; exact H1|exact H2].
  Qed.
End C59In.

(** ** Examples *)

(** Node [n] has the left child [2 n + 3] when [n] is below 4, and the right child [n + 2] when [n] is even: 0 has the children 3 and 2, 3 has the left child 9, 2 has the
    children 7 and 4, and from 4 on there is no end to the right.  The leaves 9 and 7 are found. *)
Definition ex_lli_gv (n : nat) : nat * (option nat * option nat) :=
  (10 * n, (if n <? 4 then Some (2 * n + 3) else None, if Nat.even n then Some (n + 2) else None)).
Example C59_inorder_example :
  exists s s', lin_leaves (lin_new 0) = Ok s /\ calls (ldl_next ex_lli_gv both front) 2 s ⇓ Ok ([Some 90; Some 70], s').
Proof.
  refine (proj1 (C59_inorder ex_lli_gv 0 2 3 4 _ _)); [|vm_compute; lia].
  repeat constructor; vm_compute; lia.
Qed.
Example C59_inorder_ancestors_example :
  exists s', calls (ldal_next ex_lli_gv both front) 2 (lina_leaves (lina_new 0)) ⇓ Ok ([Some [0; 30; 90]; Some [0; 20; 70]], s').
Proof.
  refine (proj2 (C59_inorder ex_lli_gv 0 2 3 4 _ _)); [|vm_compute; lia].
  repeat constructor; vm_compute; lia.
Qed.
Example C59_calls_inorder_example : forall s', after (ldal_next ex_lli_gv both front) 2 (lina_leaves (lina_new 0)) s' -> Permutation (lda_log s') [9; 3; 7; 0; 2].
Proof.
  refine (proj2 (C59_calls_inorder ex_lli_gv 0 2 4 _ _ eq_refl eq_refl)).
  repeat constructor; vm_compute; lia.
Qed.
(** A finite tree: 0 has the right child 1, which has the children 2 and 3. *)
Definition ex_llw_bgv (n : nat) : nat * (option nat * option nat) := (10 * n, match n with 0 => (None, Some 1) | 1 => (Some 2, Some 3) | _ => (None, None) end).
Example C59_inorder_whole_example : bwhole ex_llw_bgv 0 (BNode 0 None (Some (BNode 1 (Some (BNode 2 None None)) (Some (BNode 3 None None))))) /\
  yields (ldal_next ex_llw_bgv both front) (lina_leaves (lina_new 0)) [[0; 10; 20]; [0; 10; 30]] /\
  (forall s', after (ldal_next ex_llw_bgv both front) 3 (lina_leaves (lina_new 0)) s' -> Permutation (lda_log s') [0; 1; 2; 3]).
Proof.
  assert (H : bwhole ex_llw_bgv 0 (BNode 0 None (Some (BNode 1 (Some (BNode 2 None None)) (Some (BNode 3 None None)))))) by (repeat constructor).
  split; [exact H|split; [exact (proj2 (C59_inorder_whole _ _ _ H))|]].
  exact (proj2 (C59_inorder_exactly_once _ _ _ 3 H (le_n 3))).
Qed.
(** [leaves()] after one call of [next()]: 0 has been given, and 2 and 3 are still to come; after two calls (0 and 2), 3 is lost,
    for its parent 1 is an ancestor of 2. *)
Example C59_inorder_mid_example : let t := BNode 0 None (Some (BNode 1 (Some (BNode 2 None None)) (Some (BNode 3 None None)))) in let L := inorder (bpositions t) in
  let rest k := map (fun p => pos_here p) (filter (fun p => is_bleaf ex_llw_bgv (pos_here p) && negb (parent_entered (firstn k L) p)) (skipn k L)) in
  bwhole ex_llw_bgv 0 t /\ rest 1 = [2; 3] /\ rest 2 = [].
Proof. intros t L rest; split; [repeat constructor|split; reflexivity]. Qed.
(** From 4 on the right children never end. *)
Example C59_inorder_endless_example : forall fuel, ldal_next ex_lli_gv both front fuel (lina_leaves (lina_new 4)) = OutOfFuel.
Proof.
  intros fuel; refine (proj2 (C59_inorder_endless ex_lli_gv (fun i => 2 * i + 4) _ fuel)); intros i; unfold ex_lli_gv; cbn [snd].
  replace (2 * i + 4 <? 4) with false by (symmetry; apply Nat.ltb_ge; lia).
  replace (Nat.even (2 * i + 4)) with true; [lia|].
  symmetry; apply Nat.even_spec; exists (i + 2); lia.
Qed.

Print Assumptions C59_inorder.
Print Assumptions C59_inorder_whole.
Print Assumptions C59_calls_inorder.
Print Assumptions C59_inorder_exactly_once.
Print Assumptions C59_inorder_mid.
Print Assumptions C59_inorder_endless.
