(** * Properties C25-C27, C42, C46, C47: [at_path], and how contexts agree with it.

    Statements first; the proofs only combine lemmas of ProofsPath.v with the traversal theorems. *)
From Coq Require Import Permutation.
From Verif Require Import Prelim PrelimFacts Spec SpecFacts SpecObs ModelNode ModelBfs ModelPre ModelPost ModelIn.
From Verif Require Import NodeFacts Slots ProofsPlain ProofsPre ProofsPost ProofsIn ProofsTree ProofsBfs ProofsPath PropTraversal.

(** ** C25 [at_path] is child indexing ([subtree_at] / [bsubtree_at] in Spec.v) *)
Theorem C25_at_path : forall Nd V (gvc : Nd -> V * list Nd) nt, node_tree gvc nt ->
  forall n p, at_path gvc n p = option_map root (subtree_at (nt n) (map N.to_nat p)).
Proof. intros Nd V gvc nt H n p; exact (at_path_spec gvc nt H p n). Qed.
Print Assumptions C25_at_path.

Theorem C25_at_path_binary : forall Nd V (gvcb : Nd -> V * (option Nd * option Nd)) bt, node_btree gvcb bt ->
  forall n p, at_path_binary gvcb n p = option_map broot (bsubtree_at (bt n) (map N.to_nat p)).
Proof. intros Nd V gvcb bt H n p; exact (at_path_binary_spec gvcb bt H p n). Qed.
Print Assumptions C25_at_path_binary.

Theorem C25_at_path_Tree : forall A (t : tree A) p, at_path tree_gvc t p = subtree_at t (map N.to_nat p).
Proof. exact (@tree_at_path). Qed.
Print Assumptions C25_at_path_Tree.

Theorem C25_at_path_BinaryTree : forall A (t : btree A) p, at_path_binary btree_gvcb t p = bsubtree_at t (map N.to_nat p).
Proof. exact (@btree_at_path). Qed.
Print Assumptions C25_at_path_BinaryTree.

Example C25_ex : at_path tree_gvc ex_tree [0; 1; 0]%N = Some (TNode 7 []) /\ at_path tree_gvc ex_tree [1; 0]%N = None /\
  at_path_binary btree_gvcb ex_btree [0; 1]%N = Some (BNode 4 (Some (BNode 6 None None)) None) /\
  at_path_binary btree_gvcb ex_btree [0; 0]%N = None /\ at_path_binary btree_gvcb ex_btree [2]%N = None.
Proof. vm_compute; repeat split. Qed.

(** ** C26 collections: the first index selects the tree *)
Theorem C26_collection_at_path : forall Nd V (gvc : Nd -> V * list Nd) nt, node_tree gvc nt ->
  forall (trees : list Nd), coll_at_path gvc trees [] = None /\
  forall i p, coll_at_path gvc trees (i :: p) =
    match nth_error trees (N.to_nat i) with
    | Some t => option_map root (subtree_at (nt t) (map N.to_nat p))
    | None => None
    end.
Proof.
  intros Nd V gvc nt H trees; split; [reflexivity|]; intros i p; cbn; rewrite iter_nth_spec.
  destruct (nth_error trees (N.to_nat i)); [apply (at_path_spec gvc nt H)|reflexivity].
Qed.
Print Assumptions C26_collection_at_path.

Theorem C26_collection_at_path_binary : forall Nd V (gvcb : Nd -> V * (option Nd * option Nd)) bt, node_btree gvcb bt ->
  forall (trees : list Nd), coll_at_path_binary gvcb trees [] = None /\
  forall i p, coll_at_path_binary gvcb trees (i :: p) =
    match nth_error trees (N.to_nat i) with
    | Some t => option_map broot (bsubtree_at (bt t) (map N.to_nat p))
    | None => None
    end.
Proof.
  intros Nd V gvcb bt H trees; split; [reflexivity|]; intros i p; unfold coll_at_path_binary; rewrite iter_nth_spec.
  destruct (nth_error trees (N.to_nat i)); [apply (at_path_binary_spec gvcb bt H)|reflexivity].
Qed.
Print Assumptions C26_collection_at_path_binary.

Example C26_ex : coll_at_path tree_gvc [TNode 9 []; ex_tree] [1; 2; 0]%N = Some (TNode 8 []).
Proof. vm_compute; reflexivity. Qed.

(** ** The contexts that the [attach_context()] iterators give *)

(** n-ary: breadth-first, preorder, postorder (borrowed / mut). *)
Definition a_context {Nd V} (gvc : Nd -> V * list Nd) (n : Nd) (c : tree_context V (list Nd)) : Prop :=
  (exists s, bfs_attach_context gvc (bfs_new n) = Ok s /\ gives (bfsc_next gvc) s c) \/
  (exists s, pre_attach_context (pre_new n) = Ok s /\ gives (prec_next gvc) s c) \/
  (exists s, post_attach_context (post_new n) = Ok s /\ gives (postc_next gvc) s c).

(** n-ary, owned postorder. *)
Definition a_context_owned {Nd V} (gvc : Nd -> V * list Nd) (n : Nd) (c : tree_context V unit) : Prop :=
  exists s, post_attach_context_owned (post_new n) = Ok s /\ gives (postco_next gvc) s c.

(** Binary: breadth-first, preorder, postorder and inorder (borrowed / mut). *)
Definition a_context_binary {Nd V} (gvcb : Nd -> V * (option Nd * option Nd)) (n : Nd)
    (c : tree_context V (option Nd * option Nd)) : Prop :=
  (exists s, bfs_attach_context_binary gvcb (bfs_new n) = Ok s /\ gives (bfscb_next gvcb pair_iter) s c) \/
  (exists s, pre_attach_context (pre_new n) = Ok s /\ gives (precb_next gvcb pair_iter) s c) \/
  (exists s, post_attach_context (post_new n) = Ok s /\ gives (postcb_next gvcb pair_iter) s c) \/
  (exists s, in_attach_context (V:=V) (in_new n) = Ok s /\ gives (inc_next gvcb) s c).

(** Binary, owned postorder and inorder. *)
Definition a_context_binary_owned {Nd V} (gvcb : Nd -> V * (option Nd * option Nd)) (n : Nd)
    (c : tree_context V unit) : Prop :=
  (exists s, post_attach_context_owned (post_new n) = Ok s /\ gives (postcob_next gvcb pair_iter) s c) \/
  (exists s, in_attach_context_owned (V:=V) (in_new n) = Ok s /\ gives (inco_next gvcb) s c).

Lemma a_context_pos Nd V (gvc : Nd -> V * list Nd) nt : node_tree gvc nt -> forall n, small_nodes gvc (nt n) -> forall c,
  a_context gvc n c -> exists q, In q (preorder (positions (nt n))) /\ c = context_at gvc q.
Proof.
  intros H n Hs c [(s & E & Hg)|[(s & E & Hg)|(s & E & Hg)]].
  - unfold bfs_attach_context in E; cbn in E; rewrite (gv_eq gvc n) in E; injection E as <-.
    pose proof (yields_gives _ _ _ _ (bfsc_yields gvc nt [] n H Hs) Hg) as Hin.
    apply in_map_iff in Hin as (q & <- & Hq); exists q; split; [eapply Permutation_in; [apply bfs_perm|exact Hq]|reflexivity].
  - injection E as <-; pose proof (yields_gives _ _ _ _ (prec_yields gvc nt [] n H Hs) Hg) as Hin.
    apply in_map_iff in Hin as (q & <- & Hq); exists q; split; [exact Hq|reflexivity].
  - injection E as <-; pose proof (yields_gives _ _ _ _ (postc_yields gvc nt [] n H Hs) Hg) as Hin.
    apply in_map_iff in Hin as (q & <- & Hq); exists q; split; [eapply Permutation_in; [apply postorder_perm|exact Hq]|reflexivity].
Qed.

Lemma a_context_owned_pos Nd V (gvc : Nd -> V * list Nd) nt : node_tree gvc nt -> forall n, small_nodes gvc (nt n) -> forall c,
  a_context_owned gvc n c -> exists q, In q (preorder (positions (nt n))) /\ c = no_children (context_at gvc q).
Proof.
  intros H n Hs c (s & E & Hg).
  injection E as <-; pose proof (yields_gives _ _ _ _ (postco_yields gvc nt [] n H Hs) Hg) as Hin.
  rewrite map_map in Hin.
  apply in_map_iff in Hin as (q & <- & Hq); exists q; split; [eapply Permutation_in; [apply postorder_perm|exact Hq]|reflexivity].
Qed.

Lemma a_context_binary_pos Nd V (gvcb : Nd -> V * (option Nd * option Nd)) bt : node_btree gvcb bt -> forall n c,
  a_context_binary gvcb n c -> exists q, In q (preorder (flat (bpositions (bt n)))) /\ c = context_at gvcb q.
Proof.
  intros H n c [(s & E & Hg)|[(s & E & Hg)|[(s & E & Hg)|(s & E & Hg)]]].
  - unfold bfs_attach_context_binary in E; cbn in E; rewrite (gv_eq gvcb n) in E; injection E as <-.
    pose proof (yields_gives _ _ _ _ (bfscb_yields gvcb pair_iter _ _ [] n (slot_law_binary gvcb bt H) (small_law_binary gvcb) I) Hg) as Hin.
    apply in_map_iff in Hin as (q & <- & Hq); exists q; split; [eapply Permutation_in; [apply bfs_perm|exact Hq]|reflexivity].
  - injection E as <-.
    pose proof (yields_gives _ _ _ _ (precb_yields gvcb pair_iter _ _ [] (slot_law_binary gvcb bt H) (small_law_binary gvcb) n I) Hg) as Hin.
    apply in_map_iff in Hin as (q & <- & Hq); exists q; split; [exact Hq|reflexivity].
  - injection E as <-.
    pose proof (yields_gives _ _ _ _ (postcb_yields gvcb pair_iter _ _ [] (slot_law_binary gvcb bt H) (small_law_binary gvcb) n I) Hg) as Hin.
    apply in_map_iff in Hin as (q & <- & Hq); exists q; split; [eapply Permutation_in; [apply postorder_perm|exact Hq]|reflexivity].
  - injection E as <-.
    pose proof (yields_gives _ _ _ _ (inc_yields gvcb bt [] H n) Hg) as Hin.
    apply in_map_iff in Hin as (q & <- & Hq); exists q; split; [eapply Permutation_in; [apply inorder_perm|exact Hq]|reflexivity].
Qed.

Lemma a_context_binary_owned_pos Nd V (gvcb : Nd -> V * (option Nd * option Nd)) bt : node_btree gvcb bt -> forall n c,
  a_context_binary_owned gvcb n c -> exists q, In q (preorder (flat (bpositions (bt n)))) /\ c = no_children (context_at gvcb q).
Proof.
  intros H n c [(s & E & Hg)|(s & E & Hg)].
  - injection E as <-.
    pose proof (yields_gives _ _ _ _ (postcob_yields gvcb pair_iter _ _ [] n (slot_law_binary gvcb bt H) (small_law_binary gvcb) I) Hg) as Hin.
    rewrite map_map in Hin.
    apply in_map_iff in Hin as (q & <- & Hq); exists q; split; [eapply Permutation_in; [apply postorder_perm|exact Hq]|reflexivity].
  - injection E as <-; pose proof (yields_gives _ _ _ _ (inco_yields gvcb bt [] n H) Hg) as Hin.
    rewrite map_map in Hin.
    apply in_map_iff in Hin as (q & <- & Hq); exists q; split; [eapply Permutation_in; [apply inorder_perm|exact Hq]|reflexivity].
Qed.

(** ** C27 a context's path leads back to its node *)
Theorem C27_path_leads_back : forall Nd V (gvc : Nd -> V * list Nd) nt, node_tree gvc nt ->
  forall n, small_nodes gvc (nt n) -> forall c, a_context gvc n c ->
  exists m, at_path gvc n (c_path c) = Some m /\ last_opt (c_ancestors c) = Some (nval gvc m) /\ ctx_children c = Ok (nkids gvc m).
Proof.
  intros Nd V gvc nt H n Hs c Hc; destruct (a_context_pos _ _ _ _ H n Hs c Hc) as (q & Hq & ->).
  destruct (context_met gvc nt H n q Hq) as (Hm & m & Ha & Hk); destruct (met_last _ _ _ _ Hm) as (m' & Ha' & Hl).
  rewrite Ha in Ha'; injection Ha' as <-; exists m; unfold ctx_children; rewrite Hk; auto.
Qed.
Print Assumptions C27_path_leads_back.

Theorem C27_path_leads_back_binary : forall Nd V (gvcb : Nd -> V * (option Nd * option Nd)) bt, node_btree gvcb bt ->
  forall n c, a_context_binary gvcb n c ->
  exists m, at_path_binary gvcb n (c_path c) = Some m /\ last_opt (c_ancestors c) = Some (nval gvcb m) /\
    ctx_children c = Ok (nkids gvcb m).
Proof.
  intros Nd V gvcb bt H n c Hc; destruct (a_context_binary_pos _ _ _ _ H n c Hc) as (q & Hq & ->).
  destruct (bcontext_met gvcb bt H n q Hq) as (Hm & m & Ha & Hk); destruct (met_last _ _ _ _ Hm) as (m' & Ha' & Hl).
  rewrite Ha in Ha'; injection Ha' as <-; exists m; unfold ctx_children; rewrite Hk; auto.
Qed.
Print Assumptions C27_path_leads_back_binary.

(** The owned postorder and inorder contexts carry no children; the rest holds of them. *)
Theorem C27_path_leads_back_owned : forall Nd V (gvc : Nd -> V * list Nd) nt, node_tree gvc nt ->
  forall n, small_nodes gvc (nt n) -> forall c, a_context_owned gvc n c ->
  exists m, at_path gvc n (c_path c) = Some m /\ last_opt (c_ancestors c) = Some (nval gvc m).
Proof.
  intros Nd V gvc nt H n Hs c Hc; destruct (a_context_owned_pos _ _ _ _ H n Hs c Hc) as (q & Hq & ->).
  exact (met_last _ _ _ _ (proj1 (context_met gvc nt H n q Hq))).
Qed.
Print Assumptions C27_path_leads_back_owned.

Theorem C27_path_leads_back_binary_owned : forall Nd V (gvcb : Nd -> V * (option Nd * option Nd)) bt, node_btree gvcb bt ->
  forall n c, a_context_binary_owned gvcb n c ->
  exists m, at_path_binary gvcb n (c_path c) = Some m /\ last_opt (c_ancestors c) = Some (nval gvcb m).
Proof.
  intros Nd V gvcb bt H n c Hc; destruct (a_context_binary_owned_pos _ _ _ _ H n c Hc) as (q & Hq & ->).
  exact (met_last _ _ _ _ (proj1 (bcontext_met gvcb bt H n q Hq))).
Qed.
Print Assumptions C27_path_leads_back_binary_owned.

Example C27_ex : a_context tree_gvc ex_tree (mkCtx [0; 1]%N [1; 2; 5] (Some [TNode 7 []])).
Proof.
  right; left; eexists; split; [reflexivity|].
  eapply gives_yields; [apply (prec_yields tree_gvc subtrees [] ex_tree (@node_tree_tree nat) small_nodes_met)|].
  vm_compute; tauto.
Qed.

(** ** C42 [children()] is available in every context ... *)
Theorem C42_children : forall Nd V (gvc : Nd -> V * list Nd) nt, node_tree gvc nt ->
  forall n, small_nodes gvc (nt n) -> forall c, a_context gvc n c -> exists l, ctx_children c = Ok l.
Proof.
  intros Nd V gvc nt H n Hs c Hc; destruct (C27_path_leads_back _ _ _ _ H n Hs c Hc) as (m & _ & _ & E); eauto.
Qed.
Print Assumptions C42_children.

Theorem C42_children_binary : forall Nd V (gvcb : Nd -> V * (option Nd * option Nd)) bt, node_btree gvcb bt ->
  forall n c, a_context_binary gvcb n c -> exists l, ctx_children c = Ok l.
Proof.
  intros Nd V gvcb bt H n c Hc; destruct (C27_path_leads_back_binary _ _ _ _ H n c Hc) as (m & _ & _ & E); eauto.
Qed.
Print Assumptions C42_children_binary.

(** ... except in those of the owned postorder and inorder iterators, where it panics every time. *)
Theorem C42_children_owned_refuted : forall Nd V (gvc : Nd -> V * list Nd) nt, node_tree gvc nt ->
  forall n, small_nodes gvc (nt n) ->
  (exists c, a_context_owned gvc n c) /\ forall c, a_context_owned gvc n c -> ctx_children c = Panic.
Proof.
  intros Nd V gvc nt H n Hs; split.
  - eexists; eexists; split; [reflexivity|].
    eapply gives_yields; [apply (postco_yields gvc nt [] n H Hs)|].
    rewrite (nt_unfold _ _ H); cbn; rewrite !map_app; apply in_or_app; right; left; reflexivity.
  - intros c Hc; destruct (a_context_owned_pos _ _ _ _ H n Hs c Hc) as (q & Hq & ->); reflexivity.
Qed.
Print Assumptions C42_children_owned_refuted.

Theorem C42_children_binary_owned_refuted : forall Nd V (gvcb : Nd -> V * (option Nd * option Nd)) bt, node_btree gvcb bt ->
  forall n, (exists c, a_context_binary_owned gvcb n c) /\ forall c, a_context_binary_owned gvcb n c -> ctx_children c = Panic.
Proof.
  intros Nd V gvcb bt H n; split.
  - eexists; right; eexists; split; [reflexivity|].
    eapply gives_yields; [apply (inco_yields gvcb bt [] n H)|].
    rewrite H; cbn; rewrite !map_app; apply in_or_app; right; left; reflexivity.
  - intros c Hc; destruct (a_context_binary_owned_pos _ _ _ _ H n c Hc) as (q & Hq & ->); reflexivity.
Qed.
Print Assumptions C42_children_binary_owned_refuted.

(** ** C46 depth, path and ancestors agree: the ancestors are the values met along the path *)
Theorem C46_depth_path_ancestors : forall Nd V (gvc : Nd -> V * list Nd) nt, node_tree gvc nt ->
  forall n, small_nodes gvc (nt n) -> forall c, a_context gvc n c ->
  ctx_depth c = Ok (length (c_path c)) /\ length (c_ancestors c) = S (length (c_path c)) /\
  forall i, i <= length (c_path c) ->
    exists m, at_path gvc n (firstn i (c_path c)) = Some m /\ nth_error (c_ancestors c) i = Some (nval gvc m).
Proof.
  intros Nd V gvc nt H n Hs c Hc; destruct (a_context_pos _ _ _ _ H n Hs c Hc) as (q & Hq & ->).
  destruct (proj1 (context_met gvc nt H n q Hq)) as [HL HA]; unfold ctx_depth; rewrite HL; auto.
Qed.
Print Assumptions C46_depth_path_ancestors.

Theorem C46_depth_path_ancestors_owned : forall Nd V (gvc : Nd -> V * list Nd) nt, node_tree gvc nt ->
  forall n, small_nodes gvc (nt n) -> forall c, a_context_owned gvc n c ->
  ctx_depth c = Ok (length (c_path c)) /\ length (c_ancestors c) = S (length (c_path c)) /\
  forall i, i <= length (c_path c) ->
    exists m, at_path gvc n (firstn i (c_path c)) = Some m /\ nth_error (c_ancestors c) i = Some (nval gvc m).
Proof.
  intros Nd V gvc nt H n Hs c Hc; destruct (a_context_owned_pos _ _ _ _ H n Hs c Hc) as (q & Hq & ->).
  destruct (proj1 (context_met gvc nt H n q Hq)) as [HL HA]; unfold ctx_depth; cbn [no_children c_ancestors c_path]; rewrite HL; auto.
Qed.
Print Assumptions C46_depth_path_ancestors_owned.

Theorem C46_depth_path_ancestors_binary : forall Nd V (gvcb : Nd -> V * (option Nd * option Nd)) bt, node_btree gvcb bt ->
  forall n c, a_context_binary gvcb n c ->
  ctx_depth c = Ok (length (c_path c)) /\ length (c_ancestors c) = S (length (c_path c)) /\
  forall i, i <= length (c_path c) ->
    exists m, at_path_binary gvcb n (firstn i (c_path c)) = Some m /\ nth_error (c_ancestors c) i = Some (nval gvcb m).
Proof.
  intros Nd V gvcb bt H n c Hc; destruct (a_context_binary_pos _ _ _ _ H n c Hc) as (q & Hq & ->).
  destruct (proj1 (bcontext_met gvcb bt H n q Hq)) as [HL HA]; unfold ctx_depth; rewrite HL; auto.
Qed.
Print Assumptions C46_depth_path_ancestors_binary.

Theorem C46_depth_path_ancestors_binary_owned : forall Nd V (gvcb : Nd -> V * (option Nd * option Nd)) bt, node_btree gvcb bt ->
  forall n c, a_context_binary_owned gvcb n c ->
  ctx_depth c = Ok (length (c_path c)) /\ length (c_ancestors c) = S (length (c_path c)) /\
  forall i, i <= length (c_path c) ->
    exists m, at_path_binary gvcb n (firstn i (c_path c)) = Some m /\ nth_error (c_ancestors c) i = Some (nval gvcb m).
Proof.
  intros Nd V gvcb bt H n c Hc; destruct (a_context_binary_owned_pos _ _ _ _ H n c Hc) as (q & Hq & ->).
  destruct (proj1 (bcontext_met gvcb bt H n q Hq)) as [HL HA]; unfold ctx_depth; cbn [no_children c_ancestors c_path]; rewrite HL; auto.
Qed.
Print Assumptions C46_depth_path_ancestors_binary_owned.

(** ** C47 every component of a reported path is the index of an existing child, below the marker [usize::MAX] *)
Theorem C47_path_components : forall Nd V (gvc : Nd -> V * list Nd) nt, node_tree gvc nt ->
  forall n, small_nodes gvc (nt n) -> forall c, a_context gvc n c ->
  forall i x, nth_error (c_path c) i = Some x ->
    (x < usize_max)%N /\
    exists m, at_path gvc n (firstn i (c_path c)) = Some m /\ (x < N.of_nat (length (nkids gvc m)))%N.
Proof.
  intros Nd V gvc nt H n Hs c Hc i x Hx; destruct (a_context_pos _ _ _ _ H n Hs c Hc) as (q & Hq & ->).
  destruct (met_index gvc n _ _ (proj1 (context_met gvc nt H n q Hq)) i x Hx) as (m & Hm & Hlt).
  split; [|eauto]; eapply N.lt_le_trans; [exact Hlt|exact (small_at gvc nt H n _ m Hs Hm)].
Qed.
Print Assumptions C47_path_components.

Theorem C47_path_components_owned : forall Nd V (gvc : Nd -> V * list Nd) nt, node_tree gvc nt ->
  forall n, small_nodes gvc (nt n) -> forall c, a_context_owned gvc n c ->
  forall i x, nth_error (c_path c) i = Some x ->
    (x < usize_max)%N /\
    exists m, at_path gvc n (firstn i (c_path c)) = Some m /\ (x < N.of_nat (length (nkids gvc m)))%N.
Proof.
  intros Nd V gvc nt H n Hs c Hc i x Hx; destruct (a_context_owned_pos _ _ _ _ H n Hs c Hc) as (q & Hq & ->).
  destruct (met_index gvc n _ _ (proj1 (context_met gvc nt H n q Hq)) i x Hx) as (m & Hm & Hlt).
  split; [|eauto]; eapply N.lt_le_trans; [exact Hlt|exact (small_at gvc nt H n _ m Hs Hm)].
Qed.
Print Assumptions C47_path_components_owned.

Theorem C47_path_components_binary : forall Nd V (gvcb : Nd -> V * (option Nd * option Nd)) bt, node_btree gvcb bt ->
  forall n c, a_context_binary gvcb n c ->
  forall i x, nth_error (c_path c) i = Some x ->
    exists m, at_path_binary gvcb n (firstn i (c_path c)) = Some m /\
      (x = 0%N /\ fst (nkids gvcb m) <> None \/ x = 1%N /\ snd (nkids gvcb m) <> None).
Proof.
  intros Nd V gvcb bt H n c Hc i x Hx; destruct (a_context_binary_pos _ _ _ _ H n c Hc) as (q & Hq & ->).
  exact (bmet_index gvcb n _ _ (proj1 (bcontext_met gvcb bt H n q Hq)) i x Hx).
Qed.
Print Assumptions C47_path_components_binary.

Theorem C47_path_components_binary_owned : forall Nd V (gvcb : Nd -> V * (option Nd * option Nd)) bt, node_btree gvcb bt ->
  forall n c, a_context_binary_owned gvcb n c ->
  forall i x, nth_error (c_path c) i = Some x ->
    exists m, at_path_binary gvcb n (firstn i (c_path c)) = Some m /\
      (x = 0%N /\ fst (nkids gvcb m) <> None \/ x = 1%N /\ snd (nkids gvcb m) <> None).
Proof.
  intros Nd V gvcb bt H n c Hc i x Hx; destruct (a_context_binary_owned_pos _ _ _ _ H n c Hc) as (q & Hq & ->).
  exact (bmet_index gvcb n _ _ (proj1 (bcontext_met gvcb bt H n q Hq)) i x Hx).
Qed.
Print Assumptions C47_path_components_binary_owned.

Example C46_C47_ex : a_context_binary btree_gvcb ex_btree (mkCtx [0; 1; 0]%N [1; 2; 4; 6] (Some (None, None))).
Proof.
  do 3 right; eexists; split; [reflexivity|].
  eapply gives_yields; [apply (inc_yields btree_gvcb bsubtrees [] (@node_btree_btree nat))|].
  vm_compute; tauto.
Qed.
