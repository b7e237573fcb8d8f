(** * C58: pipelines over collections whose trees come from any iterator *)
From Verif Require Import Prelim PrelimFacts Spec SpecFacts SpecObs SpecPipe SpecPipeColl SpecStream ModelNode NodeFacts ModelPre ModelPipe ModelPipeColl ModelStreamPipe
  PipeSpecFacts PipeCore PipeCollFinal ProofsStreamPipe PropPipeColl.

Lemma small_firstn {T} i (l : list T) : small_collection l -> small_collection (firstn i l).
Proof. unfold small_collection; rewrite firstn_length; lia. Qed.
Lemma flat_map_firstn {T U} (h : T -> list U) i l : length (flat_map h (firstn i l)) <= length (flat_map h l).
Proof. rewrite <- (firstn_skipn i l) at 2; rewrite flat_map_app, app_length; lia. Qed.

(** What the pipeline has been given by the collection's iterator, last answer first. *)
Definition given {Src Nd V A} (poll : Src -> option Nd * Src) (gvc : Nd -> V * list Nd) (source : Src) (c : chain V A)
    {C} (s : consumer (C := C) (each_chain (into_pipeline_stream poll gvc source) c)) : list (option Nd) :=
  str_asked (source_state coll_depth [0%N] (into_pipeline_stream poll gvc source) c (fst (fst s))).
Definition given_binary {Src Nd V A} (poll : Src -> option Nd * Src) (gvcb : Nd -> V * (option Nd * option Nd)) (source : Src) (c : chain V A)
    {C} (s : consumer (C := C) (each_chain_binary (into_pipeline_stream_binary poll gvcb source) c)) : list (option Nd) :=
  str_asked (source_state_binary coll_depth (into_pipeline_stream_binary poll gvcb source) c (fst (fst s))).

(** The trees a chain of stages makes of a collection (as in C39). *)
Definition chain_trees_of {Nd V A} (gvc : Nd -> V * list Nd) (nt : Nd -> tree Nd) (c : chain V A) (l : list Nd) : list (tree A) :=
  snd (walk_all (at_node_each (nval gvc) c) (clos_init c) (each_positions (map nt l))).
Definition chain_btrees_of {Nd V A} (gvcb : Nd -> V * (option Nd * option Nd)) (bt : Nd -> btree Nd) (c : chain V A) (l : list Nd) : list (btree A) :=
  snd (bwalk_all (at_node_each (nval gvcb) c) (clos_init c) (each_bpositions (map bt l))).

Theorem C58_trees : forall Src Nd V (gvc : Nd -> V * list Nd) nt, node_tree gvc nt ->
  forall (poll : Src -> option Nd * Src) source A (c : chain V A) ts, true_paths c = true -> small_collection ts ->
  (has_prune c = true -> (N.of_nat (length (flat_map (fun n => preorder (nt n)) ts)) <= usize_max)%N) ->
  let P := each_chain (into_pipeline_stream poll gvc source) c in
  reads_ahead poll (trees_next P) (given poll gvc source c) (trees_new P) source (chain_trees_of gvc nt c) ts.
Proof.
  intros Src Nd V gvc nt H poll source A c ts Ht Hc Hb P.
  refine (trees_ahead poll source _ _ _ (nary_follows poll source c gvc) ts (chain_trees_of gvc nt c) _); intros i k Hi.
  assert (Hb' : has_prune c = true -> (N.of_nat (length (flat_map (fun n => preorder (nt n)) (firstn i ts))) <= usize_max)%N).
  { intros Hp; specialize (Hb Hp); pose proof (flat_map_firstn (fun n => preorder (nt n)) i ts); lia. }
  pose proof (C39_trees Nd V gvc nt H A c (firstn i ts) Ht (small_firstn i ts Hc) Hb') as E; unfold chain_trees_of; cbv zeta in E.
  destruct (walk_all _ _ _) as [gs outs]; destruct (E k) as (j & ahead & E' & _); eexists; exact E'.
Qed.
Print Assumptions C58_trees.

Theorem C58_trees_binary : forall Src Nd V (gvcb : Nd -> V * (option Nd * option Nd)) bt, node_btree gvcb bt ->
  forall (poll : Src -> option Nd * Src) source A (c : chain V A) ts, small_collection ts ->
  let P := each_chain_binary (into_pipeline_stream_binary poll gvcb source) c in
  reads_ahead poll (btrees_next P) (given_binary poll gvcb source c) (trees_new P) source (chain_btrees_of gvcb bt c) ts.
Proof.
  intros Src Nd V gvcb bt H poll source A c ts Hc P.
  refine (btrees_ahead poll source _ _ _ (binary_follows poll source c gvcb) ts (chain_btrees_of gvcb bt c) _); intros i k Hi.
  pose proof (C39_trees_binary Nd V gvcb bt H A c (firstn i ts) (small_firstn i ts Hc)) as E; unfold chain_btrees_of; cbv zeta in E.
  destruct (bwalk_all _ _ _) as [gs outs]; destruct (E k) as (j & ahead & E' & _); eexists; exact E'.
Qed.
Print Assumptions C58_trees_binary.

(** [fold_trees] and [fold_path]: the results are the folds of these trees (as in C40). *)
Theorem C58_fold_trees : forall Src Nd V (gvc : Nd -> V * list Nd) nt, node_tree gvc nt ->
  forall (poll : Src -> option Nd * Src) source A (c : chain V A) ts, true_paths c = true -> small_collection ts ->
  (has_prune c = true -> (N.of_nat (length (flat_map (fun n => preorder (nt n)) ts)) <= usize_max)%N) ->
  forall G O (f : G -> list O -> A -> G * O) g,
  let P := each_chain (into_pipeline_stream poll gvc source) c in
  reads_ahead poll (cfold_next P f) (given poll gvc source c) (consume_new P g) source (fun l => snd (fold_all f g (chain_trees_of gvc nt c l))) ts.
Proof.
  intros Src Nd V gvc nt H poll source A c ts Ht Hc Hb G O f g P.
  refine (cfold_ahead poll source _ _ _ (nary_follows poll source c gvc) ts f g (fun l => snd (fold_all f g (chain_trees_of gvc nt c l))) _); intros i k Hi.
  assert (Hb' : has_prune c = true -> (N.of_nat (length (flat_map (fun n => preorder (nt n)) (firstn i ts))) <= usize_max)%N).
  { intros Hp; specialize (Hb Hp); pose proof (flat_map_firstn (fun n => preorder (nt n)) i ts); lia. }
  pose proof (C40_fold_after_stages Nd V gvc nt H A c (firstn i ts) Ht (small_firstn i ts Hc) Hb' G O f g) as E; unfold chain_trees_of; cbv zeta in E.
  destruct (walk_all _ _ _) as [gs outs]; destruct (E k) as (j & ahead & E' & _); eexists; exact E'.
Qed.
Print Assumptions C58_fold_trees.

Theorem C58_fold_trees_binary : forall Src Nd V (gvcb : Nd -> V * (option Nd * option Nd)) bt, node_btree gvcb bt ->
  forall (poll : Src -> option Nd * Src) source A (c : chain V A) ts, small_collection ts ->
  forall G O (f : G -> option O * option O -> A -> G * O) g,
  let P := each_chain_binary (into_pipeline_stream_binary poll gvcb source) c in
  reads_ahead poll (bcfold_next P f) (given_binary poll gvcb source c) (consume_new P g) source (fun l => snd (bfold_all f g (chain_btrees_of gvcb bt c l))) ts.
Proof.
  intros Src Nd V gvcb bt H poll source A c ts Hc G O f g P.
  refine (bcfold_ahead poll source _ _ _ (binary_follows poll source c gvcb) ts f g (fun l => snd (bfold_all f g (chain_btrees_of gvcb bt c l))) _); intros i k Hi.
  pose proof (bchain_fold_trees gvcb bt H c (firstn i ts) (small_firstn i ts Hc) G O f g) as E; unfold chain_btrees_of; cbv zeta in E.
  destruct (bwalk_all _ _ _) as [gs outs]; destruct (E k) as (j & ahead & E' & _); eexists; exact E'.
Qed.
Print Assumptions C58_fold_trees_binary.

Theorem C58_fold_path : forall Src Nd V (gvc : Nd -> V * list Nd) nt, node_tree gvc nt ->
  forall (poll : Src -> option Nd * Src) source A (c : chain V A) ts, has_prune c = false -> small_collection ts -> Forall (fun n => small_nodes gvc (nt n)) ts ->
  forall G O (f : G -> list O -> list N -> A -> G * O) g,
  let P := each_chain (into_pipeline_stream poll gvc source) c in
  let F := fun g os x => f g os (map N.of_nat (pos_path x)) (pos_here x) in
  reads_ahead poll (cfoldp_next P f) (given poll gvc source c) (consume_new P g) source (fun l => snd (fold_all F g (each_positions (chain_trees_of gvc nt c l)))) ts.
Proof.
  intros Src Nd V gvc nt H poll source A c ts Hn Hc Hs G O f g P F.
  refine (cfoldp_ahead poll source _ _ _ (nary_follows poll source c gvc) ts f g (fun l => snd (fold_all F g (each_positions (chain_trees_of gvc nt c l)))) _); intros i k Hi.
  assert (Hs' : Forall (fun n => small_nodes gvc (nt n)) (firstn i ts)).
  { rewrite <- (firstn_skipn i ts) in Hs; apply Forall_app in Hs; tauto. }
  destruct (C40_fold_path_after_stages Nd V gvc nt H A c (firstn i ts) Hn (small_firstn i ts Hc) Hs' G O f g k) as (j & ahead & E); eexists; exact E.
Qed.
Print Assumptions C58_fold_path.

Theorem C58_fold_path_binary : forall Src Nd V (gvcb : Nd -> V * (option Nd * option Nd)) bt, node_btree gvcb bt ->
  forall (poll : Src -> option Nd * Src) source A (c : chain V A) ts, small_collection ts ->
  forall G O (f : G -> option O * option O -> list N -> A -> G * O) g,
  let P := each_chain_binary (into_pipeline_stream_binary poll gvcb source) c in
  reads_ahead poll (bcfoldp_next P f) (given_binary poll gvcb source c) (consume_new P g) source
    (fun l => snd (bfold_all (with_path f) g (snd (bwalk_all (with_node (at_node_each (nval gvcb) c)) (clos_init c) (each_bpositions (map bt l)))))) ts.
Proof.
  intros Src Nd V gvcb bt H poll source A c ts Hc G O f g P.
  refine (bcfoldp_ahead poll source _ _ _ (binary_follows poll source c gvcb) ts f g
    (fun l => snd (bfold_all (with_path f) g (snd (bwalk_all (with_node (at_node_each (nval gvcb) c)) (clos_init c) (each_bpositions (map bt l)))))) _); intros i k Hi.
  pose proof (C40_fold_path_after_stages_binary Nd V gvcb bt H A c (firstn i ts) (small_firstn i ts Hc) G O f g) as E; cbv zeta in E.
  destruct (bwalk_all _ _ _) as [gs outs]; destruct (E k) as (j & ahead & E' & _); eexists; exact E'.
Qed.
Print Assumptions C58_fold_path_binary.

(** ** Without pruning: one tree is read ahead *)
Lemma walk_all_length {G X B} (vis : G -> X -> G * outcome B) : (forall g x, snd (vis g x) <> Drop) -> forall ts g, length (snd (walk_all vis g ts)) = length ts.
Proof.
  intros Hd; induction ts as [|[x cs] ts IH]; intros g; [reflexivity|]; rewrite walk_all_cons.
  assert (Hw : exists t, snd (walk vis g (TNode x cs)) = Some t).
  { rewrite walk_node; specialize (Hd g x); destruct (vis g x) as [g1 [|b [|]]]; cbn [snd] in *; [congruence| |eauto].
    match goal with |- context [let '(_, _) := ?e in _] => destruct e end; cbn [snd]; eauto. }
  destruct Hw as (t & Hw); destruct (walk vis g (TNode x cs)) as [g1 o]; cbn [snd] in Hw; subst o.
  specialize (IH g1); destruct (walk_all vis g1 ts) as [g2 os]; cbn in *; congruence.
Qed.
Lemma bwalk_all_length {G X B} (vis : G -> X -> G * outcome B) : (forall g x, snd (vis g x) <> Drop) -> forall ts g, length (snd (bwalk_all vis g ts)) = length ts.
Proof.
  intros Hd; induction ts as [|[x l r] ts IH]; intros g; [reflexivity|]; cbn [bwalk_all].
  assert (Hw : exists t, snd (bwalk vis g (BNode x l r)) = Some t).
  { cbn [bwalk]; specialize (Hd g x); destruct (vis g x) as [g1 [|b [|]]]; cbn [snd] in *; [congruence| |eauto].
    destruct (walk_side _ g1 l) as [g2 l']; destruct (walk_side _ g2 r) as [g3 r']; cbn [snd]; eauto. }
  destruct Hw as (t & Hw); destruct (bwalk vis g (BNode x l r)) as [g1 o]; cbn [snd] in Hw; subst o.
  specialize (IH g1); destruct (bwalk_all vis g1 ts) as [g2 os]; cbn in *; congruence.
Qed.
Lemma mapi_length {X Y} (h : nat -> X -> Y) : forall l i, length (mapi h i l) = length l.
Proof. induction l as [|x l IH]; intros i; [reflexivity|]; cbn; rewrite IH; reflexivity. Qed.
Lemma no_prune_true_paths {V A} (c : chain V A) : has_prune c = false -> true_paths c = true.
Proof. induction c; cbn in *; auto; discriminate. Qed.

Theorem C58_one_ahead : forall Src Nd V (gvc : Nd -> V * list Nd) nt, node_tree gvc nt ->
  forall (poll : Src -> option Nd * Src) source A (c : chain V A) ts, has_prune c = false -> small_collection ts -> polls poll (length ts) source = map Some ts ->
  let P := each_chain (into_pipeline_stream poll gvc source) c in
  forall k, 0 < k < length ts -> exists s, calls (trees_next P) k (trees_new P) ⇓ Ok (map Some (firstn k (chain_trees_of gvc nt c ts)), s) /\
    rev (given poll gvc source c s) = map Some (firstn (S k) ts).
Proof.
  intros Src Nd V gvc nt H poll source A c ts Hn Hc Hp P k Hk.
  assert (Hl : forall l, length (chain_trees_of gvc nt c l) = length l).
  { intros l; unfold chain_trees_of; rewrite walk_all_length by (intros gs x; apply visit_no_drop; exact Hn).
    unfold each_positions; rewrite mapi_length, map_length; reflexivity. }
  destruct (C58_trees Src Nd V gvc nt H poll source A c ts (no_prune_true_paths c Hn) Hc ltac:(congruence)) as [E _].
  destruct (E Hp k) as (s & j & Es & Hj & Ea & H1 & H2); [rewrite Hl; exact Hk|]; exists s; split; [exact Es|].
  rewrite Hl, firstn_length in H1; assert (j = S k); [|subst j; exact Ea].
  destruct (Nat.eq_dec j (S k)); [assumption|]; specialize (H2 (S k) ltac:(lia)); rewrite Hl, firstn_length in H2; lia.
Qed.
Print Assumptions C58_one_ahead.

Theorem C58_one_ahead_binary : forall Src Nd V (gvcb : Nd -> V * (option Nd * option Nd)) bt, node_btree gvcb bt ->
  forall (poll : Src -> option Nd * Src) source A (c : chain V A) ts, has_prune c = false -> small_collection ts -> polls poll (length ts) source = map Some ts ->
  let P := each_chain_binary (into_pipeline_stream_binary poll gvcb source) c in
  forall k, 0 < k < length ts -> exists s, calls (btrees_next P) k (trees_new P) ⇓ Ok (map Some (firstn k (chain_btrees_of gvcb bt c ts)), s) /\
    rev (given_binary poll gvcb source c s) = map Some (firstn (S k) ts).
Proof.
  intros Src Nd V gvcb bt H poll source A c ts Hn Hc Hp P k Hk.
  assert (Hl : forall l, length (chain_btrees_of gvcb bt c l) = length l).
  { intros l; unfold chain_btrees_of; rewrite bwalk_all_length by (intros gs x; apply visit_no_drop; exact Hn).
    unfold each_bpositions; rewrite mapi_length, map_length; reflexivity. }
  destruct (C58_trees_binary Src Nd V gvcb bt H poll source A c ts Hc) as [E _].
  destruct (E Hp k) as (s & j & Es & Hj & Ea & H1 & H2); [rewrite Hl; exact Hk|]; exists s; split; [exact Es|].
  rewrite Hl, firstn_length in H1; assert (j = S k); [|subst j; exact Ea].
  destruct (Nat.eq_dec j (S k)); [assumption|]; specialize (H2 (S k) ltac:(lia)); rewrite Hl, firstn_length in H2; lia.
Qed.
Print Assumptions C58_one_ahead_binary.

(** ** Examples *)
(** A collection without end: tree number [n] has the values [n] and [n + 1]. *)
Definition ex_endless (n : nat) : option (tree nat) * nat := (Some (TNode n [TNode (S n) []]), S n).
(** The odd trees are pruned: for one result, three trees are read - the root of the third one shows that the first result is complete. *)
Definition ex_odd : chain nat nat := c_prune c_start tt (fun _ v => (tt, Nat.odd v)).
Example ex_prune_ahead :
  let P := each_chain (into_pipeline_stream ex_endless tree_gvc 0) ex_odd in
  (fun fuel => '(l, s) <- calls (trees_next P) 2 (trees_new P) fuel ;; Ok (l, length (given ex_endless tree_gvc 0 ex_odd s))) ⇓
    Ok ([Some (TNode 0 []); Some (TNode 2 [])], 5).
Proof. exists 20; intros f Hf; do 20 (destruct f as [|f]; [lia|]); clear Hf; reflexivity. Qed.
Example ex_prune_ahead_hyps :
  let ts := [TNode 0 [TNode 1 []]; TNode 1 [TNode 2 []]; TNode 2 [TNode 3 []]; TNode 3 [TNode 4 []]; TNode 4 [TNode 5 []]; TNode 5 [TNode 6 []]] in
  polls ex_endless (length ts) 0 = map Some ts /\ true_paths ex_odd = true /\ small_collection ts /\
  chain_trees_of tree_gvc (@subtrees nat) ex_odd ts = [TNode 0 []; TNode 2 []; TNode 4 []] /\
  length (chain_trees_of tree_gvc (@subtrees nat) ex_odd (firstn 4 ts)) = 2 /\ length (chain_trees_of tree_gvc (@subtrees nat) ex_odd (firstn 5 ts)) = 3.
Proof. cbv zeta; split; [reflexivity|]; split; [reflexivity|]; split; [unfold small_collection, usize_max; cbn [length]; lia|]; repeat split. Qed.

(** A collection that gives more after a [None]: that [None] is not seen by the user, who gets all the trees. *)
Definition ex_gaps (n : nat) : option (tree nat) * nat := (if Nat.even n then Some (TNode n []) else None, S n).
Example ex_gap_lost :
  let P := each_chain (into_pipeline_stream ex_gaps tree_gvc 0) c_start in
  (fun fuel => '(l, s) <- calls (trees_next P) 3 (trees_new P) fuel ;; Ok (l, rev (given ex_gaps tree_gvc 0 c_start s))) ⇓
    Ok ([Some (TNode 0 []); Some (TNode 2 []); Some (TNode 4 [])], [Some (TNode 0 []); None; Some (TNode 2 []); None; Some (TNode 4 []); None]).
Proof. exists 20; intros f Hf; do 20 (destruct f as [|f]; [lia|]); clear Hf; reflexivity. Qed.

(** Binary, folded with paths: the path of a root is its number. *)
Definition ex_bendless (n : nat) : option (btree nat) * nat := (Some (BNode n None (Some (BNode (S n) None None))), S n).
Example ex_bfold_ahead :
  let P := each_chain_binary (into_pipeline_stream_binary ex_bendless btree_gvcb 0) c_start in
  (fun fuel => '(l, s) <- calls (bcfoldp_next P (fun (_ : unit) _ p v => (tt, (p, v)))) 2 (consume_new P tt) fuel ;; Ok (l, length (given_binary ex_bendless btree_gvcb 0 c_start s))) ⇓
    Ok ([Some ([0%N], 0); Some ([1%N], 1)], 3).
Proof. exists 20; intros f Hf; do 20 (destruct f as [|f]; [lia|]); clear Hf; reflexivity. Qed.

(** A collection that ends. *)
Definition ex_two (n : nat) : option (tree nat) * nat := (if n <? 2 then Some (TNode n []) else None, S n).
Example ex_two_hyps : forall i, polls ex_two (2 + i) 0 = map Some [TNode 0 []; TNode 1 []] ++ repeat None i.
Proof.
  assert (H : forall i n, 2 <= n -> polls ex_two i n = repeat None i).
  { induction i as [|i IH]; intros n Hn; [reflexivity|]; cbn [polls]; unfold ex_two at 1; rewrite (proj2 (Nat.ltb_ge n 2) Hn); cbn [repeat]; f_equal; apply IH; lia. }
  intros i; change (Some (TNode 0 []) :: Some (TNode 1 []) :: polls ex_two i 2 = Some (TNode 0 []) :: Some (TNode 1 []) :: repeat None i); rewrite H by lia; reflexivity.
Qed.
