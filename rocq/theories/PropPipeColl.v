(** * Properties C39 and C40: pipelines over a collection of trees.

    [walk_all], [fold_all], [apply_ops_each] are in SpecPipe.v and SpecPipeColl.v; the iterators in ModelPipeColl.v.
    [calls next k s ⇓ Ok (map (nth_error l) (seq 0 k), s')] says: the first [k] calls of [next] give the first [k]
    elements of [l], then [None], without panic; [i] is then the pipeline and [ahead] the item it has read ahead. *)
From Verif Require Import Prelim PrelimFacts Spec SpecFacts SpecObs SpecPipe SpecPipeColl ModelNode ModelPre ModelPipe ModelPipeColl.
From Verif Require Import NodeFacts ProofsTree PipeCore PipeBase PipeChain PipeEnd ProofsPipe PipeFinal PipePure PipeSpecFacts PipeOps
  PipeCollBase PipeCollEnd ProofsPipeColl PipeCollFinal PropTraversal PropColl.

(** ** C39 chains of stages, then [trees] *)

(** Closures with state: the state goes through the trees in order; [gs] is the state at the end. *)
Theorem C39_trees : forall Nd V (gvc : Nd -> V * list Nd) nt, node_tree gvc nt ->
  forall A (c : chain V A) trees, true_paths c = true -> small_collection trees ->
  (has_prune c = true -> (N.of_nat (length (flat_map (fun n => preorder (nt n)) trees)) <= usize_max)%N) ->
  let P := each_chain (into_pipeline_each gvc trees) c in
  let '(gs, outs) := walk_all (at_node_each (nval gvc) c) (clos_init c) (each_positions (map nt trees)) in
  forall k, exists i ahead, calls (trees_next P) k (trees_new P) ⇓ Ok (map (nth_error outs) (seq 0 k), (i, ahead, tt)) /\
    (length outs < k -> closures coll_depth [0%N] (into_pipeline_each gvc trees) c i = gs).
Proof. intros Nd V gvc nt H A c; exact (chain_trees gvc nt H c). Qed.
Print Assumptions C39_trees.

Theorem C39_trees_binary : forall Nd V (gvcb : Nd -> V * (option Nd * option Nd)) bt, node_btree gvcb bt ->
  forall A (c : chain V A) trees, small_collection trees ->
  let P := each_chain_binary (into_pipeline_each_binary gvcb trees) c in
  let '(gs, outs) := bwalk_all (at_node_each (nval gvcb) c) (clos_init c) (each_bpositions (map bt trees)) in
  forall k, exists i ahead, calls (btrees_next P) k (trees_new P) ⇓ Ok (map (nth_error outs) (seq 0 k), (i, ahead, tt)) /\
    (length outs < k -> closures_binary coll_depth (into_pipeline_each_binary gvcb trees) c i = gs).
Proof. intros Nd V gvcb bt H A c; exact (bchain_trees gvcb bt H c). Qed.
Print Assumptions C39_trees_binary.

(** Closures without state: each tree on its own, in order. *)
Theorem C39_composition : forall Nd V (gvc : Nd -> V * list Nd) nt, node_tree gvc nt ->
  forall A (c : ops V A) trees, true_paths (stages c) = true -> small_collection trees ->
  (has_prune (stages c) = true -> (N.of_nat (length (flat_map (fun n => preorder (nt n)) trees)) <= usize_max)%N) ->
  let P := each_chain (into_pipeline_each gvc trees) (stages c) in
  yields (trees_next P) (trees_new P) (apply_ops_each c (map (fun n => tree_map (nval gvc) (nt n)) trees)).
Proof.
  intros Nd V gvc nt H A c trees Ht Hc Hb P k; pose proof (C39_trees Nd V gvc nt H A (stages c) trees Ht Hc Hb) as E.
  pose proof (each_ops (nval gvc) c (map nt trees) Ht (clos_init (stages c))) as X; rewrite map_map in X.
  cbv zeta in E; destruct (walk_all _ _ _) as [gs outs]; cbn [snd] in X; subst outs.
  destruct (E k) as (i & ahead & E' & _); eauto.
Qed.
Print Assumptions C39_composition.

Theorem C39_composition_binary : forall Nd V (gvcb : Nd -> V * (option Nd * option Nd)) bt, node_btree gvcb bt ->
  forall A (c : ops V A) trees, small_collection trees ->
  let P := each_chain_binary (into_pipeline_each_binary gvcb trees) (stages c) in
  yields (btrees_next P) (trees_new P) (bapply_ops_each c (map (fun n => btree_map (nval gvcb) (bt n)) trees)).
Proof.
  intros Nd V gvcb bt H A c trees Hc P k; pose proof (C39_trees_binary Nd V gvcb bt H A (stages c) trees Hc) as E.
  pose proof (each_bops (nval gvcb) c (map bt trees) (clos_init (stages c))) as X; rewrite map_map in X.
  cbv zeta in E; destruct (bwalk_all _ _ _) as [gs outs]; cbn [snd] in X; subst outs.
  destruct (E k) as (i & ahead & E' & _); eauto.
Qed.
Print Assumptions C39_composition_binary.

(** [map_each]: same shapes; the closure is run once per node, in preorder, tree after tree. *)
Theorem C39_map_each : forall Nd V (gvc : Nd -> V * list Nd) nt, node_tree gvc nt ->
  forall B G (f : G -> V -> G * B) g trees, small_collection trees ->
  exists outs g', Forall2 same_shape outs (map nt trees) /\
    map_accum f g (map (nval gvc) (flat_map preorder (map nt trees))) = (g', flat_map preorder outs) /\
    let P := map_each gvc f g trees in
    forall k, exists i ahead, calls (trees_next P) k (trees_new P) ⇓ Ok (map (nth_error outs) (seq 0 k), (i, ahead, tt)) /\
      (length outs < k -> snd i = g').
Proof.
  intros Nd V gvc nt H B G f g trees Hc.
  pose proof (C39_trees Nd V gvc nt H B (c_map c_start g f) trees eq_refl Hc ltac:(discriminate)) as E; cbv zeta in E.
  pose proof (walk_all_map_accum (nval gvc) f g (map nt trees) 0 (clos_init (c_map c_start g f))) as X; cbv zeta in X.
  fold (each_positions (map nt trees)) in X.
  destruct (walk_all _ _ _) as [gs outs]; cbn [fst snd] in X; destruct X as [X1 X2].
  exists outs, (snd gs); split; [exact X2|split; [exact X1|]]; intros P k; destruct (E k) as (i & ahead & E1 & E2).
  exists i, ahead; split; [exact E1|]; intros Hk; rewrite <- (E2 Hk); reflexivity.
Qed.
Print Assumptions C39_map_each.

Theorem C39_map_each_binary : forall Nd V (gvcb : Nd -> V * (option Nd * option Nd)) bt, node_btree gvcb bt ->
  forall B G (f : G -> V -> G * B) g trees, small_collection trees ->
  exists outs g', Forall2 bsame_shape outs (map bt trees) /\
    map_accum f g (map (nval gvcb) (flat_map (fun t => preorder (flat t)) (map bt trees))) = (g', flat_map (fun t => preorder (flat t)) outs) /\
    let P := map_each_binary gvcb f g trees in
    forall k, exists i ahead, calls (btrees_next P) k (trees_new P) ⇓ Ok (map (nth_error outs) (seq 0 k), (i, ahead, tt)) /\
      (length outs < k -> snd i = g').
Proof.
  intros Nd V gvcb bt H B G f g trees Hc.
  pose proof (C39_trees_binary Nd V gvcb bt H B (c_map c_start g f) trees Hc) as E; cbv zeta in E.
  pose proof (bwalk_all_map_accum (nval gvcb) f g (map bt trees) 0 (clos_init (c_map c_start g f))) as X; cbv zeta in X.
  fold (each_bpositions (map bt trees)) in X.
  destruct (bwalk_all _ _ _) as [gs outs]; cbn [fst snd] in X; destruct X as [X1 X2].
  exists outs, (snd gs); split; [exact X2|split; [exact X1|]]; intros P k; destruct (E k) as (i & ahead & E1 & E2).
  exists i, ahead; split; [exact E1|]; intros Hk; rewrite <- (E2 Hk); reflexivity.
Qed.
Print Assumptions C39_map_each_binary.

(** The other operations, closures without state. *)
Theorem C39_map_each_pure : forall Nd V (gvc : Nd -> V * list Nd) nt, node_tree gvc nt ->
  forall B (f : V -> B) trees, small_collection trees ->
  let P := map_each gvc (fun _ v => (tt, f v)) tt trees in
  yields (trees_next P) (trees_new P) (map (fun n => tree_map (fun m => f (nval gvc m)) (nt n)) trees).
Proof.
  intros Nd V gvc nt H B f trees Hc P; pose proof (C39_composition Nd V gvc nt H B (o_map o_start f) trees eq_refl Hc ltac:(discriminate)) as E.
  cbv zeta in E; rewrite each_map, map_map in E.
  rewrite (map_ext _ _ (fun n => tree_map_map (nval gvc) f (nt n))) in E; exact E.
Qed.
Print Assumptions C39_map_each_pure.

Theorem C39_map_each_pure_binary : forall Nd V (gvcb : Nd -> V * (option Nd * option Nd)) bt, node_btree gvcb bt ->
  forall B (f : V -> B) trees, small_collection trees ->
  let P := map_each_binary gvcb (fun _ v => (tt, f v)) tt trees in
  yields (btrees_next P) (trees_new P) (map (fun n => btree_map (fun m => f (nval gvcb m)) (bt n)) trees).
Proof.
  intros Nd V gvcb bt H B f trees Hc P; pose proof (C39_composition_binary Nd V gvcb bt H B (o_map o_start f) trees Hc) as E.
  cbv zeta in E; rewrite beach_map, map_map in E.
  rewrite (map_ext _ _ (fun n => btree_map_map (nval gvcb) f (bt n))) in E; exact E.
Qed.
Print Assumptions C39_map_each_pure_binary.

(** A tree whose root is pruned does not appear at all. *)
Theorem C39_prune_each : forall Nd V (gvc : Nd -> V * list Nd) nt, node_tree gvc nt ->
  forall (f : V -> bool) trees, small_collection trees -> (N.of_nat (length (flat_map (fun n => preorder (nt n)) trees)) <= usize_max)%N ->
  let P := prune_each gvc (fun _ v => (tt, f v)) tt trees in
  yields (trees_next P) (trees_new P) (flat_map (fun n => opt_list (prune_tree f (tree_map (nval gvc) (nt n)))) trees).
Proof.
  intros Nd V gvc nt H f trees Hc Hb P; pose proof (C39_composition Nd V gvc nt H V (o_prune o_start f) trees eq_refl Hc (fun _ => Hb)) as E.
  cbv zeta in E; rewrite each_prune, flat_map_concat_map, map_map, <- flat_map_concat_map in E; exact E.
Qed.
Print Assumptions C39_prune_each.

Theorem C39_prune_each_binary : forall Nd V (gvcb : Nd -> V * (option Nd * option Nd)) bt, node_btree gvcb bt ->
  forall (f : V -> bool) trees, small_collection trees ->
  let P := prune_each_binary gvcb (fun _ v => (tt, f v)) tt trees in
  yields (btrees_next P) (trees_new P) (flat_map (fun n => opt_list (bprune_tree f (btree_map (nval gvcb) (bt n)))) trees).
Proof.
  intros Nd V gvcb bt H f trees Hc P; pose proof (C39_composition_binary Nd V gvcb bt H V (o_prune o_start f) trees Hc) as E.
  cbv zeta in E; rewrite beach_prune, flat_map_concat_map, map_map, <- flat_map_concat_map in E; exact E.
Qed.
Print Assumptions C39_prune_each_binary.

(** Paths start with the index of the tree in the collection. *)
Theorem C39_prune_path_each : forall Nd V (gvc : Nd -> V * list Nd) nt, node_tree gvc nt ->
  forall (f : list N -> V -> bool) trees, small_collection trees -> (N.of_nat (length (flat_map (fun n => preorder (nt n)) trees)) <= usize_max)%N ->
  let P := prune_path_each gvc (fun _ p v => (tt, f p v)) tt trees in
  yields (trees_next P) (trees_new P)
    (concat (mapi (fun i n => opt_list (prune_at (fun p => f (map N.of_nat p)) [i] (tree_map (nval gvc) (nt n)))) 0 trees)).
Proof.
  intros Nd V gvc nt H f trees Hc Hb P; pose proof (C39_composition Nd V gvc nt H V (o_prune_path o_start f) trees eq_refl Hc (fun _ => Hb)) as E.
  cbv zeta in E; rewrite each_prune_path, mapi_map in E; exact E.
Qed.
Print Assumptions C39_prune_path_each.

Theorem C39_prune_path_each_binary : forall Nd V (gvcb : Nd -> V * (option Nd * option Nd)) bt, node_btree gvcb bt ->
  forall (f : list N -> V -> bool) trees, small_collection trees ->
  let P := prune_path_each_binary gvcb (fun _ p v => (tt, f p v)) tt trees in
  yields (btrees_next P) (trees_new P)
    (concat (mapi (fun i n => opt_list (bprune_at (fun p => f (map N.of_nat p)) [i] (btree_map (nval gvcb) (bt n)))) 0 trees)).
Proof.
  intros Nd V gvcb bt H f trees Hc P; pose proof (C39_composition_binary Nd V gvcb bt H V (o_prune_path o_start f) trees Hc) as E.
  cbv zeta in E; rewrite beach_prune_path, mapi_map in E; exact E.
Qed.
Print Assumptions C39_prune_path_each_binary.

(** Depths count from each root. *)
Theorem C39_prune_depth_each : forall Nd V (gvc : Nd -> V * list Nd) nt, node_tree gvc nt ->
  forall d trees, small_collection trees ->
  let P := prune_depth_each gvc d trees in
  yields (trees_next P) (trees_new P) (map (fun n => truncate (N.to_nat d) (tree_map (nval gvc) (nt n))) trees).
Proof.
  intros Nd V gvc nt H d trees Hc P; pose proof (C39_composition Nd V gvc nt H V (o_prune_depth o_start d) trees eq_refl Hc ltac:(discriminate)) as E.
  cbv zeta in E; rewrite each_truncate, map_map in E; exact E.
Qed.
Print Assumptions C39_prune_depth_each.

Theorem C39_prune_depth_each_binary : forall Nd V (gvcb : Nd -> V * (option Nd * option Nd)) bt, node_btree gvcb bt ->
  forall d trees, small_collection trees ->
  let P := prune_depth_each_binary gvcb d trees in
  yields (btrees_next P) (trees_new P) (map (fun n => btruncate (N.to_nat d) (btree_map (nval gvcb) (bt n))) trees).
Proof.
  intros Nd V gvcb bt H d trees Hc P; pose proof (C39_composition_binary Nd V gvcb bt H V (o_prune_depth o_start d) trees Hc) as E.
  cbv zeta in E; rewrite beach_truncate, map_map in E; exact E.
Qed.
Print Assumptions C39_prune_depth_each_binary.

(** The crate's own trees, no stage: the collection comes back as it was. *)
Theorem C39_round_trip : forall A (ts : list (tree A)) (bs : list (btree A)), small_collection ts -> small_collection bs ->
  yields (trees_next (into_pipeline_each tree_gvc ts)) (trees_new _) ts /\
  yields (btrees_next (into_pipeline_each_binary btree_gvcb bs)) (trees_new _) bs.
Proof.
  intros A ts bs Ht Hb; split.
  - pose proof (C39_composition _ _ _ _ (@node_tree_tree A) A o_start ts eq_refl Ht ltac:(discriminate)) as E; cbv zeta in E; rewrite each_start in E.
    rewrite (map_ext _ (fun t => t)), map_id in E; [exact E|].
    intros t; rewrite (tree_map_ext _ _ _ nval_tree), subtrees_root; reflexivity.
  - pose proof (C39_composition_binary _ _ _ _ (@node_btree_btree A) A o_start bs Hb) as E; cbv zeta in E; rewrite beach_start in E.
    rewrite (map_ext _ (fun t => t)), map_id in E; [exact E|].
    intros t; rewrite (btree_map_ext _ _ _ nval_btree), bsubtrees_root; reflexivity.
Qed.
Print Assumptions C39_round_trip.

Definition ex_each : list (tree nat) := [TNode 1 [TNode 2 [TNode 3 []]; TNode 4 []]; TNode 5 []; TNode 6 [TNode 7 []]].
Definition ex_beach : list (btree nat) := [BNode 1 None (Some (BNode 2 (Some (BNode 3 None None)) None)); BNode 5 None None; BNode 6 (Some (BNode 7 None None)) None].
Definition outs {A B} (r : Res (list (option A) * B)) : option (list (option A)) := match r with Ok (l, _) => Some l | _ => None end.
Definition ex_each_chain : chain nat nat :=
  c_prune (c_prune_depth (c_map (c_prune_path c_start [] (fun log p v => (log ++ [p], match p with [0%N; 1%N] => true | _ => false end))) 0 (fun g v => (g + 1, 10 * v + g))) 1) tt (fun _ v => (tt, v =? 53)).
Example C39_ex : small_collection ex_each /\ true_paths ex_each_chain = true /\
  (N.of_nat (length (flat_map (fun n => preorder (subtrees n)) ex_each)) <= usize_max)%N /\
  (let P := each_chain (into_pipeline_each tree_gvc ex_each) ex_each_chain in
   match calls (trees_next P) 4 (trees_new P) 40 with
   | Ok (l, (i, _, _)) => Some (l, closures coll_depth [0%N] (into_pipeline_each tree_gvc ex_each) ex_each_chain i)
   | _ => None
   end) = Some ([Some (TNode 10 [TNode 21 []]); Some (TNode 52 []); Some (TNode 63 [TNode 74 []]); None],
                (tt, [[0]; [0; 0]; [0; 1]; [1]; [2]; [2; 0]]%N, 5, tt)) /\
  (let P := prune_each tree_gvc (fun _ v => (tt, v =? 5)) tt ex_each in
   outs (calls (trees_next P) 3 (trees_new P) 40)) = Some [Some (TNode 1 [TNode 2 [TNode 3 []]; TNode 4 []]); Some (TNode 6 [TNode 7 []]); None] /\
  (let P := prune_path_each_binary btree_gvcb (fun log p v => (log ++ [p], v =? 3)) [] ex_beach in
   outs (calls (btrees_next P) 4 (trees_new P) 40)) =
   Some [Some (BNode 1 None (Some (BNode 2 None None))); Some (BNode 5 None None); Some (BNode 6 (Some (BNode 7 None None)) None); None].
Proof. split; [vm_compute; discriminate|]; split; [reflexivity|]; split; [vm_compute; discriminate|]; vm_compute; repeat split. Qed.

(** ** C40 folds *)

(** [fold_each]; after [k] calls the closure has been run on the first [k] trees, and on nothing else. *)
Theorem C40_fold_each : forall Nd V (gvc : Nd -> V * list Nd) nt, node_tree gvc nt ->
  forall G O (f : G -> list O -> V -> G * O) g trees, small_collection trees ->
  let P := into_pipeline_each gvc trees in
  let vals := map (fun n => tree_map (nval gvc) (nt n)) trees in
  forall k, exists i ahead, calls (cfold_next P f) k (consume_new P g) ⇓
    Ok (map (nth_error (snd (fold_all f g vals))) (seq 0 k), (i, ahead, fst (fold_all f g (firstn k vals)))).
Proof.
  intros Nd V gvc nt H G O f g trees Hc P vals k.
  pose proof (chain_fold_trees gvc nt H c_start trees eq_refl Hc ltac:(discriminate) G O f g) as E; cbv zeta in E.
  pose proof (each_ops (nval gvc) o_start (map nt trees) eq_refl tt) as X; rewrite each_start, map_map in X.
  change (clos_init c_start) with tt in E; cbn [stages] in X.
  destruct (walk_all _ _ _) as [gs os]; cbn [snd] in X; subst os.
  destruct (E k) as (i & ahead & E' & _); exists i, ahead; exact E'.
Qed.
Print Assumptions C40_fold_each.

Theorem C40_fold_each_binary : forall Nd V (gvcb : Nd -> V * (option Nd * option Nd)) bt, node_btree gvcb bt ->
  forall G O (f : G -> option O * option O -> V -> G * O) g trees, small_collection trees ->
  let P := into_pipeline_each_binary gvcb trees in
  let vals := map (fun n => btree_map (nval gvcb) (bt n)) trees in
  forall k, exists i ahead, calls (bcfold_next P f) k (consume_new P g) ⇓
    Ok (map (nth_error (snd (bfold_all f g vals))) (seq 0 k), (i, ahead, fst (bfold_all f g (firstn k vals)))).
Proof.
  intros Nd V gvcb bt H G O f g trees Hc P vals k.
  pose proof (bchain_fold_trees gvcb bt H c_start trees Hc G O f g) as E; cbv zeta in E.
  pose proof (each_bops (nval gvcb) o_start (map bt trees) tt) as X; rewrite beach_start, map_map in X.
  change (clos_init c_start) with tt in E; cbn [stages] in X.
  destruct (bwalk_all _ _ _) as [gs os]; cbn [snd] in X; subst os.
  destruct (E k) as (i & ahead & E' & _); exists i, ahead; exact E'.
Qed.
Print Assumptions C40_fold_each_binary.

(** Closures without state: the fold of each tree. *)
Lemma fold_all_pure {X O} (f : list O -> X -> O) ts : snd (fold_all (fun (_ : unit) os x => (tt, f os x)) tt ts) = map (fun t => snd (fold_up (fun (_ : unit) os x => (tt, f os x)) tt t)) ts.
Proof. induction ts as [|t ts IH]; [reflexivity|]; rewrite fold_all_cons; cbn [map]; destruct (fold_up _ tt t) as [[] o]; cbn [snd]; rewrite <- IH; destruct (fold_all _ tt ts); reflexivity. Qed.
Lemma bfold_all_pure {X O} (f : option O * option O -> X -> O) ts : snd (bfold_all (fun (_ : unit) os x => (tt, f os x)) tt ts) = map (fun t => snd (bfold_up (fun (_ : unit) os x => (tt, f os x)) tt t)) ts.
Proof. induction ts as [|t ts IH]; [reflexivity|]; cbn [map bfold_all]; destruct (bfold_up _ tt t) as [[] o]; cbn [snd]; rewrite <- IH; destruct (bfold_all _ tt ts); reflexivity. Qed.

Theorem C40_fold_each_pure : forall Nd V (gvc : Nd -> V * list Nd) nt, node_tree gvc nt ->
  forall O (f : list O -> V -> O) trees, small_collection trees ->
  yields (cfold_next (into_pipeline_each gvc trees) (fun _ os v => (tt, f os v))) (consume_new _ tt)
    (map (fun n => snd (fold_up (fun _ os v => (tt, f os v)) tt (tree_map (nval gvc) (nt n)))) trees).
Proof.
  intros Nd V gvc nt H O f trees Hc k; destruct (C40_fold_each Nd V gvc nt H unit O (fun _ os v => (tt, f os v)) tt trees Hc k) as (i & ahead & E).
  rewrite fold_all_pure, map_map in E; eauto.
Qed.
Print Assumptions C40_fold_each_pure.

Theorem C40_fold_each_pure_binary : forall Nd V (gvcb : Nd -> V * (option Nd * option Nd)) bt, node_btree gvcb bt ->
  forall O (f : option O * option O -> V -> O) trees, small_collection trees ->
  yields (bcfold_next (into_pipeline_each_binary gvcb trees) (fun _ os v => (tt, f os v))) (consume_new _ tt)
    (map (fun n => snd (bfold_up (fun _ os v => (tt, f os v)) tt (btree_map (nval gvcb) (bt n)))) trees).
Proof.
  intros Nd V gvcb bt H O f trees Hc k; destruct (C40_fold_each_binary Nd V gvcb bt H unit O (fun _ os v => (tt, f os v)) tt trees Hc k) as (i & ahead & E).
  rewrite bfold_all_pure, map_map in E; eauto.
Qed.
Print Assumptions C40_fold_each_pure_binary.

(** The closure is run in postorder, tree after tree, and only as far as needed. *)
Lemma fold_all_postorder {X O} (f : list O -> X -> O) ts : forall log, fst (fold_all (fun log os v => (log ++ [v], f os v)) log ts) = log ++ flat_map postorder ts.
Proof.
  induction ts as [|t ts IH]; intros log; [cbn; rewrite app_nil_r; reflexivity|]; rewrite fold_all_cons; cbn [flat_map].
  pose proof (fold_postorder f t log) as E; destruct (fold_up _ log t) as [l1 o]; cbn [fst] in E; subst l1.
  specialize (IH (log ++ postorder t)); destruct (fold_all _ _ ts); cbn [fst] in *; rewrite IH, app_assoc; reflexivity.
Qed.
Lemma bfold_all_postorder {X O} (f : option O * option O -> X -> O) ts : forall log, fst (bfold_all (fun log os v => (log ++ [v], f os v)) log ts) = log ++ flat_map (fun t => postorder (flat t)) ts.
Proof.
  induction ts as [|t ts IH]; intros log; [cbn; rewrite app_nil_r; reflexivity|]; cbn [bfold_all flat_map].
  pose proof (bfold_postorder f t log) as E; destruct (bfold_up _ log t) as [l1 o]; cbn [fst] in E; subst l1.
  specialize (IH (log ++ postorder (flat t))); destruct (bfold_all _ _ ts); cbn [fst] in *; rewrite IH, app_assoc; reflexivity.
Qed.

Theorem C40_fold_each_calls : forall Nd V (gvc : Nd -> V * list Nd) nt, node_tree gvc nt ->
  forall O (f : list O -> V -> O) trees, small_collection trees ->
  let P := into_pipeline_each gvc trees in
  forall k, exists l i ahead, calls (cfold_next P (fun log os v => (log ++ [v], f os v))) k (consume_new P []) ⇓
    Ok (l, (i, ahead, flat_map (fun n => map (nval gvc) (postorder (nt n))) (firstn k trees))).
Proof.
  intros Nd V gvc nt H O f trees Hc P k.
  destruct (C40_fold_each Nd V gvc nt H (list V) O (fun log os v => (log ++ [v], f os v)) [] trees Hc k) as (i & ahead & E).
  rewrite fold_all_postorder, firstn_map in E; cbn [app] in E.
  rewrite flat_map_concat_map, map_map in E.
  rewrite (map_ext _ _ (fun n => postorder_map (nval gvc) (nt n))), <- flat_map_concat_map in E; eauto.
Qed.
Print Assumptions C40_fold_each_calls.

Theorem C40_fold_each_calls_binary : forall Nd V (gvcb : Nd -> V * (option Nd * option Nd)) bt, node_btree gvcb bt ->
  forall O (f : option O * option O -> V -> O) trees, small_collection trees ->
  let P := into_pipeline_each_binary gvcb trees in
  forall k, exists l i ahead, calls (bcfold_next P (fun log os v => (log ++ [v], f os v))) k (consume_new P []) ⇓
    Ok (l, (i, ahead, flat_map (fun n => map (nval gvcb) (postorder (flat (bt n)))) (firstn k trees))).
Proof.
  intros Nd V gvcb bt H O f trees Hc P k.
  destruct (C40_fold_each_binary Nd V gvcb bt H (list V) O (fun log os v => (log ++ [v], f os v)) [] trees Hc k) as (i & ahead & E).
  rewrite bfold_all_postorder, firstn_map in E; cbn [app] in E.
  rewrite flat_map_concat_map, map_map in E.
  rewrite (map_ext _ (fun n => map (nval gvcb) (postorder (flat (bt n))))), <- flat_map_concat_map in E; [eauto|].
  intros n; rewrite flat_btree_map, postorder_map; reflexivity.
Qed.
Print Assumptions C40_fold_each_calls_binary.

(** [fold_trees] after a chain of stages: the folds of the trees that [trees] would give. *)
Theorem C40_fold_after_stages : forall Nd V (gvc : Nd -> V * list Nd) nt, node_tree gvc nt ->
  forall A (c : chain V A) trees, true_paths c = true -> small_collection trees ->
  (has_prune c = true -> (N.of_nat (length (flat_map (fun n => preorder (nt n)) trees)) <= usize_max)%N) ->
  forall G O (f : G -> list O -> A -> G * O) g,
  let P := each_chain (into_pipeline_each gvc trees) c in
  let '(gs, outs) := walk_all (at_node_each (nval gvc) c) (clos_init c) (each_positions (map nt trees)) in
  forall k, exists i ahead, calls (cfold_next P f) k (consume_new P g) ⇓
    Ok (map (nth_error (snd (fold_all f g outs))) (seq 0 k), (i, ahead, fst (fold_all f g (firstn k outs)))) /\
    (length outs < k -> closures coll_depth [0%N] (into_pipeline_each gvc trees) c i = gs).
Proof. intros Nd V gvc nt H A c; exact (chain_fold_trees gvc nt H c). Qed.
Print Assumptions C40_fold_after_stages.

Theorem C40_fold_after_stages_binary : forall Nd V (gvcb : Nd -> V * (option Nd * option Nd)) bt, node_btree gvcb bt ->
  forall A (c : chain V A) trees, small_collection trees ->
  forall G O (f : G -> option O * option O -> A -> G * O) g,
  let P := each_chain_binary (into_pipeline_each_binary gvcb trees) c in
  let '(gs, outs) := bwalk_all (at_node_each (nval gvcb) c) (clos_init c) (each_bpositions (map bt trees)) in
  forall k, exists i ahead, calls (bcfold_next P f) k (consume_new P g) ⇓
    Ok (map (nth_error (snd (bfold_all f g outs))) (seq 0 k), (i, ahead, fst (bfold_all f g (firstn k outs)))) /\
    (length outs < k -> closures_binary coll_depth (into_pipeline_each_binary gvcb trees) c i = gs).
Proof. intros Nd V gvcb bt H A c; exact (bchain_fold_trees gvcb bt H c). Qed.
Print Assumptions C40_fold_after_stages_binary.

(** [fold_path] after stages that remove no subtree by value or path: the paths in the resulting collection. *)
Theorem C40_fold_path_after_stages : forall Nd V (gvc : Nd -> V * list Nd) nt, node_tree gvc nt ->
  forall A (c : chain V A) trees, has_prune c = false -> small_collection trees -> Forall (fun n => small_nodes gvc (nt n)) trees ->
  forall G O (f : G -> list O -> list N -> A -> G * O) g,
  let P := each_chain (into_pipeline_each gvc trees) c in
  let outs := snd (walk_all (at_node_each (nval gvc) c) (clos_init c) (each_positions (map nt trees))) in
  let F := fun g os x => f g os (map N.of_nat (pos_path x)) (pos_here x) in
  forall k, exists i ahead, calls (cfoldp_next P f) k (consume_new P g) ⇓
    Ok (map (nth_error (snd (fold_all F g (each_positions outs)))) (seq 0 k), (i, ahead, fst (fold_all F g (firstn k (each_positions outs))))).
Proof.
  intros Nd V gvc nt H A c trees Hn Hc Hs G O f g P os F k.
  pose proof (chain_fold_path_trees gvc nt H c trees Hn Hc Hs G O f g) as E; cbv zeta in E.
  pose proof (fold_all_placed (nval gvc) c f (map nt trees) Hn 0 (clos_init c) g) as X; cbv zeta in X; fold (each_positions (map nt trees)) in X.
  subst os; rewrite walk_all_visx; cbn [snd].
  destruct (walk_all (with_node _) _ _) as [gs os]; cbn [fst snd] in *; fold (each_positions (map (tree_map fst) os)) in X; fold F in X.
  destruct (E k) as (i & ahead & E' & _); exists i, ahead.
  rewrite (X k) in E'.
  assert (Y : fold_all (with_path f) g os = fold_all F g (each_positions (map (tree_map fst) os))).
  { specialize (X (length os)); rewrite firstn_all in X; rewrite X; f_equal; apply firstn_all2.
    unfold each_positions; rewrite mapi_length, map_length; lia. }
  rewrite Y in E'; exact E'.
Qed.
Print Assumptions C40_fold_path_after_stages.

(** [fold_path_each]: paths with the tree's index first. *)
Lemma each_positions_relabel {A B} (h : A -> B) (ts : list (tree A)) : each_positions (map (tree_map h) ts) = map (tree_map (pos_map h)) (each_positions ts).
Proof.
  unfold each_positions; rewrite mapi_map; generalize 0 as j; induction ts as [|t ts IH]; intros j; [reflexivity|]; rewrite !mapi_cons; cbn [map].
  rewrite IH; f_equal; change (@nil B) with (map h []); rewrite annotate_map; reflexivity.
Qed.
Lemma each_bpositions_relabel {A B} (h : A -> B) (ts : list (btree A)) : each_bpositions (map (btree_map h) ts) = map (btree_map (pos_map h)) (each_bpositions ts).
Proof.
  unfold each_bpositions; rewrite mapi_map; generalize 0 as j; induction ts as [|t ts IH]; intros j; [reflexivity|]; rewrite !mapi_cons; cbn [map].
  rewrite IH; f_equal; change (@nil B) with (map h []); rewrite bannotate_map; reflexivity.
Qed.

Theorem C40_fold_path_each : forall Nd V (gvc : Nd -> V * list Nd) nt, node_tree gvc nt ->
  forall G O (f : G -> list O -> list N -> V -> G * O) g trees, small_collection trees -> Forall (fun n => small_nodes gvc (nt n)) trees ->
  let P := into_pipeline_each gvc trees in
  let F := fun g os x => f g os (map N.of_nat (pos_path x)) (nval gvc (pos_here x)) in
  let ts := each_positions (map nt trees) in
  forall k, exists i ahead, calls (cfoldp_next P f) k (consume_new P g) ⇓
    Ok (map (nth_error (snd (fold_all F g ts))) (seq 0 k), (i, ahead, fst (fold_all F g (firstn k ts)))).
Proof.
  intros Nd V gvc nt H G O f g trees Hc Hs P F ts k.
  destruct (C40_fold_path_after_stages Nd V gvc nt H V c_start trees eq_refl Hc Hs G O f g k) as (i & ahead & E); exists i, ahead.
  pose proof (each_ops (nval gvc) o_start (map nt trees) eq_refl tt) as X; rewrite each_start in X; cbn [stages] in X.
  change (clos_init c_start) with tt in E; rewrite X, each_positions_relabel, firstn_map, !fold_all_map in E; exact E.
Qed.
Print Assumptions C40_fold_path_each.

(** Binary, after any chain of stages: the path of each kept node is the one it had in the source collection (pruning
    moves neither sides nor, here, the indexes of the trees). *)
Theorem C40_fold_path_after_stages_binary : forall Nd V (gvcb : Nd -> V * (option Nd * option Nd)) bt, node_btree gvcb bt ->
  forall A (c : chain V A) trees, small_collection trees ->
  forall G O (f : G -> option O * option O -> list N -> A -> G * O) g,
  let P := each_chain_binary (into_pipeline_each_binary gvcb trees) c in
  let '(gs, outs) := bwalk_all (with_node (at_node_each (nval gvcb) c)) (clos_init c) (each_bpositions (map bt trees)) in
  forall k, exists i ahead, calls (bcfoldp_next P f) k (consume_new P g) ⇓
    Ok (map (nth_error (snd (bfold_all (with_path f) g outs))) (seq 0 k), (i, ahead, fst (bfold_all (with_path f) g (firstn k outs)))) /\
    (length outs < k -> closures_binary coll_depth (into_pipeline_each_binary gvcb trees) c i = gs).
Proof. intros Nd V gvcb bt H A c; exact (bchain_fold_path_trees gvcb bt H c). Qed.
Print Assumptions C40_fold_path_after_stages_binary.

Lemma bwalk_all_start {Nd V} (val : Nd -> V) (ts : list (btree (pos Nd))) :
  bwalk_all (with_node (at_node_each val c_start)) tt ts = (tt, map (btree_map (fun x => (val (pos_here x), x))) ts).
Proof.
  induction ts as [|t ts IH]; [reflexivity|]; cbn [bwalk_all map].
  pose proof (bwalk_pure (fun x => Keep (val (pos_here x), x) true) (with_node (at_node_each val c_start)) ltac:(reflexivity) t tt) as E.
  rewrite bpwalk_map in E; destruct (bwalk (with_node (at_node_each val c_start)) tt t) as [[] o]; cbn [snd] in E; subst o; rewrite IH; reflexivity.
Qed.

Theorem C40_fold_path_each_binary : forall Nd V (gvcb : Nd -> V * (option Nd * option Nd)) bt, node_btree gvcb bt ->
  forall G O (f : G -> option O * option O -> list N -> V -> G * O) g trees, small_collection trees ->
  let P := into_pipeline_each_binary gvcb trees in
  let F := fun g os x => f g os (map N.of_nat (pos_path x)) (nval gvcb (pos_here x)) in
  let ts := each_bpositions (map bt trees) in
  forall k, exists i ahead, calls (bcfoldp_next P f) k (consume_new P g) ⇓
    Ok (map (nth_error (snd (bfold_all F g ts))) (seq 0 k), (i, ahead, fst (bfold_all F g (firstn k ts)))).
Proof.
  intros Nd V gvcb bt H G O f g trees Hc P F ts k.
  pose proof (C40_fold_path_after_stages_binary Nd V gvcb bt H V c_start trees Hc G O f g) as E; cbv zeta in E.
  change (clos_init c_start) with tt in E; rewrite bwalk_all_start in E.
  destruct (E k) as (i & ahead & E' & _); exists i, ahead.
  rewrite firstn_map, !bfold_all_map in E'; exact E'.
Qed.
Print Assumptions C40_fold_path_each_binary.

(** n-ary after a prune: the wrong paths of C38 appear in collections as well. *)
Theorem C40_fold_path_after_prune_refuted :
  let t := TNode 0 [TNode 1 []; TNode 2 []] in
  let P := prune_each tree_gvc (fun _ _ => (tt, false)) tt [t] in
  (fun fuel => '(l, (_, _, log)) <- calls (cfoldp_next P (fun log (_ : list unit) p (_ : nat) => (log ++ [p], tt))) 2 (consume_new P []) fuel ;; Ok (l, log)) ⇓
    Ok ([Some tt; None], [[0; 0]; [0; 0]; [0]]%N) /\
  map (fun x => map N.of_nat (pos_path x)) (flat_map postorder (each_positions [t])) = [[0; 0]; [0; 1]; [0]]%N.
Proof.
  intros t P; subst t P; split; [|reflexivity].
  exists 20; intros f Hf; replace f with (20 + (f - 20)) by lia; generalize (f - 20) as k; intros k; vm_compute; reflexivity.
Qed.
Print Assumptions C40_fold_path_after_prune_refuted.

Example C40_ex : Forall (fun n => small_nodes tree_gvc (subtrees n)) ex_each /\
  (let P := into_pipeline_each tree_gvc ex_each in
   match calls (cfoldp_next P (fun log os p v => (log ++ [p], fold_right plus v os))) 4 (consume_new P []) 40 with
   | Ok (l, (_, _, log)) => Some (l, log) | _ => None end) =
   Some ([Some 10; Some 5; Some 13; None], [[0; 0; 0]; [0; 0]; [0; 1]; [0]; [1]; [2; 0]; [2]]%N) /\
  (let P := into_pipeline_each tree_gvc ex_each in
   match calls (cfold_next P (fun log os v => (log ++ [v], fold_right plus v os))) 2 (consume_new P []) 40 with
   | Ok (l, (_, ahead, log)) => Some (l, ahead, log) | _ => None end) = Some ([Some 10; Some 5], Some 6, [3; 2; 4; 1; 5]) /\
  (let P := into_pipeline_each_binary btree_gvcb ex_beach in
   match calls (bcfoldp_next P (fun log os p v => (log ++ [(p, os)], v))) 4 (consume_new P []) 40 with
   | Ok (l, (_, _, log)) => Some (l, log) | _ => None end) =
   Some ([Some 1; Some 5; Some 6; None],
     [([0; 1; 0]%N, (None, None)); ([0; 1]%N, (Some 3, None)); ([0]%N, (None, Some 2)); ([1]%N, (None, None)); ([2; 0]%N, (None, None)); ([2]%N, (Some 7, None))]).
Proof.
  split; [repeat constructor; cbv; discriminate|]; vm_compute; repeat split.
Qed.
