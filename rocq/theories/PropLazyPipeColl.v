(** * C55 over collections: what a pipeline over a collection of trees leaves out is never made

    As in PropLazyPipe.v, nothing is assumed about the children of a node.  A pass over the collection ([explored_kids] with the empty
    path, [bexplored_trees]; SpecExplore.v) goes through the trees one after the other; the path of a root is the index of its tree.
    [lct_log] is the record of the calls of [get_value_and_children] (ModelLazyPipe.v), last call first. *)
From Verif Require Import Prelim PrelimFacts Spec SpecFacts SpecObs SpecPipe SpecPipeColl SpecLazy SpecExplore ModelNode ModelPre ModelPipe ModelPipeColl ModelMapPath
  ModelLazyPipe ProofsLazyPipe ProofsLazyPipeColl PropLazyPipe.

Section C55.
  Context {Nd V C It : Type}.
  Variable gv : Nd -> V * C.
  Variable into_iter : C -> It.
  Variable poll : It -> option Nd * It.
  Local Notation explored_all visit g trees := (explored_kids gv into_iter poll visit g [] 0 trees).
  Local Notation pipeline trees c := (each_chain (lazy_pipeline_each gv into_iter poll trees) c).
  Local Notation closures_of trees c s := (closures coll_depth [0%N] (lazy_pipeline_each gv into_iter poll trees) c s).
  Local Notation asked trees c s := (rev (lct_log (chain_first coll_depth [0%N] (lazy_pipeline_each gv into_iter poll trees) c s))).

  (** C55.  [trees()] after any chain of stages: if the pass comes to an end, the calls give what it keeps, tree by tree, and then
      [None]; by then [get_value_and_children] has been called on the visited nodes, once each and in order, and on no other node. *)
  Theorem C55_each_trees : forall A (c : chain V A) trees gs seen outs, true_paths c = true -> small_collection trees ->
    (has_prune c = true -> (2 * N.of_nat (length seen) <= usize_max)%N) ->
    explored_all (visit_each gv c) (clos_init c) trees gs seen outs ->
    let P := pipeline trees c in
    forall k, exists s ahead, calls (trees_next P) k (trees_new P) ⇓ Ok (map (nth_error outs) (seq 0 k), (s, ahead, tt)) /\
      (length outs < k -> closures_of trees c s = gs /\ asked trees c s = seen).
  Proof. intros A c trees gs seen outs Ht Hc Hb He P; exact (lazy_each_trees gv into_iter poll c trees gs seen outs Ht Hc Hb He). Qed.

  (** C55.  [fold_trees] in place of [trees]. *)
  Theorem C55_each_fold : forall A (c : chain V A) trees gs seen outs, true_paths c = true -> small_collection trees ->
    (has_prune c = true -> (2 * N.of_nat (length seen) <= usize_max)%N) ->
    explored_all (visit_each gv c) (clos_init c) trees gs seen outs ->
    forall G O (f : G -> list O -> A -> G * O) g,
    let P := pipeline trees c in
    forall k, exists s ahead, calls (cfold_next P f) k (consume_new P g) ⇓
        Ok (map (nth_error (snd (fold_all f g outs))) (seq 0 k), (s, ahead, fst (fold_all f g (firstn k outs)))) /\
      (length outs < k -> closures_of trees c s = gs /\ asked trees c s = seen).
  Proof. intros A c trees gs seen outs Ht Hc Hb He G O f g P; exact (lazy_each_fold gv into_iter poll c f g trees gs seen outs Ht Hc Hb He). Qed.

  (** C55.  [fold_path]: the paths are those in the collection that the nodes come from (but see C38 for what comes after a [prune]). *)
  Theorem C55_each_fold_path : forall A (c : chain V A) trees gs seen outs, has_prune c = false -> small_collection trees ->
    (2 * N.of_nat (length seen) <= usize_max)%N ->
    explored_all (SpecExplore.with_path (visit_each gv c)) (clos_init c) trees gs seen outs ->
    forall G O (f : G -> list O -> list N -> A -> G * O) g,
    let f' := fun g os (ap : A * list nat) => f g os (map N.of_nat (snd ap)) (fst ap) in
    let P := pipeline trees c in
    forall k, exists s ahead, calls (cfoldp_next P f) k (consume_new P g) ⇓
        Ok (map (nth_error (snd (fold_all f' g outs))) (seq 0 k), (s, ahead, fst (fold_all f' g (firstn k outs)))) /\
      (length outs < k -> closures_of trees c s = gs /\ asked trees c s = seen).
  Proof. intros A c trees gs seen outs Hn Hc Hb He G O f g f' P; exact (lazy_each_fold_path gv into_iter poll c f g trees gs seen outs Hn Hc Hb He). Qed.

  (** C55.  [prune_depth d]: the trees may go on below depth [d] without end; the nodes up to depth [d] are asked once each, the others never. *)
  Theorem C55_each_prune_depth : forall d trees ts, small_collection trees -> Forall2 (up_to gv into_iter poll d) trees ts ->
    let c := c_prune_depth c_start (N.of_nat d) in
    let P := pipeline trees c in
    forall k, exists s ahead, calls (trees_next P) k (trees_new P) ⇓ Ok (map (nth_error (map (tree_map (nval gv)) ts)) (seq 0 k), (s, ahead, tt)) /\
      (length ts < k -> asked trees c s = flat_map preorder ts).
  Proof.
    intros d trees ts Hc H c P k.
    destruct (C55_each_trees V c trees tt _ _ eq_refl Hc ltac:(discriminate) (upto_kids_each gv into_iter poll d trees ts H 0) k) as (s & ahead & E & Hk).
    rewrite map_length in Hk; exists s, ahead; split; [exact E|]; intros Hlt; apply Hk; exact Hlt.
  Qed.

  (** A collection is explored in one way at most. *)
  Theorem C55_each_one_pass : forall G B (visit : G -> list nat -> Nd -> G * outcome B) g trees g1 seen1 o1 g2 seen2 o2,
    explored_all visit g trees g1 seen1 o1 -> explored_all visit g trees g2 seen2 o2 -> g1 = g2 /\ seen1 = seen2 /\ o1 = o2.
  Proof.
    intros G B visit g trees g1 seen1 o1 g2 seen2 o2 H1 H2.
    injection (proj2 (explored_det gv into_iter poll visit) _ _ _ _ _ _ _ H2 _ _ _ H1) as -> -> ->; auto.
  Qed.

  (** On finite trees the pass is [walk_all] (SpecPipe.v), in terms of which C39 and C40 are stated. *)
  Theorem C55_each_finite : forall trees ts, Forall2 (whole gv into_iter poll) trees ts -> forall A (c : chain V A),
    exists seen, explored_all (visit_each gv c) (clos_init c) trees (fst (walk_all (at_node_each (nval gv) c) (clos_init c) (each_positions ts))) seen
      (snd (walk_all (at_node_each (nval gv) c) (clos_init c) (each_positions ts))) /\ length seen <= length (flat_map preorder ts).
  Proof. intros trees ts H A c; exact (whole_kids_each gv into_iter poll c trees ts H (clos_init c) 0). Qed.
End C55.

Section C55_binary.
  Context {Nd V : Type}.
  Variable gvcb : Nd -> V * (option Nd * option Nd).
  Local Notation pipeline trees c := (each_chain_binary (lazy_pipeline_each_binary gvcb trees) c).
  Local Notation closures_of trees c s := (closures_binary coll_depth (lazy_pipeline_each_binary gvcb trees) c s).
  Local Notation asked trees c s := (rev (lct_log (chain_first_binary coll_depth (lazy_pipeline_each_binary gvcb trees) c s))).

  Theorem C55_each_trees_binary : forall A (c : chain V A) trees gs seen outs, small_collection trees ->
    bexplored_trees gvcb (visit_each gvcb c) (clos_init c) 0 trees gs seen outs ->
    let P := pipeline trees c in
    forall k, exists s ahead, calls (btrees_next P) k (trees_new P) ⇓ Ok (map (nth_error outs) (seq 0 k), (s, ahead, tt)) /\
      (length outs < k -> closures_of trees c s = gs /\ asked trees c s = seen).
  Proof. intros A c trees gs seen outs Hc He P; exact (blazy_each_trees gvcb c trees gs seen outs Hc He). Qed.

  Theorem C55_each_fold_binary : forall A (c : chain V A) trees gs seen outs, small_collection trees ->
    bexplored_trees gvcb (visit_each gvcb c) (clos_init c) 0 trees gs seen outs ->
    forall G O (f : G -> option O * option O -> A -> G * O) g,
    let P := pipeline trees c in
    forall k, exists s ahead, calls (bcfold_next P f) k (consume_new P g) ⇓
        Ok (map (nth_error (snd (bfold_all f g outs))) (seq 0 k), (s, ahead, fst (bfold_all f g (firstn k outs)))) /\
      (length outs < k -> closures_of trees c s = gs /\ asked trees c s = seen).
  Proof. intros A c trees gs seen outs Hc He G O f g P; exact (blazy_each_fold gvcb c f g trees gs seen outs Hc He). Qed.

  Theorem C55_each_fold_path_binary : forall A (c : chain V A) trees gs seen outs, small_collection trees ->
    bexplored_trees gvcb (SpecExplore.with_path (visit_each gvcb c)) (clos_init c) 0 trees gs seen outs ->
    forall G O (f : G -> option O * option O -> list N -> A -> G * O) g,
    let f' := fun g os (ap : A * list nat) => f g os (map N.of_nat (snd ap)) (fst ap) in
    let P := pipeline trees c in
    forall k, exists s ahead, calls (bcfoldp_next P f) k (consume_new P g) ⇓
        Ok (map (nth_error (snd (bfold_all f' g outs))) (seq 0 k), (s, ahead, fst (bfold_all f' g (firstn k outs)))) /\
      (length outs < k -> closures_of trees c s = gs /\ asked trees c s = seen).
  Proof. intros A c trees gs seen outs Hc He G O f g f' P; exact (blazy_each_fold_path gvcb c f g trees gs seen outs Hc He). Qed.

  (** Two children at most, so the nodes up to depth [d] are finitely many ([bcut], SpecLazy.v). *)
  Theorem C55_each_prune_depth_binary : forall d trees, small_collection trees ->
    let c := c_prune_depth c_start (N.of_nat d) in
    let P := pipeline trees c in
    forall k, exists s ahead, calls (btrees_next P) k (trees_new P) ⇓
        Ok (map (nth_error (map (fun n => btree_map (nval gvcb) (bcut gvcb d n)) trees)) (seq 0 k), (s, ahead, tt)) /\
      (length trees < k -> asked trees c s = flat_map (fun n => preorder (flat (bcut gvcb d n))) trees).
  Proof.
    intros d trees Hc c P k.
    destruct (C55_each_trees_binary V c trees tt _ _ Hc (bcut_trees_each gvcb d trees 0) k) as (s & ahead & E & Hk).
    rewrite map_length in Hk; exists s, ahead; split; [exact E|]; intros Hlt; apply Hk; exact Hlt.
  Qed.

  Theorem C55_each_one_pass_binary : forall G B (visit : G -> list nat -> Nd -> G * outcome B) g trees g1 seen1 o1 g2 seen2 o2,
    bexplored_trees gvcb visit g 0 trees g1 seen1 o1 -> bexplored_trees gvcb visit g 0 trees g2 seen2 o2 -> g1 = g2 /\ seen1 = seen2 /\ o1 = o2.
  Proof.
    intros G B visit g trees g1 seen1 o1 g2 seen2 o2 H1 H2.
    injection (bexplored_trees_det gvcb visit _ _ _ _ _ _ H2 _ _ _ H1) as -> -> ->; auto.
  Qed.

  Theorem C55_each_finite_binary : forall trees ts, Forall2 (bwhole gvcb) trees ts -> forall A (c : chain V A),
    exists seen, bexplored_trees gvcb (visit_each gvcb c) (clos_init c) 0 trees
      (fst (bwalk_all (at_node_each (nval gvcb) c) (clos_init c) (each_bpositions ts))) seen
      (snd (bwalk_all (at_node_each (nval gvcb) c) (clos_init c) (each_bpositions ts))).
  Proof. intros trees ts H A c; exact (bwhole_trees_each gvcb c trees ts H (clos_init c) 0). Qed.
End C55_binary.
Print Assumptions C55_each_trees.
Print Assumptions C55_each_fold.
Print Assumptions C55_each_fold_path.
Print Assumptions C55_each_prune_depth.
Print Assumptions C55_each_one_pass.
Print Assumptions C55_each_finite.
Print Assumptions C55_each_trees_binary.
Print Assumptions C55_each_fold_binary.
Print Assumptions C55_each_fold_path_binary.
Print Assumptions C55_each_prune_depth_binary.
Print Assumptions C55_each_one_pass_binary.
Print Assumptions C55_each_finite_binary.

(** ** Cases *)

(** The endless trees of PropLazyPipe.v below 1, 5 and 2: count the nodes, drop 5 and those above 8, drop one node by its path, stop at depth 2. *)
Definition ex_ce : chain nat nat :=
  c_prune (c_prune_path (c_prune_depth (c_map c_start 0 (fun g v => (g + 1, v))) 2) tt
    (fun g p v => (g, match p with [2%N; 0%N; 0%N] => true | _ => false end))) [] (fun g v => (v :: g, (8 <? v) || (v =? 5))).
Definition ex_seen_each := [1; 2; 4; 5; 3; 6; 7; 5; 2; 4; 8; 9; 5].
Definition ex_outs_each := [TNode 1 [TNode 2 [TNode 4 []]; TNode 3 [TNode 6 []; TNode 7 []]]; TNode 2 [TNode 4 []]].
Ltac ex_all := lazymatch goal with |- explored_kids _ _ _ _ _ _ _ [] _ _ _ => apply ek_nil | |- _ => eapply ek_cons; [ex_go|ex_all] end.
Ltac ex_pass_all := match goal with |- explored_kids ?gv ?ii ?po ?vi ?g ?p ?i ?ns ?g' ?se ?o =>
  let H := fresh in assert (H : exists g1 s1 o1, explored_kids gv ii po vi g p i ns g1 s1 o1 /\ (g1, s1, o1) = (g', se, o))
    by (do 3 eexists; split; [ex_all|reflexivity]); destruct H as (? & ? & ? & H & E); injection E as <- <- <-; exact H end.
Example C55_each_ex : true_paths ex_ce = true /\ small_collection [1; 5; 2] /\ (2 * N.of_nat (length ex_seen_each) <= usize_max)%N /\
  explored_kids ex_gv ex_into ex_poll (visit_each ex_gv ex_ce) (clos_init ex_ce) [] 0 [1; 5; 2] (tt, 13, tt, [5; 9; 4; 2; 5; 7; 6; 3; 5; 4; 2; 1]) ex_seen_each ex_outs_each /\
  match calls (trees_next (each_chain (lazy_pipeline_each ex_gv ex_into ex_poll [1; 5; 2]) ex_ce)) 3 (trees_new _) 100 with
  | Ok (l, (s, _, _)) => Some (l, rev (lct_log (chain_first coll_depth [0%N] (lazy_pipeline_each ex_gv ex_into ex_poll [1; 5; 2]) ex_ce s)))
  | _ => None
  end = Some (map Some ex_outs_each ++ [None], ex_seen_each).
Proof.
  split; [reflexivity|]; split; [vm_compute; discriminate|]; split; [vm_compute; discriminate|]; split; [|vm_compute; reflexivity].
  ex_pass_all.
Qed.

(** [prune_depth 1] below 2 and 3: node 5, one of the deepest looked at, has endlessly many children. *)
Example C55_each_prune_depth_ex : Forall2 (up_to ex_gv ex_into ex_poll 1) [2; 3] [TNode 2 [TNode 4 []; TNode 5 []]; TNode 3 [TNode 6 []; TNode 7 []]] /\
  match calls (trees_next (each_chain (lazy_pipeline_each ex_gv ex_into ex_poll [2; 3]) (c_prune_depth c_start 1))) 3 (trees_new _) 100 with Ok (l, _) => Some l | _ => None end
    = Some [Some (TNode 2 [TNode 4 []; TNode 5 []]); Some (TNode 3 [TNode 6 []; TNode 7 []]); None].
Proof.
  split; [|vm_compute; reflexivity].
  repeat constructor; [apply (up_to_S _ _ _ 0 2 [4; 5])|apply (up_to_S _ _ _ 0 3 [6; 7])]; try ex_two; repeat constructor.
Qed.

(** Folding with paths on what [prune_depth] leaves of endless trees. *)
Definition ex_cpe : chain nat nat := c_map (c_prune_depth c_start 1) 0 (fun g v => (g + v, 10 * v)).
Example C55_each_fold_path_ex : has_prune ex_cpe = false /\
  explored_kids ex_gv ex_into ex_poll (SpecExplore.with_path (visit_each ex_gv ex_cpe)) (clos_init ex_cpe) [] 0 [2; 3] (tt, 27) [2; 4; 5; 3; 6; 7]
    [TNode (20, [0]) [TNode (40, [0; 0]) []; TNode (50, [0; 1]) []]; TNode (30, [1]) [TNode (60, [1; 0]) []; TNode (70, [1; 1]) []]] /\
  match calls (cfoldp_next (each_chain (lazy_pipeline_each ex_gv ex_into ex_poll [2; 3]) ex_cpe) (fun g (os : list nat) p v => (g ++ [(p, v)], list_sum os + v))) 3 (consume_new _ []) 100 with
  | Ok (l, (_, _, g)) => Some (l, g)
  | _ => None
  end = Some ([Some 110; Some 160; None], [([0; 0]%N, 40); ([0; 1]%N, 50); ([0%N], 20); ([1; 0]%N, 60); ([1; 1]%N, 70); ([1%N], 30)]).
Proof. split; [reflexivity|]; split; [ex_pass_all|vm_compute; reflexivity]. Qed.

Example C55_each_binary_ex :
  bexplored_trees ex_gvcb (visit_each ex_gvcb ex_cb) (clos_init ex_cb) 0 [3; 5; 2] (tt, 9) [3; 6; 7; 5; 2; 4; 8; 9; 5] [BNode 3 None None; BNode 2 (Some (BNode 4 None None)) None] /\
  match calls (btrees_next (each_chain_binary (lazy_pipeline_each_binary ex_gvcb [3; 5; 2]) ex_cb)) 3 (trees_new _) 100 with
  | Ok (l, (s, _, _)) => Some (l, rev (lct_log (chain_first_binary coll_depth (lazy_pipeline_each_binary ex_gvcb [3; 5; 2]) ex_cb s)))
  | _ => None
  end = Some ([Some (BNode 3 None None); Some (BNode 2 (Some (BNode 4 None None)) None); None], [3; 6; 7; 5; 2; 4; 8; 9; 5]).
Proof.
  split; [|vm_compute; reflexivity].
  assert (H : exists g1 s1 o1, bexplored_trees ex_gvcb (visit_each ex_gvcb ex_cb) (clos_init ex_cb) 0 [3; 5; 2] g1 s1 o1 /\
    (g1, s1, o1) = ((tt, 9), [3; 6; 7; 5; 2; 4; 8; 9; 5], [BNode 3 None None; BNode 2 (Some (BNode 4 None None)) None]))
    by (do 3 eexists; split; [do 3 (eapply bet_cons; [bex_go|]); apply bet_nil|reflexivity]).
  destruct H as (? & ? & ? & H & E); injection E as <- <- <-; exact H.
Qed.
