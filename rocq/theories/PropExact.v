(** * Properties C38-C40: what n-ary chains with several prunes do exactly, and which paths they report.

    The paths which the n-ary [prune] and [prune_path] stages pass on are not the paths of the nodes (C38, refuted in
    PropPipe.v).  Here every n-ary chain is described, without the condition [true_paths]: [dvisit] and [drift] in
    SpecDrift.v say which path each closure is given.  The only condition is that the nodes can be counted in a usize. *)
From Verif Require Import Prelim PrelimFacts Spec SpecPipe SpecPipeColl SpecDrift SpecObs ModelNode ModelPre ModelPipe ModelPipeColl ProofsExact.

(** ** One tree *)
Theorem C38_collect_exact : forall Nd V (gvc : Nd -> V * list Nd) nt, node_tree gvc nt ->
  forall A (c : chain V A) n, has_prune c = true -> (N.of_nat (length (preorder (nt n))) <= usize_max)%N ->
  let '(gs, o) := walk (at_node_exact (nval gvc) c) (dclos_init [] c) (positions (nt n)) in
  exists s, collect_tree (tree_chain (into_pipeline gvc n) c) ⇓ Ok (o, s) /\
    closures tree_depth [] (into_pipeline gvc n) c s = dforget c gs.
Proof. intros Nd V gvc nt H A c n; exact (exact_collect gvc nt H c n). Qed.
Print Assumptions C38_collect_exact.

Theorem C38_fold_exact : forall Nd V (gvc : Nd -> V * list Nd) nt, node_tree gvc nt ->
  forall A (c : chain V A) n, has_prune c = true -> (N.of_nat (length (preorder (nt n))) <= usize_max)%N ->
  forall G O (f : G -> list O -> A -> G * O) g,
  let '(gs, o) := walk (at_node_exact (nval gvc) c) (dclos_init [] c) (positions (nt n)) in
  exists s, fold_tree (tree_chain (into_pipeline gvc n) c) f g ⇓
    Ok (option_map (fun t => snd (fold_up f g t)) o, match o with Some t => fst (fold_up f g t) | None => g end, s) /\
    closures tree_depth [] (into_pipeline gvc n) c s = dforget c gs.
Proof. intros Nd V gvc nt H A c n; exact (exact_fold gvc nt H c n). Qed.
Print Assumptions C38_fold_exact.

(** [fold_path]: the closure is given the reported paths. *)
Theorem C38_fold_path_exact : forall Nd V (gvc : Nd -> V * list Nd) nt, node_tree gvc nt ->
  forall A (c : chain V A) n, has_prune c = true -> (N.of_nat (length (preorder (nt n))) <= usize_max)%N ->
  forall G O (f : G -> list O -> list N -> A -> G * O) g,
  let '(gs, o) := walk (at_node_reported (nval gvc) c) (dclos_init [] c) (positions (nt n)) in
  exists s, fold_path (tree_chain (into_pipeline gvc n) c) f g ⇓
    Ok (option_map (fun t => snd (fold_up (given_path f) g t)) o, match o with Some t => fst (fold_up (given_path f) g t) | None => g end, s) /\
    closures tree_depth [] (into_pipeline gvc n) c s = dforget c gs.
Proof. intros Nd V gvc nt H A c n; exact (exact_fold_path gvc nt H c n). Qed.
Print Assumptions C38_fold_path_exact.

(** ** Read off the tree *)

(** [.prune_path(f).prune_path(g)]: [f] is given the path of the node; [g] is given a path in which each index is the
    number of the earlier siblings that both keep and that have children. *)
Theorem C38_prune_path_twice : forall Nd V (gvc : Nd -> V * list Nd) nt, node_tree gvc nt ->
  forall (f g : list N -> V -> bool) n, (N.of_nat (length (preorder (nt n))) <= usize_max)%N ->
  exists s, collect_tree (tree_chain (into_pipeline gvc n)
      (c_prune_path (c_prune_path c_start tt (fun _ p v => (tt, f p v))) tt (fun _ p v => (tt, g p v)))) ⇓
    Ok (option_map (tree_map fst) (two_prunes (fun p => f (map N.of_nat p)) (fun q => g (map N.of_nat q)) [] [] (tree_map (nval gvc) (nt n))), s).
Proof. intros Nd V gvc nt H; exact (two_prunes_collect gvc nt H). Qed.
Print Assumptions C38_prune_path_twice.

(** [.prune(f).fold_path(F)]: the same paths are given to [F]. *)
Theorem C38_prune_then_fold_path : forall Nd V (gvc : Nd -> V * list Nd) nt, node_tree gvc nt ->
  forall (f : V -> bool) n, (N.of_nat (length (preorder (nt n))) <= usize_max)%N ->
  forall G O (F : G -> list O -> list N -> V -> G * O) g,
  let o := two_prunes (fun _ => f) (fun _ _ => false) [] [] (tree_map (nval gvc) (nt n)) in
  let F' := fun g os (vq : V * list nat) => F g os (map N.of_nat (snd vq)) (fst vq) in
  exists s, fold_path (tree_chain (into_pipeline gvc n) (c_prune c_start tt (fun _ v => (tt, f v)))) F g ⇓
    Ok (option_map (fun t => snd (fold_up F' g t)) o, match o with Some t => fst (fold_up F' g t) | None => g end, s).
Proof. intros Nd V gvc nt H; exact (prune_fold_path gvc nt H). Qed.
Print Assumptions C38_prune_then_fold_path.

(** The values and the shape of that tree are those of the pruned tree. *)
Theorem C38_two_prunes_values : forall A (f : list nat -> A -> bool) (t : tree A) p q,
  option_map (tree_map fst) (two_prunes f (fun _ _ => false) p q t) = prune_at f p t.
Proof. intros A f t p q; exact (two_prunes_pruned f t p q). Qed.
Print Assumptions C38_two_prunes_values.

(** So the reported paths are the paths in the pruned tree exactly if, wherever nodes are kept, all kept children but
    the last have children in the original tree. *)
Theorem C38_paths_right_iff : forall Nd V (gvc : Nd -> V * list Nd) nt, node_tree gvc nt ->
  forall (f : V -> bool) n t', (N.of_nat (length (preorder (nt n))) <= usize_max)%N ->
  prune_tree f (tree_map (nval gvc) (nt n)) = Some t' ->
  ((exists s, fold_path (tree_chain (into_pipeline gvc n) (c_prune c_start tt (fun _ v => (tt, f v))))
       (fun log (_ : list unit) p _ => (log ++ [p], tt)) [] ⇓
       Ok (Some tt, map (fun x => map N.of_nat (pos_path x)) (postorder (positions t')), s)) <->
   no_early_leaf f (tree_map (nval gvc) (nt n))).
Proof. intros Nd V gvc nt H f n t'; exact (prune_paths_right gvc nt H f n t'). Qed.
Print Assumptions C38_paths_right_iff.

(** ** Collections *)
Theorem C39_trees_exact : forall Nd V (gvc : Nd -> V * list Nd) nt, node_tree gvc nt ->
  forall A (c : chain V A) trees, has_prune c = true -> small_collection trees ->
  (N.of_nat (length (flat_map (fun n => preorder (nt n)) trees)) <= usize_max)%N ->
  let P := each_chain (into_pipeline_each gvc trees) c in
  let '(gs, outs) := walk_all (at_node_each_exact (nval gvc) c) (dclos_init [0%N] c) (each_positions (map nt trees)) in
  forall k, exists i ahead, calls (trees_next P) k (trees_new P) ⇓ Ok (map (nth_error outs) (seq 0 k), (i, ahead, tt)) /\
    (length outs < k -> closures coll_depth [0%N] (into_pipeline_each gvc trees) c i = dforget c gs).
Proof. intros Nd V gvc nt H A c trees; exact (exact_trees gvc nt H c trees). Qed.
Print Assumptions C39_trees_exact.

Theorem C40_fold_each_exact : forall Nd V (gvc : Nd -> V * list Nd) nt, node_tree gvc nt ->
  forall A (c : chain V A) trees, has_prune c = true -> small_collection trees ->
  (N.of_nat (length (flat_map (fun n => preorder (nt n)) trees)) <= usize_max)%N ->
  forall G O (f : G -> list O -> A -> G * O) g,
  let P := each_chain (into_pipeline_each gvc trees) c in
  let '(gs, outs) := walk_all (at_node_each_exact (nval gvc) c) (dclos_init [0%N] c) (each_positions (map nt trees)) in
  forall k, exists i ahead, calls (cfold_next P f) k (consume_new P g) ⇓
    Ok (map (nth_error (snd (fold_all f g outs))) (seq 0 k), (i, ahead, fst (fold_all f g (firstn k outs)))) /\
    (length outs < k -> closures coll_depth [0%N] (into_pipeline_each gvc trees) c i = dforget c gs).
Proof. intros Nd V gvc nt H A c trees; exact (exact_fold_trees gvc nt H c trees). Qed.
Print Assumptions C40_fold_each_exact.

Theorem C40_fold_path_each_exact : forall Nd V (gvc : Nd -> V * list Nd) nt, node_tree gvc nt ->
  forall A (c : chain V A) trees, has_prune c = true -> small_collection trees ->
  (N.of_nat (length (flat_map (fun n => preorder (nt n)) trees)) <= usize_max)%N ->
  forall G O (f : G -> list O -> list N -> A -> G * O) g,
  let P := each_chain (into_pipeline_each gvc trees) c in
  let '(gs, outs) := walk_all (at_node_each_reported (nval gvc) c) (dclos_init [0%N] c) (each_positions (map nt trees)) in
  forall k, exists i ahead, calls (cfoldp_next P f) k (consume_new P g) ⇓
    Ok (map (nth_error (snd (fold_all (given_path f) g outs))) (seq 0 k), (i, ahead, fst (fold_all (given_path f) g (firstn k outs)))) /\
    (length outs < k -> closures coll_depth [0%N] (into_pipeline_each gvc trees) c i = dforget c gs).
Proof. intros Nd V gvc nt H A c trees; exact (exact_fold_path_trees gvc nt H c trees). Qed.
Print Assumptions C40_fold_path_each_exact.

(** ** The conditions are met, and the descriptions agree with runs of the model *)
Definition xt : tree nat := TNode 1 [TNode 2 []; TNode 3 [TNode 4 []; TNode 5 [TNode 6 []]; TNode 7 []]; TNode 8 []; TNode 9 [TNode 10 []]; TNode 11 []].

(** A prune, a map and a [prune_path] that logs the paths it is given: dropping 4 changes nothing, the paths stay wrong. *)
Definition xchain : chain nat nat :=
  c_prune_path (c_map (c_prune c_start tt (fun _ v => (tt, v =? 4))) tt (fun _ v => (tt, 2 * v))) [] (fun log p v => (log ++ [(N.of_nat v, p)], false)).
Example C38_ex_chain : has_prune xchain = true /\ true_paths xchain = false /\
  (let '(gs, o) := walk (at_node_exact (nval tree_gvc) xchain) (dclos_init [] xchain) (positions (subtrees xt)) in (snd (dforget xchain gs), o)) =
  ([(2, []); (4, [0]); (6, [0]); (10, [0; 0]); (12, [0; 0; 0]); (14, [0; 1]); (16, [1]); (18, [1]); (20, [1; 0]); (22, [2])]%N,
   Some (TNode 2 [TNode 4 []; TNode 6 [TNode 10 [TNode 12 []]; TNode 14 []]; TNode 16 []; TNode 18 [TNode 20 []]; TNode 22 []])) /\
  (match collect_tree (tree_chain (into_pipeline tree_gvc xt) xchain) 60 with
   | Ok (o, s) => Some (snd (closures tree_depth [] (into_pipeline tree_gvc xt) xchain s), o) | _ => None end) =
  Some (let '(gs, o) := walk (at_node_exact (nval tree_gvc) xchain) (dclos_init [] xchain) (positions (subtrees xt)) in (snd (dforget xchain gs), o)).
Proof. split; [reflexivity|]; split; [reflexivity|]; split; vm_compute; reflexivity. Qed.

(** The two paths differ: [g] cuts what it believes to be the child 1 of the root. *)
Example C38_ex_twice : option_map (tree_map fst) (two_prunes (fun _ _ => false) (fun q _ => match q with [1] => true | _ => false end) [] [] xt) =
  Some (TNode 1 [TNode 2 []; TNode 3 [TNode 4 []; TNode 5 [TNode 6 []]; TNode 7 []]]).
Proof. reflexivity. Qed.

(** Both sides of the equivalence occur. *)
Definition right_tree : tree nat := TNode 1 [TNode 2 [TNode 3 []]; TNode 4 [TNode 5 []]; TNode 6 []].
Example C38_ex_right : no_early_leaf (fun v => v =? 3) right_tree /\ ~ no_early_leaf (fun _ => false) xt /\
  prune_tree (fun v => v =? 3) right_tree = Some (TNode 1 [TNode 2 []; TNode 4 [TNode 5 []]; TNode 6 []]).
Proof.
  split; [|split; [|reflexivity]].
  - repeat (first [apply dropped_fine; reflexivity | apply early_kids; [reflexivity|split; [cbn; repeat (constructor; try discriminate)|]] | constructor]).
  - intros Hn; specialize (Hn xt (kept_root _ xt eq_refl)); cbn in Hn; inversion Hn as [|? ? Hx]; apply Hx; reflexivity.
Qed.

Example C40_ex_exact : small_collection [xt; right_tree] /\
  (let P := prune_each tree_gvc (fun _ v => (tt, v =? 4)) tt [xt; right_tree] in
   match calls (cfoldp_next P (fun log os p v => (log ++ [p], fold_right plus v os))) 3 (consume_new P []) 90 with
   | Ok (l, (_, _, log)) => Some (l, log) | _ => None end) =
  Some ([Some 62; Some 12; None],
    [[0; 0]; [0; 0; 0; 0]; [0; 0; 0]; [0; 0; 1]; [0; 0]; [0; 1]; [0; 1; 0]; [0; 1]; [0; 2]; [0]; [1; 0; 0]; [1; 0]; [1; 1]; [1]]%N) /\
  (let c := c_prune c_start tt (fun _ v => (tt, v =? 4)) in
   let outs := snd (walk_all (at_node_each_reported (nval tree_gvc) c) (dclos_init [0%N] c) (each_positions (map subtrees [xt; right_tree]))) in
   fold_all (given_path (fun log os p v => (log ++ [p], fold_right plus v os))) [] outs) =
  ([[0; 0]; [0; 0; 0; 0]; [0; 0; 0]; [0; 0; 1]; [0; 0]; [0; 1]; [0; 1; 0]; [0; 1]; [0; 2]; [0]; [1; 0; 0]; [1; 0]; [1; 1]; [1]]%N, [62; 12]).
Proof. split; [vm_compute; discriminate|]; split; vm_compute; reflexivity. Qed.
