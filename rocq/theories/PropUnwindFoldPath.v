(** * Property C61, continued: folds with paths over a collection when user code in the pipeline panics and the caller goes on. *)
From Verif Require Import Prelim PrelimFacts Spec SpecFacts ModelUnwind SpecUnwind SpecPipe SpecPipeColl SpecUnwindPipe SpecUnwindTrees SpecObs ModelNode NodeFacts
  ModelPre ModelPipe ModelPipeColl ModelUnwindPipe ModelUnwindPipeColl ModelUnwindTrees ProofsUnwind PipeCore PipeChain PipeEnd ProofsPipe ProofsPipeColl PipeCollFinal
  ProofsUnwindPipe ProofsUnwindPipeColl ProofsUnwindTrees ProofsUnwindFoldPath PropUnwindPipe PropUnwindPipeColl PropUnwindTrees.

Lemma chain_paths : forall Nd V (gvc : Nd -> option (V * list Nd)) nt, fnode_tree gvc nt ->
  forall A (c : uchain V A) trees, uhas_prune c = false -> small_collection trees ->
  (N.of_nat (length (flat_map (fun n => preorder (nt n)) trees)) <= usize_max)%N ->
  let os := snd (walk_all (with_node (uat_node_each (seen gvc) c)) (uclos_init c) (each_positions (map nt trees))) in
  let P := ueach_chain (uinto_pipeline_each gvc trees) c in
  forall k, exists s', calls (p_next P) k (p_init P) ⇓ Ok (map (nth_error (map fst (flat_map preorder os))) (seq 0 k), s') /\
    (forall i a x, k = S i -> nth_error (flat_map preorder os) i = Some (Got a, x) -> true_at (p_path P s') x).
Proof.
  intros Nd V gvc nt H A c trees Ht Hc Hb os P.
  pose proof (C60_each_chain_path Nd V gvc nt H A c trees Ht Hc Hb) as Hd.
  pose proof (walk_all_in (uat_node_each (seen gvc) c) (each_positions (map nt trees)) (uclos_init c)) as Hin.
  subst os; destruct (walk_all _ _ _) as [gs os]; cbn [snd] in *.
  intros k; destruct (Hd k) as (s' & Hk & Hp & _); exists s'; split; [exact Hk|].
  intros i a x Ei Ex; specialize (Hp i (Got a, x) Ei Ex); split; [exact Hp|].
  apply nth_error_In, Hin in Ex; rewrite each_positions_map in Ex.
  pose proof (each_rooted nt trees) as Hr; rewrite Forall_forall in Hr; apply Hr; exact Ex.
Qed.

(** Every result of every call of [fold_trees_path] with a closure that does not panic and whose results do not depend on its state: the trees
    are those of [C61_trees]; the path the closure gets for a node is made of the last segments of the paths of the nodes that are above it in that
    tree, and its own.  The trees that come out whole ([spared]) are folded with the paths of their nodes. *)
Theorem C61_fold_path : forall Nd V (gvc : Nd -> option (V * list Nd)) nt, fnode_tree gvc nt ->
  forall A (c : uchain V A) trees, uhas_prune c = false -> small_collection trees ->
  (N.of_nat (length (flat_map (fun n => preorder (nt n)) trees)) <= usize_max)%N ->
  forall G O (f : G -> list O -> list N -> A -> G * option O) h, (forall g os p v, snd (f g os p v) = Some (h os p v)) ->
  let os := snd (walk_all (with_node (uat_node_each (seen gvc) c)) (uclos_init c) (each_positions (map nt trees))) in
  let P := ueach_chain (uinto_pipeline_each gvc trees) c in
  forall g, exists us, Forall2 labelled us (handed [] (flat_map preorder os)) /\
    yields (ucfoldp_next P f) (uconsume_new P g) (map (outcome_map (fold_path_value h [])) us) /\
    sublist (map Got (map (fold_at h) (spared calm_at root_of os))) (map (outcome_map (fold_path_value h [])) us).
Proof.
  intros Nd V gvc nt H A c trees Ht Hc Hb G O f h Hf os P g.
  destruct (ucfoldp_yield f h Hf P _ g (chain_paths Nd V gvc nt H A c trees Ht Hc Hb)) as (us & Hy & HF); exists us; split; [exact HF|split; [exact Hy|]].
  assert (Hw : Forall (whole preorder calm_at root_of (path_tree_is h)) os).
  { subst os; rewrite each_positions_map; unfold walk_all; eapply Forall_impl; [|apply (each_below nt (uat_node_each (seen gvc) c) trees)].
    intros t Hi; apply whole_path, Hi. }
  apply (spared_whole _ _ _ _ (path_fits h) (fold_at h) os _ Hw); [apply path_made|apply fits_of; exact HF].
Qed.
Print Assumptions C61_fold_path.

Theorem C61_fold_path_binary : forall Nd V (gvcb : Nd -> option (V * (option Nd * option Nd))) bt, fnode_btree gvcb bt ->
  forall A (c : uchain V A) trees, small_collection trees ->
  forall G O (f : G -> option O * option O -> list N -> A -> G * option O) h, (forall g os p v, snd (f g os p v) = Some (h os p v)) ->
  let os := snd (bwalk_all (with_node (uat_node_each (seen gvcb) c)) (uclos_init c) (each_bpositions (map bt trees))) in
  let P := ueach_chain_binary (uinto_pipeline_each_binary gvcb trees) c in
  forall g, exists us, Forall2 labelled us (handed [] (flat_map preorder (map flat os))) /\
    yields (ubcfoldp_next P f) (uconsume_new P g) (map (outcome_map (fun u => bfold_path_value h [N.of_nat (label u)] (sides u))) us) /\
    sublist (map Got (map (bfold_at h) (spared bcalm_at broot_of os))) (map (outcome_map (fun u => bfold_path_value h [N.of_nat (label u)] (sides u))) us).
Proof.
  intros Nd V gvcb bt H A c trees Hc G O f h Hf os P g.
  destruct (ubcfoldp_yield f h Hf P _ g (bchain_reads Nd V gvcb bt H A c trees Hc)) as (us & Hy & HF); exists us; split; [exact HF|split; [exact Hy|]].
  assert (Hbel : Forall (fun t => exists i, bbelow [i] t) os) by apply beach_below.
  apply (spared_whole (fun t => preorder (flat t)) _ _ (path_btree_is h) (bpath_fits h) (bfold_at h)).
  - eapply Forall_impl; [|exact Hbel]; apply whole_binary_path.
  - apply bpath_made.
  - fold os in HF; rewrite flat_map_concat_map, map_map, <- flat_map_concat_map in HF; apply fits_of; exact HF.
Qed.
Print Assumptions C61_fold_path_binary.

(** After a panic the paths may be wrong: 5 is at [1; 0; 1], but the closure is given [1]. *)
Definition seen_paths (kids : list (list (nat * list N))) (p : list N) (v : nat) : list (nat * list N) := (v, p) :: concat kids.
Theorem C61_fold_path_refuted : let P := ueach_chain (uinto_pipeline_each odd_gvc odd_trees) u_start in
  exists s, calls (ucfoldp_next P (fun g kids p v => (S g, Some (seen_paths kids p v)))) 6 (uconsume_new P 0) 60 =
    Ok ([Some (Got [(1, [0%N]); (2, [0%N; 0%N])]); Some Unwound; Some (Got [(5, [1%N]); (6, [1%N; 1%N]); (7, [1%N; 1%N; 0%N])]); Some Unwound;
         Some (Got [(11, [4%N])]); None], s).
Proof. eexists; vm_compute; reflexivity. Qed.
Print Assumptions C61_fold_path_refuted.

Definition bseen_paths (kids : option (list (nat * list N)) * option (list (nat * list N))) (p : list N) (v : nat) : list (nat * list N) :=
  (v, p) :: match fst kids with Some l => l | None => [] end ++ match snd kids with Some l => l | None => [] end.
Example C61_fold_path_binary_ex : let P := ueach_chain_binary (uinto_pipeline_each_binary odd_gvcb odd_btrees) u_start in
  exists s, calls (ubcfoldp_next P (fun g kids p v => (S g, Some (bseen_paths kids p v)))) 5 (uconsume_new P 0) 60 =
    Ok ([Some (Got [(1, [0%N]); (2, [0%N; 1%N])]); Some Unwound; Some (Got [(5, [1%N]); (6, [1%N; 1%N]); (7, [1%N; 1%N; 1%N])]);
         Some (Got [(8, [2%N])]); None], s).
Proof. eexists; vm_compute; reflexivity. Qed.
