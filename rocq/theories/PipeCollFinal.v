(** * PipeCollFinal: the collection pipelines, from chain to consumer. *)
From Verif Require Import Prelim PrelimFacts Spec SpecFacts SpecPipe SpecPipeColl SpecObs ModelNode NodeFacts ModelPre ModelPipe ModelPipeColl
  ProofsPlain PipeCore PipeBase PipeChain PipeEnd ProofsPipe PipeFinal PipePure PipeSpecFacts PipeOps PipeCollBase PipeCollEnd ProofsPipeColl.

Lemma walk_all_cons {G X A} (vis : G -> X -> G * outcome A) g t ts :
  walk_all vis g (t :: ts) = let '(g1, o) := walk vis g t in let '(g2, os) := walk_all vis g1 ts in (g2, opt_list o ++ os).
Proof. reflexivity. Qed.

Lemma walk_all_visx {G X A} (vis : G -> X -> G * outcome A) ts : forall g,
  walk_all vis g ts = (fst (walk_all (with_node vis) g ts), map (tree_map fst) (snd (walk_all (with_node vis) g ts))).
Proof.
  induction ts as [|t ts IH]; intros g; [reflexivity|]; rewrite !walk_all_cons, walk_visx.
  destruct (walk (with_node vis) g t) as [g1 o]; rewrite IH; destruct (walk_all (with_node vis) g1 ts) as [g2 os]; cbn [fst snd].
  rewrite map_app; destruct o; reflexivity.
Qed.

Lemma bwalk_all_visx {G X A} (vis : G -> X -> G * outcome A) ts : forall g,
  bwalk_all vis g ts = (fst (bwalk_all (with_node vis) g ts), map (btree_map fst) (snd (bwalk_all (with_node vis) g ts))).
Proof.
  induction ts as [|t ts IH]; intros g; [reflexivity|]; cbn [bwalk_all]; rewrite bwalk_visx.
  destruct (bwalk (with_node vis) g t) as [g1 o]; rewrite IH; destruct (bwalk_all (with_node vis) g1 ts) as [g2 os]; cbn [fst snd].
  rewrite map_app; destruct o; reflexivity.
Qed.

Lemma pok_len1_any (b : bool) Nd : forall p (x : pos Nd), (if b then pok_len1 else pok_exact1) p x -> pok_len1 p x.
Proof. intros p x; destruct b; [auto|]; intros Hp; apply pok_exact1_facts in Hp; tauto. Qed.
Lemma exact1_len1 Nd : forall p (x : pos Nd), pok_exact1 p x -> pok_len1 p x.
Proof. intros p x Hp; apply pok_exact1_facts in Hp; tauto. Qed.
Lemma exact1_path Nd : forall p (x : pos Nd), pok_exact1 p x -> p = xpath x.
Proof. intros p x Hp; apply pok_exact1_facts in Hp; tauto. Qed.

Lemma fold_all_cons {G X O} (f : G -> list O -> X -> G * O) g t ts :
  fold_all f g (t :: ts) = let '(g1, o) := fold_up f g t in let '(g2, os) := fold_all f g1 ts in (g2, o :: os).
Proof. reflexivity. Qed.

Lemma fold_all_map {G X Y O} (f : G -> list O -> Y -> G * O) (h : X -> Y) ts : forall g,
  fold_all f g (map (tree_map h) ts) = fold_all (fun g os x => f g os (h x)) g ts.
Proof.
  induction ts as [|t ts IH]; intros g; [reflexivity|]; cbn [map]; rewrite !fold_all_cons, fold_up_map.
  destruct (fold_up _ g t); rewrite IH; reflexivity.
Qed.
Lemma bfold_all_map {G X Y O} (f : G -> option O * option O -> Y -> G * O) (h : X -> Y) ts : forall g,
  bfold_all f g (map (btree_map h) ts) = bfold_all (fun g os x => f g os (h x)) g ts.
Proof.
  induction ts as [|t ts IH]; intros g; [reflexivity|]; cbn [map bfold_all]; rewrite bfold_up_map.
  destruct (bfold_up _ g t); rewrite IH; reflexivity.
Qed.
Lemma fold_all_ext_in {G X O} (f f' : G -> list O -> X -> G * O) ts :
  (forall g os x, In x (flat_map preorder ts) -> f g os x = f' g os x) -> forall g, fold_all f g ts = fold_all f' g ts.
Proof.
  induction ts as [|t ts IH]; intros He g; [reflexivity|]; rewrite !fold_all_cons.
  rewrite (fold_up_ext_in f f') by (intros; apply He; cbn; apply in_or_app; auto).
  destruct (fold_up f' g t); rewrite IH; [reflexivity|]; intros; apply He; cbn; apply in_or_app; auto.
Qed.
Lemma bfold_all_ext_in {G X O} (f f' : G -> option O * option O -> X -> G * O) ts :
  (forall g os x, In x (flat_map preorder (map flat ts)) -> f g os x = f' g os x) -> forall g, bfold_all f g ts = bfold_all f' g ts.
Proof.
  induction ts as [|t ts IH]; intros He g; [reflexivity|]; cbn [bfold_all].
  rewrite (bfold_up_ext_in f f') by (intros; apply He; cbn; apply in_or_app; auto).
  destruct (bfold_up f' g t); rewrite IH; [reflexivity|]; intros; apply He; cbn; apply in_or_app; auto.
Qed.

Lemma walk_all_in {G X A} (vis : G -> X -> G * outcome A) ts g ax :
  In ax (flat_map preorder (snd (walk_all (with_node vis) g ts))) -> In (snd ax) (flat_map preorder ts).
Proof. apply walk_list_in; apply Forall_forall; intros t _; apply walk_in. Qed.

Lemma in_firstn {X} (x : X) k l : In x (firstn k l) -> In x l.
Proof. intros Hi; rewrite <- (firstn_skipn k l); apply in_or_app; auto. Qed.
Lemma in_flat_firstn {X Y} (f : X -> list Y) y k l : In y (flat_map f (firstn k l)) -> In y (flat_map f l).
Proof. intros Hi; apply in_flat_map in Hi as (x & Hx & Hy); apply in_flat_map; exists x; split; [eapply in_firstn; eauto|exact Hy]. Qed.

Section Nary.
  Context {Nd V : Type} (gvc : Nd -> V * list Nd) (nt : Nd -> tree Nd).
  Hypothesis H : node_tree gvc nt.

  Lemma chain_trees {A} (c : chain V A) trees : true_paths c = true -> small_collection trees ->
    (has_prune c = true -> (N.of_nat (length (flat_map (fun n => preorder (nt n)) trees)) <= usize_max)%N) ->
    let P := each_chain (into_pipeline_each gvc trees) c in
    let '(gs, outs) := walk_all (at_node_each (nval gvc) c) (clos_init c) (each_positions (map nt trees)) in
    forall k, exists i ahead, calls (trees_next P) k (trees_new P) ⇓ Ok (map (nth_error outs) (seq 0 k), (i, ahead, tt)) /\
      (length outs < k -> closures coll_depth [0%N] (into_pipeline_each gvc trees) c i = gs).
  Proof.
    intros Ht Hc Hb P; destruct (each_items gvc nt H c trees Ht Hc Hb) as (Dn & Hd & Hcl & Hbw & iend & Hend & Hi).
    rewrite walk_all_visx; intros k; rewrite map_length.
    destruct (trees_all P _ (pok_len1_any _ Nd) Dn Hd _ iend Hbw Hend Hi k) as (i & ahead & E & Hk).
    exists i, ahead; split; [exact E|]; intros Hlt; apply Hcl; auto.
  Qed.

  Lemma chain_fold_trees {A} (c : chain V A) trees : true_paths c = true -> small_collection trees ->
    (has_prune c = true -> (N.of_nat (length (flat_map (fun n => preorder (nt n)) trees)) <= usize_max)%N) ->
    forall G O (f : G -> list O -> A -> G * O) g,
    let P := each_chain (into_pipeline_each gvc trees) c in
    let '(gs, outs) := walk_all (at_node_each (nval gvc) c) (clos_init c) (each_positions (map nt trees)) in
    forall k, exists i ahead, calls (cfold_next P f) k (consume_new P g) ⇓
      Ok (map (nth_error (snd (fold_all f g outs))) (seq 0 k), (i, ahead, fst (fold_all f g (firstn k outs)))) /\
      (length outs < k -> closures coll_depth [0%N] (into_pipeline_each gvc trees) c i = gs).
  Proof.
    intros Ht Hc Hb G O f g P; destruct (each_items gvc nt H c trees Ht Hc Hb) as (Dn & Hd & Hcl & Hbw & iend & Hend & Hi).
    rewrite walk_all_visx; intros k; rewrite map_length.
    destruct (cfold_all P _ (pok_len1_any _ Nd) Dn Hd f _ iend g Hbw Hend Hi k) as (i & ahead & E & Hk).
    exists i, ahead; split; [|intros Hlt; apply Hcl; auto].
    rewrite firstn_map, !fold_all_map; exact E.
  Qed.

  Lemma chain_fold_path_trees {A} (c : chain V A) trees : has_prune c = false -> small_collection trees ->
    Forall (fun n => small_nodes gvc (nt n)) trees ->
    forall G O (f : G -> list O -> list N -> A -> G * O) g,
    let P := each_chain (into_pipeline_each gvc trees) c in
    let '(gs, outs) := walk_all (with_node (at_node_each (nval gvc) c)) (clos_init c) (each_positions (map nt trees)) in
    forall k, exists i ahead, calls (cfoldp_next P f) k (consume_new P g) ⇓
      Ok (map (nth_error (snd (fold_all (with_path f) g outs))) (seq 0 k), (i, ahead, fst (fold_all (with_path f) g (firstn k outs)))) /\
      (length outs < k -> closures coll_depth [0%N] (into_pipeline_each gvc trees) c i = gs).
  Proof.
    intros Hn Hc Hs G O f g P.
    assert (Ht : true_paths c = true) by (clear - Hn; induction c; cbn in *; try discriminate; auto).
    destruct (each_items gvc nt H c trees Ht Hc ltac:(congruence)) as (Dn & Hd & Hcl & Hbw & iend & Hend & Hi); rewrite Hn in Hi.
    pose proof (walk_all_in (at_node_each (nval gvc) c) (each_positions (map nt trees)) (clos_init c)) as Hin.
    destruct (walk_all (with_node (at_node_each (nval gvc) c)) (clos_init c) (each_positions (map nt trees))) as [gs outs]; cbn [fst snd] in *.
    intros k; destruct (cfoldp_all P _ (exact1_len1 Nd) Dn Hd (exact1_path Nd) f _ iend g Hbw Hend Hi k) as (i & ahead & E & Hk).
    exists i, ahead; split; [|intros Hlt; apply Hcl; auto].
    assert (X : forall g os ax, In ax (flat_map preorder outs) -> with_path f g os ax = f g os (xpath (snd ax)) (fst ax)).
    { intros g0 os ax Hax; unfold with_path; rewrite (each_xpath_small gvc nt H trees (snd ax) Hc Hs); [reflexivity|].
      rewrite <- each_positions_map; apply Hin; exact Hax. }
    rewrite (fold_all_ext_in (with_path f) (fun g os ax => f g os (xpath (snd ax)) (fst ax)) outs X).
    rewrite (fold_all_ext_in (with_path f) (fun g os ax => f g os (xpath (snd ax)) (fst ax)) (firstn k outs)); [exact E|].
    intros g0 os ax Hax; apply X; eapply in_flat_firstn; exact Hax.
  Qed.
End Nary.

Section Binary.
  Context {Nd V : Type} (gvcb : Nd -> V * (option Nd * option Nd)) (bt : Nd -> btree Nd).
  Hypothesis H : node_btree gvcb bt.

  Lemma bchain_trees {A} (c : chain V A) trees : small_collection trees ->
    let P := each_chain_binary (into_pipeline_each_binary gvcb trees) c in
    let '(gs, outs) := bwalk_all (at_node_each (nval gvcb) c) (clos_init c) (each_bpositions (map bt trees)) in
    forall k, exists i ahead, calls (btrees_next P) k (trees_new P) ⇓ Ok (map (nth_error outs) (seq 0 k), (i, ahead, tt)) /\
      (length outs < k -> closures_binary coll_depth (into_pipeline_each_binary gvcb trees) c i = gs).
  Proof.
    intros Hc P; destruct (beach_items gvcb bt H c trees Hc) as (Dn & Hd & Hcl & Hbw & iend & Hend & Hi).
    rewrite bwalk_all_visx; intros k; rewrite map_length.
    destruct (btrees_all P _ (exact1_len1 Nd) Dn Hd (exact1_path Nd) _ iend Hbw Hend Hi k) as (i & ahead & E & Hk).
    exists i, ahead; split; [exact E|]; intros Hlt; apply Hcl; auto.
  Qed.

  Lemma bchain_fold_trees {A} (c : chain V A) trees : small_collection trees ->
    forall G O (f : G -> option O * option O -> A -> G * O) g,
    let P := each_chain_binary (into_pipeline_each_binary gvcb trees) c in
    let '(gs, outs) := bwalk_all (at_node_each (nval gvcb) c) (clos_init c) (each_bpositions (map bt trees)) in
    forall k, exists i ahead, calls (bcfold_next P f) k (consume_new P g) ⇓
      Ok (map (nth_error (snd (bfold_all f g outs))) (seq 0 k), (i, ahead, fst (bfold_all f g (firstn k outs)))) /\
      (length outs < k -> closures_binary coll_depth (into_pipeline_each_binary gvcb trees) c i = gs).
  Proof.
    intros Hc G O f g P; destruct (beach_items gvcb bt H c trees Hc) as (Dn & Hd & Hcl & Hbw & iend & Hend & Hi).
    rewrite bwalk_all_visx; intros k; rewrite map_length.
    destruct (bcfold_all P _ (exact1_len1 Nd) Dn Hd (exact1_path Nd) f _ iend g Hbw Hend Hi k) as (i & ahead & E & Hk).
    exists i, ahead; split; [|intros Hlt; apply Hcl; auto].
    rewrite firstn_map, !bfold_all_map; exact E.
  Qed.

  Lemma bchain_fold_path_trees {A} (c : chain V A) trees : small_collection trees ->
    forall G O (f : G -> option O * option O -> list N -> A -> G * O) g,
    let P := each_chain_binary (into_pipeline_each_binary gvcb trees) c in
    let '(gs, outs) := bwalk_all (with_node (at_node_each (nval gvcb) c)) (clos_init c) (each_bpositions (map bt trees)) in
    forall k, exists i ahead, calls (bcfoldp_next P f) k (consume_new P g) ⇓
      Ok (map (nth_error (snd (bfold_all (with_path f) g outs))) (seq 0 k), (i, ahead, fst (bfold_all (with_path f) g (firstn k outs)))) /\
      (length outs < k -> closures_binary coll_depth (into_pipeline_each_binary gvcb trees) c i = gs).
  Proof.
    intros Hc G O f g P.
    destruct (beach_items gvcb bt H c trees Hc) as (Dn & Hd & Hcl & Hbw & iend & Hend & Hi).
    assert (Hin : forall ax, In ax (flat_map preorder (map flat (snd (bwalk_all (with_node (at_node_each (nval gvcb) c)) (clos_init c) (each_bpositions (map bt trees)))))) ->
              In (snd ax) (flat_map preorder (map flat (each_bpositions (map bt trees))))).
    { intros ax Hax; eapply walk_all_in; rewrite walk_all_flat; exact Hax. }
    destruct (bwalk_all (with_node (at_node_each (nval gvcb) c)) (clos_init c) (each_bpositions (map bt trees))) as [gs outs]; cbn [fst snd] in *.
    intros k; destruct (bcfoldp_all P _ (exact1_len1 Nd) Dn Hd (exact1_path Nd) f _ iend g Hbw Hend Hi k) as (i & ahead & E & Hk).
    exists i, ahead; split; [|intros Hlt; apply Hcl; auto].
    assert (X : forall g os ax, In ax (flat_map preorder (map flat outs)) -> with_path f g os ax = f g os (xpath (snd ax)) (fst ax)).
    { intros g0 os ax Hax; unfold with_path; rewrite (beach_xpath bt trees (snd ax) Hc); [reflexivity|].
      rewrite <- each_bpositions_map; apply Hin; exact Hax. }
    rewrite (bfold_all_ext_in (with_path f) (fun g os ax => f g os (xpath (snd ax)) (fst ax)) outs X).
    rewrite (bfold_all_ext_in (with_path f) (fun g os ax => f g os (xpath (snd ax)) (fst ax)) (firstn k outs)); [exact E|].
    intros g0 os ax Hax; apply X; rewrite <- firstn_map in Hax; eapply in_flat_firstn; exact Hax.
  Qed.
End Binary.

(** ** Closures without state *)
Ltac by_stage IH :=
  match goal with |- snd (match ?m with _ => _ end) = snd (match ?m' with _ => _ end) =>
    let E := fresh in let o := fresh "o" in let o' := fresh "o'" in
    assert (E : snd m = snd m') by apply IH; destruct m as [? o], m' as [? o']; cbn in E; subst o'; destruct o; reflexivity
  end.
Lemma stages_pure {V A} (c : ops V A) gs gs' p d v : snd (visit_node (stages c) gs p d v) = snd (visit_node (stages c) gs' p d v).
Proof.
  induction c as [|A B c IH f|A c IH f|A c IH f|A c IH lim]; cbn [stages visit_node clos] in *.
  - reflexivity.
  - by_stage IH.
  - by_stage IH.
  - by_stage IH.
  - by_stage IH.
Qed.

Lemma stages_for_tree {V A} (c : ops V A) i gs gs' p d v :
  snd (visit_node (stages c) gs (N.of_nat i :: p) d v) = snd (visit_node (stages (for_tree i c)) gs' p d v).
Proof.
  induction c as [|A B c IH f|A c IH f|A c IH f|A c IH lim]; cbn [stages for_tree visit_node clos] in *.
  - reflexivity.
  - by_stage IH.
  - by_stage IH.
  - by_stage IH.
  - by_stage IH.
Qed.

Lemma for_tree_paths {V A} (c : ops V A) i : true_paths (stages (for_tree i c)) = true_paths (stages c) /\ has_prune (stages (for_tree i c)) = has_prune (stages c).
Proof. induction c as [|A B c IH f|A c IH f|A c IH f|A c IH lim]; cbn; [split; reflexivity|..]; destruct IH as [E1 E2]; rewrite ?E1, ?E2; split; reflexivity. Qed.

Definition under {A} (i : nat) (x : pos A) : pos A := mkPos (i :: pos_path x) (pos_above x) (pos_here x).
Lemma annotate_under {A} i (t : tree A) : forall p ab, annotate (i :: p) ab t = tree_map (under i) (annotate p ab t).
Proof.
  induction t as [v ts IH] using tree_ind'; intros p ab; cbn [annotate tree_map]; f_equal.
  generalize 0 as j; induction IH as [|t ts Ht _ IHl]; intros j; [reflexivity|]; rewrite !mapi_cons; cbn [map]; f_equal; [|apply IHl].
  rewrite <- Ht; reflexivity.
Qed.
Lemma bannotate_under {A} i (t : btree A) : forall p ab, bannotate (i :: p) ab t = btree_map (under i) (bannotate p ab t).
Proof.
  induction t as [v l r IHl IHr] using btree_ind'; intros p ab; cbn [bannotate btree_map]; f_equal; [destruct l|destruct r]; cbn in *; auto; f_equal.
  - rewrite <- IHl; reflexivity.
  - rewrite <- IHr; reflexivity.
Qed.

Section Pure.
  Context {Nd V : Type} (val : Nd -> V).

  Lemma each_tree {A} (c : ops V A) i t gs : true_paths (stages c) = true ->
    snd (walk (at_node_each val (stages c)) gs (annotate [i] [] t)) = apply_ops (for_tree i c) (tree_map val t).
  Proof.
    intros Ht; rewrite annotate_under; fold (positions t); rewrite <- walk_relabel.
    rewrite <- (ops_collect val (for_tree i c) t) by (rewrite (proj1 (for_tree_paths c i)); exact Ht).
    set (h := fun x => snd (at_node val (stages (for_tree i c)) (clos_init _) x)).
    rewrite (walk_pure h), (walk_pure h); [reflexivity| |].
    - intros g x; apply stages_pure.
    - intros g x; apply (stages_for_tree c i).
  Qed.
  Lemma each_btree {A} (c : ops V A) i t gs :
    snd (bwalk (at_node_each val (stages c)) gs (bannotate [i] [] t)) = bapply_ops (for_tree i c) (btree_map val t).
  Proof.
    rewrite bannotate_under; fold (bpositions t); rewrite <- bwalk_relabel.
    rewrite <- (bops_walk val (for_tree i c) t).
    set (h := fun x => snd (at_node val (stages (for_tree i c)) (clos_init _) x)).
    rewrite (bwalk_pure h); [|intros g x; apply (stages_for_tree c i)].
    transitivity (snd (bwalk (at_node val (stages (for_tree i c))) (clos_init (stages (for_tree i c))) (bpositions t))).
    - symmetry; apply bwalk_pure; intros g x; apply stages_pure.
    - rewrite bwalk_visx, <- (bwalk_pure _ _ (pwith_ok _ _ _ (pvis_ok val (for_tree i c))) (bpositions t) (clos_init (stages (for_tree i c)))).
      destruct (bwalk (with_node _) _ _); reflexivity.
  Qed.

  Lemma each_ops {A} (c : ops V A) (ts : list (tree Nd)) : true_paths (stages c) = true -> forall gs,
    snd (walk_all (at_node_each val (stages c)) gs (each_positions ts)) = apply_ops_each c (map (tree_map val) ts).
  Proof.
    intros Ht; unfold each_positions, apply_ops_each; rewrite mapi_map; generalize 0 as j; induction ts as [|t ts IH]; intros j gs; [reflexivity|].
    rewrite !mapi_cons, walk_all_cons; cbn [concat]; pose proof (each_tree c j t gs Ht) as E.
    destruct (walk _ gs _) as [g1 o]; cbn in E; subst o; rewrite <- (IH (S j) g1).
    destruct (walk_all _ g1 _); reflexivity.
  Qed.
  Lemma each_bops {A} (c : ops V A) (ts : list (btree Nd)) : forall gs,
    snd (bwalk_all (at_node_each val (stages c)) gs (each_bpositions ts)) = bapply_ops_each c (map (btree_map val) ts).
  Proof.
    unfold each_bpositions, bapply_ops_each; rewrite mapi_map; generalize 0 as j; induction ts as [|t ts IH]; intros j gs; [reflexivity|].
    rewrite !mapi_cons; cbn [bwalk_all concat]; pose proof (each_btree c j t gs) as E.
    destruct (bwalk _ gs _) as [g1 o]; cbn in E; subst o; rewrite <- (IH (S j) g1).
    destruct (bwalk_all _ g1 _); reflexivity.
  Qed.
End Pure.

(** ** The single operations *)
Lemma prune_at_under {A} (f : list nat -> A -> bool) i (t : tree A) : forall p, prune_at (fun p => f (i :: p)) p t = prune_at f (i :: p) t.
Proof.
  induction t as [v ts IH] using tree_ind'; intros p; cbn [prune_at]; destruct (f (i :: p) v); [reflexivity|]; do 3 f_equal.
  generalize 0 as j; induction IH as [|t ts Ht _ IHl]; intros j; [reflexivity|]; rewrite !mapi_cons; f_equal; [rewrite Ht; reflexivity|apply IHl].
Qed.
Lemma bprune_at_under {A} (f : list nat -> A -> bool) i (t : btree A) : forall p, bprune_at (fun p => f (i :: p)) p t = bprune_at f (i :: p) t.
Proof.
  induction t as [v l r IHl IHr] using btree_ind'; intros p; cbn [bprune_at]; destruct (f (i :: p) v); [reflexivity|]; do 2 f_equal; [destruct l|destruct r]; cbn in *; auto.
Qed.

Lemma concat_single {A B} (f : A -> B) l : forall j, concat (mapi (fun _ x => [f x]) j l) = map f l.
Proof. induction l as [|x l IH]; intros j; [reflexivity|]; rewrite mapi_cons; cbn [concat app map]; rewrite IH; reflexivity. Qed.
Lemma concat_flat_map {A B} (f : A -> list B) l : forall j, concat (mapi (fun _ x => f x) j l) = flat_map f l.
Proof. induction l as [|x l IH]; intros j; [reflexivity|]; rewrite mapi_cons; cbn [concat flat_map]; rewrite IH; reflexivity. Qed.

Lemma each_start {V} (ts : list (tree V)) : apply_ops_each o_start ts = ts.
Proof. unfold apply_ops_each; cbn; rewrite (concat_single (fun t => t)), map_id; reflexivity. Qed.
Lemma each_map {V B} (f : V -> B) ts : apply_ops_each (o_map o_start f) ts = map (tree_map f) ts.
Proof. unfold apply_ops_each; cbn; apply concat_single. Qed.
Lemma each_prune {V} (f : V -> bool) ts : apply_ops_each (o_prune o_start f) ts = flat_map (fun t => opt_list (prune_tree f t)) ts.
Proof. unfold apply_ops_each; cbn; apply concat_flat_map. Qed.
Lemma each_prune_path {V} (f : list N -> V -> bool) ts :
  apply_ops_each (o_prune_path o_start f) ts = concat (mapi (fun i t => opt_list (prune_at (fun p => f (map N.of_nat p)) [i] t)) 0 ts).
Proof. unfold apply_ops_each; f_equal; apply mapi_ext; intros i t; cbn; f_equal; apply (prune_at_under (fun p => f (map N.of_nat p)) i t []). Qed.
Lemma each_truncate {V} d (ts : list (tree V)) : apply_ops_each (o_prune_depth o_start d) ts = map (truncate (N.to_nat d)) ts.
Proof. unfold apply_ops_each; cbn; apply concat_single. Qed.
Lemma beach_start {V} (ts : list (btree V)) : bapply_ops_each o_start ts = ts.
Proof. unfold bapply_ops_each; cbn; rewrite (concat_single (fun t => t)), map_id; reflexivity. Qed.
Lemma beach_map {V B} (f : V -> B) ts : bapply_ops_each (o_map o_start f) ts = map (btree_map f) ts.
Proof. unfold bapply_ops_each; cbn; apply concat_single. Qed.
Lemma beach_prune {V} (f : V -> bool) ts : bapply_ops_each (o_prune o_start f) ts = flat_map (fun t => opt_list (bprune_tree f t)) ts.
Proof. unfold bapply_ops_each; cbn; apply concat_flat_map. Qed.
Lemma beach_prune_path {V} (f : list N -> V -> bool) ts :
  bapply_ops_each (o_prune_path o_start f) ts = concat (mapi (fun i t => opt_list (bprune_at (fun p => f (map N.of_nat p)) [i] t)) 0 ts).
Proof. unfold bapply_ops_each; f_equal; apply mapi_ext; intros i t; cbn; f_equal; apply (bprune_at_under (fun p => f (map N.of_nat p)) i t []). Qed.
Lemma beach_truncate {V} d (ts : list (btree V)) : bapply_ops_each (o_prune_depth o_start d) ts = map (btruncate (N.to_nat d)) ts.
Proof. unfold bapply_ops_each; cbn; apply concat_single. Qed.

(** The walk of a map, closures with state. *)
Lemma walk_all_map_accum {Nd V G B} (val : Nd -> V) (f : G -> V -> G * B) g0 (ts : list (tree Nd)) : forall j gs,
  let w := walk_all (at_node_each val (c_map c_start g0 f)) gs (mapi (fun i t => annotate [i] [] t) j ts) in
  map_accum f (snd gs) (map val (flat_map preorder ts)) = (snd (fst w), flat_map preorder (snd w)) /\ Forall2 same_shape (snd w) ts.
Proof.
  induction ts as [|t ts IH]; intros j gs w; [split; [reflexivity|constructor]|]; subst w; rewrite mapi_cons, walk_all_cons.
  pose proof (walk_state (S := clos (c_map c_start g0 f)) snd (fun g x => let '(g1, b) := f g (val (pos_here x)) in (g1, Keep b true))
    (at_node_each val (c_map c_start g0 f))) as W.
  specialize (W ltac:(intros [u g1] x; unfold at_node_each; cbn; destruct (f g1 (val (pos_here x))); reflexivity) (annotate [j] [] t) gs).
  rewrite (walk_relabel (fun g v => let '(g1, b) := f g v in (g1, Keep b true)) (fun x => val (pos_here x))) in W.
  destruct (walk_map_accum f (tree_map val t) (snd gs)) as (g' & t' & W' & Sh & Acc).
  assert (E : tree_map (fun x => val (pos_here x)) (annotate [j] [] t) = tree_map val t)
    by (rewrite <- (tree_map_map pos_here val), annotate_here; reflexivity).
  rewrite E, W' in W.
  destruct (walk (at_node_each val (c_map c_start g0 f)) gs (annotate [j] [] t)) as [gs1 o]; cbn [fst snd] in W.
  specialize (IH (S j) gs1); destruct (walk_all (at_node_each val (c_map c_start g0 f)) gs1 _) as [gs2 os]; cbn [fst snd] in IH; destruct IH as [IH1 IH2].
  pose proof (f_equal fst W) as Wg; pose proof (f_equal snd W) as Wo; cbn [fst] in Wg; cbn [snd] in Wo; subst o; subst g'.
  cbn [fst snd opt_list app flat_map]; split.
  - rewrite map_app, map_accum_app, <- preorder_map, Acc.
    unfold clos in *; rewrite IH1; reflexivity.
  - constructor; [|exact IH2].
    unfold same_shape in *; rewrite Sh, tree_map_map; reflexivity.
Qed.
Lemma bwalk_all_map_accum {Nd V G B} (val : Nd -> V) (f : G -> V -> G * B) g0 (ts : list (btree Nd)) : forall j gs,
  let w := bwalk_all (at_node_each val (c_map c_start g0 f)) gs (mapi (fun i t => bannotate [i] [] t) j ts) in
  map_accum f (snd gs) (map val (flat_map (fun t => preorder (flat t)) ts)) = (snd (fst w), flat_map (fun t => preorder (flat t)) (snd w)) /\ Forall2 bsame_shape (snd w) ts.
Proof.
  induction ts as [|t ts IH]; intros j gs w; [split; [reflexivity|constructor]|]; subst w; rewrite mapi_cons; cbn [bwalk_all].
  pose proof (bwalk_state (S := clos (c_map c_start g0 f)) snd (fun g x => let '(g1, b) := f g (val (pos_here x)) in (g1, Keep b true))
    (at_node_each val (c_map c_start g0 f))) as W.
  specialize (W ltac:(intros [u g1] x; unfold at_node_each; cbn; destruct (f g1 (val (pos_here x))); reflexivity) (bannotate [j] [] t) gs).
  rewrite (bwalk_relabel (fun g v => let '(g1, b) := f g v in (g1, Keep b true)) (fun x => val (pos_here x))) in W.
  destruct (bwalk_map_accum f (btree_map val t) (snd gs)) as (g' & t' & W' & Sh & Acc).
  assert (E : btree_map (fun x => val (pos_here x)) (bannotate [j] [] t) = btree_map val t)
    by (rewrite <- (btree_map_map pos_here val), bannotate_here; reflexivity).
  rewrite E, W' in W.
  destruct (bwalk (at_node_each val (c_map c_start g0 f)) gs (bannotate [j] [] t)) as [gs1 o]; cbn [fst snd] in W.
  specialize (IH (S j) gs1); destruct (bwalk_all (at_node_each val (c_map c_start g0 f)) gs1 _) as [gs2 os]; cbn [fst snd] in IH; destruct IH as [IH1 IH2].
  pose proof (f_equal fst W) as Wg; pose proof (f_equal snd W) as Wo; cbn [fst] in Wg; cbn [snd] in Wo; subst o; subst g'.
  cbn [fst snd opt_list app flat_map]; split.
  - rewrite map_app, map_accum_app, <- preorder_map, <- flat_btree_map, Acc.
    unfold clos in *; rewrite IH1; reflexivity.
  - constructor; [|exact IH2].
    unfold bsame_shape in *; rewrite Sh, btree_map_map; reflexivity.
Qed.

(** fold_path without pruning: the positions in the result. *)
Lemma fold_all_placed {Nd V A G O} (val : Nd -> V) (c : chain V A) (f : G -> list O -> list N -> A -> G * O) (ts : list (tree Nd)) : has_prune c = false ->
  forall j gs g k,
  let w := walk_all (with_node (at_node_each val c)) gs (mapi (fun i t => annotate [i] [] t) j ts) in
  fold_all (with_path f) g (firstn k (snd w)) =
  fold_all (fun g os x => f g os (map N.of_nat (pos_path x)) (pos_here x)) g (firstn k (mapi (fun i t => annotate [i] [] t) j (map (tree_map fst) (snd w)))).
Proof.
  intros Hn; induction ts as [|t ts IH]; intros j gs g k w; subst w; [destruct k; reflexivity|]; rewrite mapi_cons, walk_all_cons.
  destruct (walk_placed (at_node_each val c) (fun gs x => visit_no_drop c Hn gs _ _ _) t [j] [] gs) as (gs1 & t' & W & Pl); rewrite W.
  destruct k as [|k]; [reflexivity|].
  specialize (IH (S j) gs1); destruct (walk_all (with_node (at_node_each val c)) gs1 _) as [gs2 os]; cbn [fst snd opt_list app map firstn] in *.
  rewrite mapi_cons; cbn [firstn]; rewrite !fold_all_cons.
  pose proof (fold_placed (fun g os p a => f g os (map N.of_nat p) a) t' [j] [] g Pl) as F.
  unfold with_path at 1; rewrite F.
  destruct (fold_up _ g (annotate [j] [] (tree_map fst t'))) as [g1 o]; rewrite IH; reflexivity.
Qed.
