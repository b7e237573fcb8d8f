(** * PipeFinal: chains on one tree, from the first node to the result. *)
From Verif Require Import Prelim PrelimFacts Spec SpecFacts SpecPipe SpecObs ModelNode NodeFacts ModelPre ModelPipe ProofsPlain Slots
  PipeCore PipeBase PipeChain PipeEnd ProofsPipe.

Definition pok_len {Nd} (p : list N) (x : pos Nd) : Prop := length p = length (pos_path x).
Definition xdepth {Nd} (x : pos Nd) : N := N.of_nat (length (pos_path x)).

Lemma pok_exact_facts {Nd} (p : list N) (x : pos Nd) : pok_exact p x -> p = xpath x /\ pok_len p x.
Proof. intros ->; split; [reflexivity|]; unfold pok_len; apply map_length. Qed.
Lemma pok_len_facts {Nd} (p : list N) (x : pos Nd) : pok_len p x ->
  tree_depth p = Ok (xdepth x) /\ forall q, length q = length p -> pok_len q x.
Proof. unfold pok_len, tree_depth, xdepth; intros ->; split; [reflexivity|auto]. Qed.

(** A chain without prunes does not look at paths. *)
Lemma visit_no_path {V A} (c : chain V A) : has_prune c = false ->
  forall gs p p' d v, visit_node c gs p d v = visit_node c gs p' d v.
Proof.
  induction c as [|A B G c IH g f|A G c IH g f|A G c IH g f|A c IH lim]; intros Hn gs p p' d v; try discriminate; cbn in *.
  - reflexivity.
  - rewrite (IH Hn (fst gs) p p'); reflexivity.
  - rewrite (IH Hn gs p p'); reflexivity.
Qed.

(** Child indexes are smaller than the number of nodes. *)
Lemma annotate_indexes {A} (t : tree A) : forall p ab x, In x (preorder (annotate p ab t)) ->
  exists q, pos_path x = p ++ q /\ Forall (fun i => i < length (preorder t)) q.
Proof.
  induction t as [v ts IH] using tree_ind'; intros p ab x Hx; cbn in Hx.
  destruct Hx as [<-|Hx]; [exists []; rewrite app_nil_r; split; [reflexivity|constructor]|].
  assert (HH : forall i, In x (flat_map preorder (mapi (fun i c => annotate (p ++ [i]) (ab ++ [v]) c) i ts)) ->
     exists j q, pos_path x = p ++ j :: q /\ j < i + length (flat_map preorder ts) /\ Forall (fun k => k < length (flat_map preorder ts)) q).
  { clear Hx; induction IH as [|t ts Ht _ IHl]; intros i Hx; [destruct Hx|].
    rewrite mapi_cons in Hx; cbn in Hx; apply in_app_or in Hx as [Hx|Hx].
    - destruct (Ht _ _ _ Hx) as (q & E & Hq); exists i, q; split; [|split].
      + rewrite E, <- app_assoc; reflexivity.
      + cbn; rewrite app_length; destruct t; cbn; lia.
      + cbn; rewrite app_length; eapply Forall_impl; [|exact Hq]; intros k Hk; cbn in Hk; lia.
    - destruct (IHl (S i) Hx) as (j & q & E & Hj & Hq); exists j, q; split; [exact E|split].
      + cbn; rewrite app_length; destruct t; cbn; lia.
      + cbn; rewrite app_length; eapply Forall_impl; [|exact Hq]; intros k Hk; cbn in Hk; lia. }
  destruct (HH 0 Hx) as (j & q & E & Hj & Hq); exists (j :: q); split; [exact E|].
  constructor; [cbn; lia|]; eapply Forall_impl; [|exact Hq]; intros k Hk; cbn in Hk |- *; lia.
Qed.

Lemma xpath_small {A} (t : tree A) x : In x (preorder (positions t)) -> (N.of_nat (length (preorder t)) <= usize_max)%N ->
  xpath x = map N.of_nat (pos_path x).
Proof.
  intros Hx Hb; destruct (annotate_indexes t [] [] x Hx) as (q & E & Hq); cbn in E.
  unfold xpath; apply map_ext_in; intros i Hi; rewrite E in Hi; rewrite Forall_forall in Hq.
  apply wrap_small; specialize (Hq i Hi); lia.
Qed.

Lemma tsize_annotate {A} (t : tree A) : forall p ab, tsize (annotate p ab t) = length (preorder t).
Proof.
  intros p ab; rewrite tsize_preorder; revert p ab; induction t as [v ts IH] using tree_ind'; intros p ab; cbn; f_equal.
  generalize 0 as i; induction IH as [|t ts Ht _ IHl]; intros i; [reflexivity|].
  rewrite mapi_cons; cbn; rewrite !app_length, Ht, IHl; reflexivity.
Qed.

(** Binary indexes are 0 and 1. *)
Lemma bannotate_indexes {A} (t : btree A) : forall p ab x, In x (preorder (flat (bannotate p ab t))) ->
  exists q, pos_path x = p ++ q /\ Forall (fun i => i <= 1) q.
Proof.
  induction t as [v l r IHl IHr] using btree_ind'; intros p ab x Hx; cbn in Hx.
  destruct Hx as [<-|Hx]; [exists []; rewrite app_nil_r; split; [reflexivity|constructor]|].
  rewrite flat_map_app in Hx; apply in_app_or in Hx as [Hx|Hx].
  - destruct l as [l|]; cbn in Hx, IHl; [|destruct Hx]; rewrite app_nil_r in Hx.
    destruct (IHl _ _ _ Hx) as (q & E & Hq); exists (0 :: q); split; [rewrite E, <- app_assoc; reflexivity|].
    constructor; [lia|exact Hq].
  - destruct r as [r|]; cbn in Hx, IHr; [|destruct Hx]; rewrite app_nil_r in Hx.
    destruct (IHr _ _ _ Hx) as (q & E & Hq); exists (1 :: q); split; [rewrite E, <- app_assoc; reflexivity|].
    constructor; [lia|exact Hq].
Qed.

Lemma bxpath {A} (t : btree A) x : In x (preorder (flat (bpositions t))) -> xpath x = map N.of_nat (pos_path x).
Proof.
  intros Hx; destruct (bannotate_indexes t [] [] x Hx) as (q & E & Hq); cbn in E.
  unfold xpath; apply map_ext_in; intros i Hi; rewrite E in Hi; rewrite Forall_forall in Hq.
  apply wrap_small; specialize (Hq i Hi); unfold usize_max; lia.
Qed.

Section Nary.
  Context {Nd V : Type} (gvc : Nd -> V * list Nd) (nt : Nd -> tree Nd).
  Hypothesis H : node_tree gvc nt.

  Lemma nary_items {A} (c : chain V A) n : true_paths c = true ->
    (has_prune c = true -> (N.of_nat (length (preorder (nt n))) <= usize_max)%N) ->
    let w := walk (with_node (at_node (nval gvc) c)) (clos_init c) (positions (nt n)) in
    exists s', items (tree_chain (into_pipeline gvc n) c) (if has_prune c then pok_len else pok_exact)
      (p_init (tree_chain (into_pipeline gvc n) c)) (flat_map preorder (opt_list (snd w))) s' /\
      closures _ _ _ c s' = fst w /\
      match snd w with Some t => below [] t | None => True end.
  Proof.
    intros Ht Hb w.
    destruct (chain_sim (into_pipeline gvc n) tree_depth [] (fun x => nval gvc (pos_here x)) xpath xdepth pok_exact pok_len
      pok_exact_facts pok_len_facts (base_R (fun l => l) (map Some) (fun p ab n => annotate p ab (nt n)) [])
      (nary_sim gvc nt [] (pt_new n []) H) [] [positions (nt n)]
      (base_R_init (fun l => l) (map Some) (fun p ab n => annotate p ab (nt n)) [] n) c Ht) as (R & HR & Hcl & Hi).
    { intros Hp; split; [|constructor]; cbn [app]; unfold fsize; cbn [map]; unfold positions; rewrite tsize_annotate; cbn [list_sum fold_right].
      rewrite Nat.add_0_r; auto. }
    destruct (sim_items _ _ _ _ HR _ _ _ _ Hi) as (s' & Hit & HR'); cbn [app] in Hit, HR'.
    assert (Ew : walk_all (with_node (chain_vis (fun x => nval gvc (pos_here x)) xpath xdepth c)) (clos_init c) [positions (nt n)] = (fst w, opt_list (snd w))).
    { unfold walk_all; rewrite walk_list_cons.
      rewrite (walk_ext_in _ (with_node (at_node (nval gvc) c))).
      - fold w; destruct w as [g o]; rewrite walk_list_nil; cbn; rewrite app_nil_r; reflexivity.
      - intros g x Hx; unfold with_node, chain_vis, at_node.
        destruct (has_prune c) eqn:Hp.
        + rewrite (xpath_small _ _ Hx) by (apply Hb; reflexivity); reflexivity.
        + rewrite (visit_no_path c Hp g (xpath x) (map N.of_nat (pos_path x))); reflexivity. }
    rewrite Ew in Hit, HR'; cbn in Hit, HR'.
    exists s'; split; [exact Hit|split; [apply (Hcl _ _ _ _ HR')|]].
    destruct (snd w) as [t'|] eqn:E; [|exact I]; eapply walk_below; exact E.
  Qed.
End Nary.

Section Binary.
  Context {Nd V : Type} (gvcb : Nd -> V * (option Nd * option Nd)) (bt : Nd -> btree Nd).
  Hypothesis H : node_btree gvcb bt.

  Lemma binary_items {A} (c : chain V A) n :
    let w := bwalk (with_node (at_node (nval gvcb) c)) (clos_init c) (bpositions (bt n)) in
    exists s', items (btree_chain (into_pipeline_binary gvcb n) c) pok_exact
      (p_init (btree_chain (into_pipeline_binary gvcb n) c)) (flat_map preorder (opt_list (option_map flat (snd w)))) s' /\
      closures_binary _ _ c s' = fst w /\
      match snd w with Some t => bbelow [] t | None => True end.
  Proof.
    intros w.
    destruct (bchain_sim (into_pipeline_binary gvcb n) tree_depth (fun x => nval gvcb (pos_here x)) xpath xdepth pok_exact pok_len
      pok_exact_facts pok_len_facts (base_R pair_iter (fun l => l) (fun p ab n => flat (bannotate p ab (bt n))) [])
      (binary_sim gvcb bt [] (pt_new n []) H) [] [flat (bpositions (bt n))]
      (base_R_init pair_iter (fun l => l) (fun p ab n => flat (bannotate p ab (bt n))) [] n) c) as (R & HR & Hcl & Hi).
    destruct (sim_items _ _ _ _ HR _ _ _ _ Hi) as (s' & Hit & HR'); cbn [app] in Hit, HR'.
    assert (Ew : walk_all (with_node (chain_vis (fun x => nval gvcb (pos_here x)) xpath xdepth c)) (clos_init c) [flat (bpositions (bt n))] =
                 (fst w, opt_list (option_map flat (snd w)))).
    { unfold walk_all; rewrite walk_list_cons.
      rewrite (walk_ext_in _ (with_node (at_node (nval gvcb) c))).
      - rewrite walk_flat; fold w; destruct w as [g o]; rewrite walk_list_nil; cbn; rewrite app_nil_r; reflexivity.
      - intros g x Hx; unfold with_node, chain_vis, at_node; rewrite (bxpath _ _ Hx); reflexivity. }
    rewrite Ew in Hit, HR'; cbn [fst snd] in Hit, HR'.
    exists s'; split; [exact Hit|split; [apply (Hcl _ _ _ _ HR')|]].
    destruct (snd w) as [t'|] eqn:E; [|exact I]; eapply bwalk_below; exact E.
  Qed.
End Binary.

Lemma bwalk_visx {G X A} (vis : G -> X -> G * outcome A) t : forall g,
  bwalk vis g t = let '(g1, o) := bwalk (with_node vis) g t in (g1, option_map (btree_map fst) o).
Proof.
  induction t as [x l r IHl IHr] using btree_ind'; intros g; rewrite !bwalk_node.
  replace (with_node vis g x) with (match vis g x with (g', Drop) => (g', Drop) | (g', Keep a down) => (g', Keep (a, x) down) end) by reflexivity.
  destruct (vis g x) as [g1 [|a [|]]]; cbn; try reflexivity.
  assert (Hside : forall o, match o with Some t => forall g, bwalk vis g t = (let '(g1, o) := bwalk (with_node vis) g t in (g1, option_map (btree_map fst) o)) | None => True end ->
    forall g, walk_side (bwalk vis) g o = let '(g1, o) := walk_side (bwalk (with_node vis)) g o in (g1, option_map (btree_map fst) o)).
  { intros [t|] Ho g0; cbn; [apply Ho|reflexivity]. }
  rewrite (Hside l IHl); destruct (walk_side (bwalk (with_node vis)) g1 l) as [g2 l'].
  rewrite (Hside r IHr); destruct (walk_side (bwalk (with_node vis)) g2 r) as [g3 r']; reflexivity.
Qed.

Section Results.
  Context {Nd V : Type}.

  (** Chain, then collect_tree. *)
  Lemma chain_collect (gvc : Nd -> V * list Nd) nt : node_tree gvc nt -> forall A (c : chain V A) n, true_paths c = true ->
    (has_prune c = true -> (N.of_nat (length (preorder (nt n))) <= usize_max)%N) ->
    exists s, collect_tree (tree_chain (into_pipeline gvc n) c) ⇓ Ok (snd (walk (at_node (nval gvc) c) (clos_init c) (positions (nt n))), s) /\
      closures _ _ _ c s = fst (walk (at_node (nval gvc) c) (clos_init c) (positions (nt n))).
  Proof.
    intros H A c n Ht Hb; destruct (nary_items gvc nt H c n Ht Hb) as (s & Hi & Hc & Hw).
    exists s; rewrite walk_visx.
    destruct (walk (with_node (at_node (nval gvc) c)) (clos_init c) (positions (nt n))) as [g o]; cbn in *; split; [|exact Hc].
    eapply collect_ok; [|exact Hw|exact Hi].
    intros p x; destruct (has_prune c); [auto|]; intros Hp; apply pok_exact_facts in Hp as [_ Hp]; exact Hp.
  Qed.

  Lemma bchain_collect (gvcb : Nd -> V * (option Nd * option Nd)) bt : node_btree gvcb bt -> forall A (c : chain V A) n,
    exists s, bcollect_tree (btree_chain (into_pipeline_binary gvcb n) c) ⇓ Ok (snd (bwalk (at_node (nval gvcb) c) (clos_init c) (bpositions (bt n))), s) /\
      closures_binary _ _ c s = fst (bwalk (at_node (nval gvcb) c) (clos_init c) (bpositions (bt n))).
  Proof.
    intros H A c n; destruct (binary_items gvcb bt H c n) as (s & Hi & Hc & Hw).
    exists s; rewrite bwalk_visx.
    destruct (bwalk (with_node (at_node (nval gvcb) c)) (clos_init c) (bpositions (bt n))) as [g o]; cbn in *; split; [|exact Hc].
    eapply bcollect_ok; [| |exact Hw|exact Hi]; intros p x Hp; apply pok_exact_facts in Hp; tauto.
  Qed.

  (** Folding a tree of (value, position) pairs only looks at the values. *)
  Lemma fold_list_map {G X Y O} (f : G -> list O -> Y -> G * O) (h : X -> Y) ts :
    Forall (fun t => forall g, fold_up f g (tree_map h t) = fold_up (fun g os x => f g os (h x)) g t) ts ->
    forall g, fold_list (fold_up f) g (map (tree_map h) ts) = fold_list (fold_up (fun g os x => f g os (h x))) g ts.
  Proof.
    induction 1 as [|t ts Ht _ IH]; intros g; [reflexivity|]; cbn [map]; rewrite !fold_list_cons, Ht.
    destruct (fold_up _ g t); rewrite IH; reflexivity.
  Qed.
  Lemma fold_up_map {G X Y O} (f : G -> list O -> Y -> G * O) (h : X -> Y) t : forall g,
    fold_up f g (tree_map h t) = fold_up (fun g os x => f g os (h x)) g t.
  Proof.
    induction t as [x ts IH] using tree_ind'; intros g; cbn [tree_map fold_up].
    rewrite (fold_list_map f h ts IH); reflexivity.
  Qed.
  Lemma bfold_up_map {G X Y O} (f : G -> option O * option O -> Y -> G * O) (h : X -> Y) t : forall g,
    bfold_up f g (btree_map h t) = bfold_up (fun g os x => f g os (h x)) g t.
  Proof.
    induction t as [x l r IHl IHr] using btree_ind'; intros g; cbn [btree_map]; rewrite !bfold_up_node.
    assert (Hside : forall o, match o with Some t => forall g, bfold_up f g (btree_map h t) = bfold_up (fun g os x => f g os (h x)) g t | None => True end ->
      forall g, fold_side (bfold_up f) g (option_map (btree_map h) o) = fold_side (bfold_up (fun g os x => f g os (h x))) g o).
    { intros [t|] Ho g0; cbn; [rewrite Ho; reflexivity|reflexivity]. }
    rewrite (Hside l IHl); destruct (fold_side _ g l) as [g1 a]; rewrite (Hside r IHr); reflexivity.
  Qed.

  Lemma fold_list_ext {G X O} (F F' : G -> tree X -> G * O) ts :
    Forall (fun t => forall g, F g t = F' g t) ts -> forall g, fold_list F g ts = fold_list F' g ts.
  Proof.
    induction 1 as [|t ts Ht _ IH]; intros g; [reflexivity|]; rewrite !fold_list_cons, Ht.
    destruct (F' g t); rewrite IH; reflexivity.
  Qed.
  Lemma fold_up_ext_in {G X O} (f f' : G -> list O -> X -> G * O) t :
    (forall g os x, In x (preorder t) -> f g os x = f' g os x) -> forall g, fold_up f g t = fold_up f' g t.
  Proof.
    induction t as [x ts IH] using tree_ind'; intros Hf g; cbn [fold_up].
    rewrite (fold_list_ext (fold_up f) (fold_up f')).
    - destruct (fold_list (fold_up f') g ts); apply Hf; left; reflexivity.
    - rewrite Forall_forall in *; intros t Ht; apply IH; [exact Ht|]; intros; apply Hf; right; apply in_flat_map; eauto.
  Qed.
  Lemma bfold_up_ext_in {G X O} (f f' : G -> option O * option O -> X -> G * O) t :
    (forall g os x, In x (preorder (flat t)) -> f g os x = f' g os x) -> forall g, bfold_up f g t = bfold_up f' g t.
  Proof.
    induction t as [x l r IHl IHr] using btree_ind'; intros Hf g; rewrite !bfold_up_node.
    assert (El : forall g, fold_side (bfold_up f) g l = fold_side (bfold_up f') g l).
    { intros g0; destruct l as [l|]; cbn in *; [|reflexivity]; rewrite IHl; [reflexivity|].
      intros; apply Hf; right; apply in_or_app; left; assumption. }
    assert (Er : forall g, fold_side (bfold_up f) g r = fold_side (bfold_up f') g r).
    { intros g0; destruct r as [r|]; cbn in *; [|reflexivity]; rewrite IHr; [reflexivity|].
      intros; apply Hf; right; rewrite flat_map_app; apply in_or_app; right; cbn; rewrite app_nil_r; assumption. }
    rewrite El; destruct (fold_side _ g l) as [g1 a]; rewrite Er; destruct (fold_side _ g1 r) as [g2 b].
    apply Hf; left; reflexivity.
  Qed.
End Results.

(** With at most [usize::MAX] children per node, paths fit. *)
Lemma small_indexes {Nd V} (gvc : Nd -> V * list Nd) nt : node_tree gvc nt -> forall n, small_nodes gvc (nt n) ->
  forall p ab x, In x (preorder (annotate p ab (nt n))) ->
  exists q, pos_path x = p ++ q /\ Forall (fun i => (N.of_nat i < usize_max)%N) q.
Proof.
  intros H n; remember (nt n) as t eqn:Et; revert n Et.
  induction t as [m ts IH] using tree_ind'; intros n Et Hs p ab x Hx; cbn in Hx.
  destruct Hx as [<-|Hx]; [exists []; rewrite app_nil_r; split; [reflexivity|constructor]|].
  rewrite (nt_unfold _ _ H n) in Et; injection Et as -> Ets.
  inversion Hs as [|? ? Hl Hs']; subst.
  assert (Hlen : (0 + N.of_nat (length (nkids gvc n)) <= usize_max)%N) by lia.
  change 0%N with (N.of_nat 0) in Hlen; revert Hlen Hx; generalize 0 as i; clear Hs Hl.
  revert IH Hs'; generalize (nkids gvc n) as ks; induction ks as [|k ks IHk]; intros IH Hs' i Hlen Hx; [destruct Hx|].
  cbn [map] in *; rewrite mapi_cons in Hx; cbn [flat_map] in Hx, Hs'; apply Forall_app in Hs' as [Hs1 Hs2].
  inversion IH as [|? ? IH1 IH2]; subst; cbn [length] in Hlen.
  apply in_app_or in Hx as [Hx|Hx].
  - destruct (IH1 k eq_refl Hs1 _ _ _ Hx) as (q & E & Hq); exists (i :: q); split; [rewrite E, <- app_assoc; reflexivity|].
    constructor; [lia|exact Hq].
  - apply (IHk IH2 Hs2 (S i)); [lia|exact Hx].
Qed.

Lemma xpath_small_nodes {Nd V} (gvc : Nd -> V * list Nd) nt : node_tree gvc nt -> forall n, small_nodes gvc (nt n) ->
  forall x, In x (preorder (positions (nt n))) -> xpath x = map N.of_nat (pos_path x).
Proof.
  intros H n Hs x Hx; destruct (small_indexes gvc nt H n Hs [] [] x Hx) as (q & E & Hq); cbn in E.
  unfold xpath; apply map_ext_in; intros i Hi; rewrite E in Hi; rewrite Forall_forall in Hq.
  apply wrap_small; specialize (Hq i Hi); cbn in Hq; lia.
Qed.

(** A kept node is a node of the tree. *)
Lemma walk_list_in {G X A} (vis : G -> X -> G * outcome A) ts :
  Forall (fun t => forall g ax, In ax (flat_map preorder (opt_list (snd (walk (with_node vis) g t)))) -> In (snd ax) (preorder t)) ts ->
  forall g ax, In ax (flat_map preorder (snd (walk_list (walk (with_node vis)) g ts))) -> In (snd ax) (flat_map preorder ts).
Proof.
  induction 1 as [|t ts Ht _ IH]; intros g ax; [rewrite walk_list_nil; intros []|].
  rewrite walk_list_cons; specialize (Ht g ax); destruct (walk (with_node vis) g t) as [g1 o]; specialize (IH g1 ax).
  destruct (walk_list (walk (with_node vis)) g1 ts) as [g2 os]; cbn [snd flat_map] in *.
  rewrite flat_map_app; intros Hi; apply in_app_or in Hi as [Hi|Hi]; apply in_or_app; auto.
Qed.
Lemma walk_in {G X A} (vis : G -> X -> G * outcome A) t : forall g ax,
  In ax (flat_map preorder (opt_list (snd (walk (with_node vis) g t)))) -> In (snd ax) (preorder t).
Proof.
  induction t as [x ts IH] using tree_ind'; intros g ax; rewrite walk_node.
  replace (with_node vis g x) with (match vis g x with (g', Drop) => (g', Drop) | (g', Keep a down) => (g', Keep (a, x) down) end) by reflexivity.
  destruct (vis g x) as [g1 [|a [|]]]; [intros []| |].
  - pose proof (walk_list_in vis ts IH g1 ax) as Hl.
    destruct (walk_list (walk (with_node vis)) g1 ts) as [g2 os]; cbn in *; rewrite app_nil_r.
    intros [<-|Hi]; [left; reflexivity|right; auto].
  - cbn; intros [<-|[]]; left; reflexivity.
Qed.
Lemma bwalk_in {G X A} (vis : G -> X -> G * outcome A) t g ax :
  In ax (flat_map preorder (opt_list (option_map flat (snd (bwalk (with_node vis) g t))))) -> In (snd ax) (preorder (flat t)).
Proof.
  intros Hi; apply (walk_in vis (flat t) g); rewrite walk_flat.
  destruct (bwalk (with_node vis) g t) as [g1 o]; exact Hi.
Qed.

Section FoldResults.
  Context {Nd V : Type}.

  Lemma chain_fold (gvc : Nd -> V * list Nd) nt : node_tree gvc nt -> forall A (c : chain V A) n, true_paths c = true ->
    (has_prune c = true -> (N.of_nat (length (preorder (nt n))) <= usize_max)%N) ->
    forall G O (f : G -> list O -> A -> G * O) g,
    let '(gs, o) := walk (at_node (nval gvc) c) (clos_init c) (positions (nt n)) in
    exists s, fold_tree (tree_chain (into_pipeline gvc n) c) f g ⇓
      Ok (option_map (fun t => snd (fold_up f g t)) o, match o with Some t => fst (fold_up f g t) | None => g end, s) /\
      closures _ _ _ c s = gs.
  Proof.
    intros H A c n Ht Hb G O f g; destruct (nary_items gvc nt H c n Ht Hb) as (s & Hi & Hc & Hw).
    rewrite walk_visx.
    destruct (walk (with_node (at_node (nval gvc) c)) (clos_init c) (positions (nt n))) as [gs o]; cbn in *.
    exists s; split; [|exact Hc].
    replace (Ok _) with (Ok (option_map (fun t => snd (fold_up (fun g os ax => f g os (fst ax)) g t)) o,
       match o with Some t => fst (fold_up (fun g os (ax : A * pos Nd) => f g os (fst ax)) g t) | None => g end, s)).
    - eapply fold_tree_ok; [|exact Hw|exact Hi].
      intros p x; destruct (has_prune c); [auto|]; intros Hp; apply pok_exact_facts in Hp as [_ Hp]; exact Hp.
    - destruct o as [t|]; cbn; [rewrite fold_up_map|]; reflexivity.
  Qed.

  Lemma chain_fold_path (gvc : Nd -> V * list Nd) nt : node_tree gvc nt -> forall A (c : chain V A) n, has_prune c = false ->
    small_nodes gvc (nt n) ->
    forall G O (f : G -> list O -> list N -> A -> G * O) g,
    let '(gs, o) := walk (with_node (at_node (nval gvc) c)) (clos_init c) (positions (nt n)) in
    let F := fun g os ax => f g os (map N.of_nat (pos_path (snd ax))) (fst ax) in
    exists s, fold_path (tree_chain (into_pipeline gvc n) c) f g ⇓
      Ok (option_map (fun t => snd (fold_up F g t)) o, match o with Some t => fst (fold_up F g t) | None => g end, s) /\
      closures _ _ _ c s = gs.
  Proof.
    intros H A c n Hn Hs G O f g.
    assert (Ht : true_paths c = true).
    { clear - Hn; induction c; cbn in *; try discriminate; auto. }
    destruct (nary_items gvc nt H c n Ht) as (s & Hi & Hc & Hw); [congruence|].
    rewrite Hn in Hi.
    pose proof (walk_in (at_node (nval gvc) c) (positions (nt n)) (clos_init c)) as Hin.
    destruct (walk (with_node (at_node (nval gvc) c)) (clos_init c) (positions (nt n))) as [gs o]; cbn in *.
    exists s; split; [|exact Hc].
    replace (Ok _) with (Ok (option_map (fun t => snd (fold_up (fun g os ax => f g os (xpath (snd ax)) (fst ax)) g t)) o,
       match o with Some t => fst (fold_up (fun g os (ax : A * pos Nd) => f g os (xpath (snd ax)) (fst ax)) g t) | None => g end, s)).
    - eapply fold_path_ok; [| |exact Hw|exact Hi]; intros p x Hp; apply pok_exact_facts in Hp; tauto.
    - destruct o as [t|]; [|reflexivity]; cbn in Hin; cbn [option_map].
      rewrite (fold_up_ext_in (fun g os (ax : A * pos Nd) => f g os (xpath (snd ax)) (fst ax))
                 (fun g os ax => f g os (map N.of_nat (pos_path (snd ax))) (fst ax))); [reflexivity|].
      intros g0 os ax Hax; rewrite (xpath_small_nodes gvc nt H n Hs); [reflexivity|].
      apply Hin; rewrite app_nil_r; exact Hax.
  Qed.

  Lemma bchain_fold_path (gvcb : Nd -> V * (option Nd * option Nd)) bt : node_btree gvcb bt -> forall A (c : chain V A) n,
    forall G O (f : G -> option O * option O -> list N -> A -> G * O) g,
    let '(gs, o) := bwalk (with_node (at_node (nval gvcb) c)) (clos_init c) (bpositions (bt n)) in
    let F := fun g os ax => f g os (map N.of_nat (pos_path (snd ax))) (fst ax) in
    exists s, bfold_path (btree_chain (into_pipeline_binary gvcb n) c) f g ⇓
      Ok (option_map (fun t => snd (bfold_up F g t)) o, match o with Some t => fst (bfold_up F g t) | None => g end, s) /\
      closures_binary _ _ c s = gs.
  Proof.
    intros H A c n G O f g.
    destruct (binary_items gvcb bt H c n) as (s & Hi & Hc & Hw).
    pose proof (bwalk_in (at_node (nval gvcb) c) (bpositions (bt n)) (clos_init c)) as Hin.
    destruct (bwalk (with_node (at_node (nval gvcb) c)) (clos_init c) (bpositions (bt n))) as [gs o]; cbn in *.
    exists s; split; [|exact Hc].
    replace (Ok _) with (Ok (option_map (fun t => snd (bfold_up (fun g os ax => f g os (xpath (snd ax)) (fst ax)) g t)) o,
       match o with Some t => fst (bfold_up (fun g os (ax : A * pos Nd) => f g os (xpath (snd ax)) (fst ax)) g t) | None => g end, s)).
    - eapply bfold_path_ok; [| |exact Hw|exact Hi]; intros p x Hp; apply pok_exact_facts in Hp; tauto.
    - destruct o as [t|]; [|reflexivity]; cbn in Hin; cbn [option_map].
      rewrite (bfold_up_ext_in (fun g os (ax : A * pos Nd) => f g os (xpath (snd ax)) (fst ax))
                 (fun g os ax => f g os (map N.of_nat (pos_path (snd ax))) (fst ax))); [reflexivity|].
      intros g0 os ax Hax; rewrite (bxpath (bt n)); [reflexivity|].
      apply Hin; rewrite app_nil_r; exact Hax.
  Qed.

  Lemma bchain_fold (gvcb : Nd -> V * (option Nd * option Nd)) bt : node_btree gvcb bt -> forall A (c : chain V A) n,
    forall G O (f : G -> option O * option O -> A -> G * O) g,
    let '(gs, o) := bwalk (at_node (nval gvcb) c) (clos_init c) (bpositions (bt n)) in
    exists s, bfold_tree (btree_chain (into_pipeline_binary gvcb n) c) f g ⇓
      Ok (option_map (fun t => snd (bfold_up f g t)) o, match o with Some t => fst (bfold_up f g t) | None => g end, s) /\
      closures_binary _ _ c s = gs.
  Proof.
    intros H A c n G O f g.
    pose proof (bchain_fold_path gvcb bt H A c n G O (fun g os _ v => f g os v) g) as HH.
    rewrite bwalk_visx.
    destruct (bwalk (with_node (at_node (nval gvcb) c)) (clos_init c) (bpositions (bt n))) as [gs o]; cbn in *.
    destruct HH as (s & Hs & Hc); exists s; split; [|exact Hc].
    replace (Ok _) with (Ok (option_map (fun t => snd (bfold_up (fun g os (ax : A * pos Nd) => f g os (fst ax)) g t)) o,
       match o with Some t => fst (bfold_up (fun g os (ax : A * pos Nd) => f g os (fst ax)) g t) | None => g end, s)); [exact Hs|].
    destruct o as [t|]; cbn; [rewrite bfold_up_map|]; reflexivity.
  Qed.
End FoldResults.
