(** * PipeOps: the single operations of prelude.rs as chains of one stage. *)
From Verif Require Import Prelim PrelimFacts Spec SpecFacts SpecPipe SpecObs ModelNode NodeFacts ModelPre ModelPipe ProofsPlain
  PipeCore PipeBase PipeChain PipeEnd ProofsPipe PipeFinal PipePure PipeSpecFacts.

Lemma unwrap_fst_ok {A S} (m : nat -> Res (option A * S)) a s : m ⇓ Ok (Some a, s) -> (fun f => unwrap_fst (m f)) ⇓ Ok (a, s).
Proof. intros [F HF]; exists F; intros f Hf; rewrite HF by exact Hf; reflexivity. Qed.
Lemma unwrap_fst2_ok {A G S} (m : nat -> Res (option A * G * S)) a g s : m ⇓ Ok (Some a, g, s) -> (fun f => unwrap_fst2 (m f)) ⇓ Ok (a, g, s).
Proof. intros [F HF]; exists F; intros f Hf; rewrite HF by exact Hf; reflexivity. Qed.

Section Nary.
  Context {Nd V : Type} (gvc : Nd -> V * list Nd) (nt : Nd -> tree Nd).
  Hypothesis H : node_tree gvc nt.

  Lemma op_map_ok {B G} (f : G -> V -> G * B) g n : exists t' s, op_map gvc f g n ⇓ Ok (t', s) /\ same_shape t' (nt n) /\
    map_accum f g (map (nval gvc) (preorder (nt n))) = (snd s, preorder t').
  Proof.
    destruct (chain_collect gvc nt H B (c_map c_start g f) n eq_refl) as (s & E1 & E2); [discriminate|].
    pose proof (walk_state (S := clos (c_map c_start g f)) snd (fun g x => let '(g1, b) := f g (nval gvc (pos_here x)) in (g1, Keep b true))
      (at_node (nval gvc) (c_map c_start g f))) as W.
    specialize (W ltac:(intros [u g0] x; unfold at_node; cbn; destruct (f g0 (nval gvc (pos_here x))); reflexivity)
                  (positions (nt n)) (clos_init (c_map c_start g f))).
    change (snd (clos_init (c_map c_start g f))) with g in W.
    rewrite (walk_relabel (fun g v => let '(g1, b) := f g v in (g1, Keep b true)) (fun x => nval gvc (pos_here x))) in W.
    rewrite positions_val in W.
    destruct (walk_map_accum f (tree_map (nval gvc) (nt n)) g) as (g' & t' & W' & Sh & Acc).
    rewrite W' in W; pose proof (f_equal fst W) as Wg; pose proof (f_equal snd W) as Wo; cbn [fst] in Wg; cbn [snd] in Wo.
    rewrite <- Wo in E1; rewrite <- E2 in Wg; cbn in Wg.
    exists t', s; split; [apply unwrap_fst_ok; exact E1|split].
    - unfold same_shape in *; rewrite Sh, tree_map_map; reflexivity.
    - rewrite <- preorder_map, Acc, Wg; reflexivity.
  Qed.

  Lemma op_prune_ok {G} (f : G -> V -> G * bool) g n : (N.of_nat (length (preorder (nt n))) <= usize_max)%N ->
    let '(g', o) := walk (fun g v => let '(g1, b) := f g v in (g1, if b then Drop else Keep v true)) g (tree_map (nval gvc) (nt n)) in
    exists s, op_prune gvc f g n ⇓ Ok (o, s) /\ pr_clos s = g'.
  Proof.
    intros Hb; destruct (chain_collect gvc nt H V (c_prune c_start g f) n eq_refl (fun _ => Hb)) as (s & E1 & E2).
    pose proof (walk_state (S := clos (c_prune c_start g f)) snd (fun g x => let '(g1, b) := f g (nval gvc (pos_here x)) in (g1, if b then Drop else Keep (nval gvc (pos_here x)) true))
      (at_node (nval gvc) (c_prune c_start g f))) as W.
    specialize (W ltac:(intros [u g0] x; unfold at_node; cbn; destruct (f g0 (nval gvc (pos_here x))); reflexivity)
                  (positions (nt n)) (clos_init (c_prune c_start g f))).
    change (snd (clos_init (c_prune c_start g f))) with g in W.
    rewrite (walk_relabel (fun g v => let '(g1, b) := f g v in (g1, if b then Drop else Keep v true)) (fun x => nval gvc (pos_here x))) in W.
    rewrite positions_val in W; rewrite W.
    exists s; split; [exact E1|].
    rewrite <- E2; reflexivity.
  Qed.

  Lemma op_prune_path_ok {G} (f : G -> list N -> V -> G * bool) g n : (N.of_nat (length (preorder (nt n))) <= usize_max)%N ->
    let '(g', o) := walk (fun g x => let v := nval gvc (pos_here x) in
        let '(g1, b) := f g (map N.of_nat (pos_path x)) v in (g1, if b then Drop else Keep v true)) g (positions (nt n)) in
    exists s, op_prune_path gvc f g n ⇓ Ok (o, s) /\ pr_clos s = g'.
  Proof.
    intros Hb; destruct (chain_collect gvc nt H V (c_prune_path c_start g f) n eq_refl (fun _ => Hb)) as (s & E1 & E2).
    pose proof (walk_state (S := clos (c_prune_path c_start g f)) snd (fun g x => let v := nval gvc (pos_here x) in
        let '(g1, b) := f g (map N.of_nat (pos_path x)) v in (g1, if b then Drop else Keep v true))
      (at_node (nval gvc) (c_prune_path c_start g f))) as W.
    specialize (W ltac:(intros [u g0] x; unfold at_node; cbn; destruct (f g0 _ (nval gvc (pos_here x))); reflexivity)
                  (positions (nt n)) (clos_init (c_prune_path c_start g f))).
    change (snd (clos_init (c_prune_path c_start g f))) with g in W; rewrite W.
    exists s; split; [exact E1|].
    rewrite <- E2; reflexivity.
  Qed.

  Lemma walk_start n : walk (at_node (nval gvc) c_start) tt (positions (nt n)) = (tt, Some (tree_map (nval gvc) (nt n))).
  Proof.
    assert (X : snd (walk (at_node (nval gvc) c_start) tt (positions (nt n))) = Some (tree_map (nval gvc) (nt n)))
      by exact (ops_collect (nval gvc) o_start (nt n) eq_refl).
    destruct (walk (at_node (nval gvc) c_start) tt (positions (nt n))) as [[] o]; cbn in X; rewrite X; reflexivity.
  Qed.

  Lemma op_fold_ok {G O} (f : G -> list O -> V -> G * O) g n :
    let '(g', r) := fold_up f g (tree_map (nval gvc) (nt n)) in exists s, op_fold gvc f g n ⇓ Ok (r, g', s).
  Proof.
    pose proof (chain_fold gvc nt H V c_start n eq_refl ltac:(discriminate) G O f g) as E.
    cbn [clos_init] in E; rewrite walk_start in E; destruct E as (s & E & _); cbn [option_map] in E.
    destruct (fold_up f g (tree_map (nval gvc) (nt n))) as [g' r]; exists s; apply unwrap_fst2_ok; exact E.
  Qed.

  Lemma fold_path_chain A (c : chain V A) n : has_prune c = false -> small_nodes gvc (nt n) ->
    forall G O (f : G -> list O -> list N -> A -> G * O) g,
    exists gs t, walk (at_node (nval gvc) c) (clos_init c) (positions (nt n)) = (gs, Some t) /\
    let '(g', r) := fold_up (fun g os x => f g os (map N.of_nat (pos_path x)) (pos_here x)) g (positions t) in
    exists s, fold_path (tree_chain (into_pipeline gvc n) c) f g ⇓ Ok (Some r, g', s).
  Proof.
    intros Hn Hs G O f g; pose proof (chain_fold_path gvc nt H A c n Hn Hs G O f g) as E.
    destruct (walk_placed (at_node (nval gvc) c) (fun gs x => visit_no_drop c Hn gs _ _ _) (nt n) [] [] (clos_init c)) as (gs & t & W & P).
    fold (positions (nt n)) in W; rewrite W in E; destruct E as (s & E & _).
    rewrite walk_visx, W; exists gs, (tree_map fst t); split; [reflexivity|].
    pose proof (fold_placed (fun g os p a => f g os (map N.of_nat p) a) t [] [] g P) as F; fold (positions (tree_map fst t)) in F.
    cbn [option_map] in E; rewrite F in E.
    destruct (fold_up _ g (positions (tree_map fst t))) as [g' r]; exists s; exact E.
  Qed.

  Lemma op_fold_path_ok {G O} (f : G -> list O -> list N -> V -> G * O) g n : small_nodes gvc (nt n) ->
    let '(g', r) := fold_up (fun g os x => f g os (map N.of_nat (pos_path x)) (nval gvc (pos_here x))) g (positions (nt n)) in
    exists s, op_fold_path gvc f g n ⇓ Ok (r, g', s).
  Proof.
    intros Hs; destruct (fold_path_chain V c_start n eq_refl Hs G O f g) as (gs & t & W & E).
    cbn [clos_init] in W; rewrite walk_start in W; injection W as <- <-.
    unfold positions in E; change (@nil V) with (map (nval gvc) []) in E; rewrite annotate_map, fold_up_map in E.
    fold (positions (nt n)) in E; cbn [pos_map pos_path pos_here] in E.
    destruct (fold_up _ g (positions (nt n))) as [g' r]; destruct E as (s & E); exists s; apply unwrap_fst2_ok; exact E.
  Qed.
End Nary.

Section Binary.
  Context {Nd V : Type} (gvcb : Nd -> V * (option Nd * option Nd)) (bt : Nd -> btree Nd).
  Hypothesis H : node_btree gvcb bt.

  Lemma bop_map_ok {B G} (f : G -> V -> G * B) g n : exists t' s, bop_map gvcb f g n ⇓ Ok (t', s) /\ bsame_shape t' (bt n) /\
    map_accum f g (map (nval gvcb) (preorder (flat (bt n)))) = (snd s, preorder (flat t')).
  Proof.
    destruct (bchain_collect gvcb bt H B (c_map c_start g f) n) as (s & E1 & E2).
    pose proof (bwalk_state (S := clos (c_map c_start g f)) snd (fun g x => let '(g1, b) := f g (nval gvcb (pos_here x)) in (g1, Keep b true))
      (at_node (nval gvcb) (c_map c_start g f))) as W.
    specialize (W ltac:(intros [u g0] x; unfold at_node; cbn; destruct (f g0 (nval gvcb (pos_here x))); reflexivity)
                  (bpositions (bt n)) (clos_init (c_map c_start g f))).
    change (snd (clos_init (c_map c_start g f))) with g in W.
    rewrite (bwalk_relabel (fun g v => let '(g1, b) := f g v in (g1, Keep b true)) (fun x => nval gvcb (pos_here x))) in W.
    rewrite bpositions_val in W.
    destruct (bwalk_map_accum f (btree_map (nval gvcb) (bt n)) g) as (g' & t' & W' & Sh & Acc).
    rewrite W' in W; pose proof (f_equal fst W) as Wg; pose proof (f_equal snd W) as Wo; cbn [fst] in Wg; cbn [snd] in Wo.
    rewrite <- Wo in E1; rewrite <- E2 in Wg; cbn in Wg.
    exists t', s; split; [apply unwrap_fst_ok; exact E1|split].
    - unfold bsame_shape in *; rewrite Sh, btree_map_map; reflexivity.
    - rewrite <- preorder_map, <- flat_btree_map, Acc, Wg; reflexivity.
  Qed.

  Lemma bop_prune_ok {G} (f : G -> V -> G * bool) g n :
    let '(g', o) := bwalk (fun g v => let '(g1, b) := f g v in (g1, if b then Drop else Keep v true)) g (btree_map (nval gvcb) (bt n)) in
    exists s, bop_prune gvcb f g n ⇓ Ok (o, s) /\ snd s = g'.
  Proof.
    destruct (bchain_collect gvcb bt H V (c_prune c_start g f) n) as (s & E1 & E2).
    pose proof (bwalk_state (S := clos (c_prune c_start g f)) snd (fun g x => let '(g1, b) := f g (nval gvcb (pos_here x)) in (g1, if b then Drop else Keep (nval gvcb (pos_here x)) true))
      (at_node (nval gvcb) (c_prune c_start g f))) as W.
    specialize (W ltac:(intros [u g0] x; unfold at_node; cbn; destruct (f g0 (nval gvcb (pos_here x))); reflexivity)
                  (bpositions (bt n)) (clos_init (c_prune c_start g f))).
    change (snd (clos_init (c_prune c_start g f))) with g in W.
    rewrite (bwalk_relabel (fun g v => let '(g1, b) := f g v in (g1, if b then Drop else Keep v true)) (fun x => nval gvcb (pos_here x))) in W.
    rewrite bpositions_val in W; rewrite W.
    exists s; split; [exact E1|].
    rewrite <- E2; reflexivity.
  Qed.

  Lemma bop_prune_path_ok {G} (f : G -> list N -> V -> G * bool) g n :
    let '(g', o) := bwalk (fun g x => let v := nval gvcb (pos_here x) in
        let '(g1, b) := f g (map N.of_nat (pos_path x)) v in (g1, if b then Drop else Keep v true)) g (bpositions (bt n)) in
    exists s, bop_prune_path gvcb f g n ⇓ Ok (o, s) /\ snd s = g'.
  Proof.
    destruct (bchain_collect gvcb bt H V (c_prune_path c_start g f) n) as (s & E1 & E2).
    pose proof (bwalk_state (S := clos (c_prune_path c_start g f)) snd (fun g x => let v := nval gvcb (pos_here x) in
        let '(g1, b) := f g (map N.of_nat (pos_path x)) v in (g1, if b then Drop else Keep v true))
      (at_node (nval gvcb) (c_prune_path c_start g f))) as W.
    specialize (W ltac:(intros [u g0] x; unfold at_node; cbn; destruct (f g0 _ (nval gvcb (pos_here x))); reflexivity)
                  (bpositions (bt n)) (clos_init (c_prune_path c_start g f))).
    change (snd (clos_init (c_prune_path c_start g f))) with g in W; rewrite W.
    exists s; split; [exact E1|].
    rewrite <- E2; reflexivity.
  Qed.

  Lemma bwalk_start n : bwalk (at_node (nval gvcb) c_start) tt (bpositions (bt n)) = (tt, Some (btree_map (nval gvcb) (bt n))).
  Proof.
    assert (X : snd (bwalk (at_node (nval gvcb) c_start) tt (bpositions (bt n))) = Some (btree_map (nval gvcb) (bt n))).
    { rewrite (bwalk_pure (fun x => Keep (nval gvcb (pos_here x)) true)) by reflexivity.
      rewrite bpwalk_map, bpositions_val; reflexivity. }
    destruct (bwalk (at_node (nval gvcb) c_start) tt (bpositions (bt n))) as [[] o]; cbn in X; rewrite X; reflexivity.
  Qed.

  Lemma bop_fold_ok {G O} (f : G -> option O * option O -> V -> G * O) g n :
    let '(g', r) := bfold_up f g (btree_map (nval gvcb) (bt n)) in exists s, bop_fold gvcb f g n ⇓ Ok (r, g', s).
  Proof.
    pose proof (bchain_fold gvcb bt H V c_start n G O f g) as E.
    cbn [clos_init] in E; rewrite bwalk_start in E; destruct E as (s & E & _); cbn [option_map] in E.
    destruct (bfold_up f g (btree_map (nval gvcb) (bt n))) as [g' r]; exists s; apply unwrap_fst2_ok; exact E.
  Qed.

  Lemma bfold_path_chain A (c : chain V A) n G O (f : G -> option O * option O -> list N -> A -> G * O) g :
    match snd (bwalk (at_node (nval gvcb) c) (clos_init c) (bpositions (bt n))) with
    | None => exists s, bfold_path (btree_chain (into_pipeline_binary gvcb n) c) f g ⇓ Ok (None, g, s)
    | Some t =>
        let '(g', r) := bfold_up (fun g os x => f g os (map N.of_nat (pos_path x)) (pos_here x)) g (bpositions t) in
        exists s, bfold_path (btree_chain (into_pipeline_binary gvcb n) c) f g ⇓ Ok (Some r, g', s)
    end.
  Proof.
    pose proof (bchain_fold_path gvcb bt H A c n G O f g) as E; rewrite bwalk_visx.
    pose proof (bwalk_below (at_node (nval gvcb) c) (bt n) [] [] (clos_init c)) as P; fold (bpositions (bt n)) in P.
    destruct (bwalk (with_node (at_node (nval gvcb) c)) (clos_init c) (bpositions (bt n))) as [gs [t|]]; destruct E as (s & E & _); cbn [snd option_map] in *.
    - specialize (P t eq_refl).
      pose proof (bfold_placed (fun g os p a => f g os (map N.of_nat p) a) t [] [] g P) as F; fold (bpositions (btree_map fst t)) in F.
      rewrite F in E; destruct (bfold_up _ g (bpositions (btree_map fst t))) as [g' r]; exists s; exact E.
    - exists s; exact E.
  Qed.

  Lemma bop_fold_path_ok {G O} (f : G -> option O * option O -> list N -> V -> G * O) g n :
    let '(g', r) := bfold_up (fun g os x => f g os (map N.of_nat (pos_path x)) (nval gvcb (pos_here x))) g (bpositions (bt n)) in
    exists s, bop_fold_path gvcb f g n ⇓ Ok (r, g', s).
  Proof.
    pose proof (bfold_path_chain V c_start n G O f g) as E; cbn [clos_init] in E; rewrite bwalk_start in E; cbn [snd] in E.
    unfold bpositions in E; change (@nil V) with (map (nval gvcb) []) in E; rewrite bannotate_map, bfold_up_map in E.
    fold (bpositions (bt n)) in E; cbn [pos_map pos_path pos_here] in E.
    destruct (bfold_up _ g (bpositions (bt n))) as [g' r]; destruct E as (s & E); exists s; apply unwrap_fst2_ok; exact E.
  Qed.
End Binary.
