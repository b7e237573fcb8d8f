(** * ProofsUnwindCollCtx: the contexts of binary trees and the owned contexts over collections, when nodes panic *)
From Verif Require Import Prelim PrelimFacts FuelMono Spec SpecFacts SpecObs ModelNode NodeFacts ModelBfs ModelPre ModelPost ModelIn ModelColl ModelUnwind ModelUnwindCtx SpecUnwind ModelUnwindColl.
From Verif Require Import Slots ProofsPlain ProofsColl ProofsPre ProofsPost ProofsIn ProofsTree ProofsBfs ProofsUnwind ProofsUnwindIn ProofsUnwindUntil ProofsUnwindTotal ProofsUnwindCtx ProofsUnwindColl.

Section Whole.
  Context {T S A : Type} (new : T -> list N -> option S) (next : nat -> S -> Res (option (outcome A) * S)) (get : S -> option A).
  Hypothesis Hget : forall f s a s', next f s = Ok (Some (Got a), s') -> get s' = Some a.
  Variable ok : T -> Prop.
  Variable L : nat -> T -> list (outcome A).
  Context (trees : list T).
  Hypothesis Hok : Forall ok trees.
  Hypothesis Hlen : (N.of_nat (length trees) <= usize_max)%N.

  Lemma whole_until : (forall i t, ok t -> match new t [N.of_nat i] with Some it => yields_until_panic next it (L i t) | None => L i t = [Unwound] end) ->
    yields_until_panic (ucollc_next new next get) (mkCollc trees usize_max None) (each L trees).
  Proof.
    intros HL; apply (unfolds_until _ (ucollc_R (yields_until_panic next) ok L)); [|apply ucollc_start; assumption].
    apply ucollc_unfolds; [apply until_unfolds|discriminate|exact Hget|exact HL].
  Qed.
  Lemma whole_yields : (forall i t, ok t -> match new t [N.of_nat i] with Some it => yields next it (L i t) | None => L i t = [Unwound] end) ->
    yields (ucollc_next new next get) (mkCollc trees usize_max None) (each L trees).
  Proof.
    intros HL; apply (unfolds_yields _ (ucollc_R (yields next) ok L)); [|apply ucollc_start; assumption].
    apply ucollc_unfolds; [apply yields_unfolds|exact Logic.I|exact Hget|exact HL].
  Qed.
  (** A tree gives all of its list if nothing in it panics, or if its root does and the iterator ends after that. *)
  Lemma whole_roots : (forall i t, ok t -> match new t [N.of_nat i] with Some it => yields_until_panic next it (L i t) | None => L i t = [Unwound] end) ->
    (forall i t it, ok t -> new t [N.of_nat i] = Some it -> ~ In Unwound (L i t) \/ yields next it (L i t)) ->
    yields (ucollc_next new next get) (mkCollc trees usize_max None) (each L trees).
  Proof.
    intros HL Hr; apply whole_yields; intros i t Ht; specialize (HL i t Ht); specialize (Hr i t); destruct (new t [N.of_nat i]) as [it|]; [|exact HL].
    destruct (Hr it Ht eq_refl) as [Hq|Hy]; [apply until_all; assumption|exact Hy].
  Qed.
End Whole.

Lemma bannotate_here_flat {A} (t : btree A) : tree_map pos_here (flat (bpositions t)) = flat t.
Proof. rewrite <- flat_btree_map; unfold bpositions; rewrite bannotate_here; reflexivity. Qed.

Section BTreesCtx.
  Context {Nd V : Type} (gvcb : Nd -> option (V * (option Nd * option Nd))) (bt : Nd -> btree Nd) (Hbt : fnode_btree gvcb bt) (trees : list Nd).
  Hypothesis Hlen : (N.of_nat (length trees) <= usize_max)%N.
  Notation told f := (fun i n => map (fun p => seen_context gvcb (in_tree i p)) (f (flat (bpositions (bt n))))).

  Lemma each_bseen (f : forall X, tree X -> list X) :
    (forall X Y (g : X -> Y) t, f Y (tree_map g t) = map g (f X t)) -> forall i t,
    map (seen_context gvcb) (f _ (flat (bannotate [i] [] (bt t)))) = map (fun p => seen_context gvcb (in_tree i p)) (f _ (flat (bpositions (bt t)))).
  Proof. intros Hf i t; rewrite bannotate_prefix, flat_btree_map, Hf, map_map; reflexivity. Qed.
  Lemma root_balone (f : forall X, tree X -> list X) i n : gvcb n = None -> (forall X (x : X), f X (TNode x []) = [x]) ->
    map (fun p => seen_context gvcb (in_tree i p)) (f _ (flat (bpositions (bt n)))) = [Unwound].
  Proof. intros E Hf; rewrite Hbt, E; unfold bpositions; cbn; rewrite Hf; cbn; unfold seen_context; cbn; rewrite E; reflexivity. Qed.
  Lemma quiet_btree (f : forall X, tree X -> list X) i n : (forall m, In m (preorder (flat (bt n))) -> gvcb m <> None) ->
    (forall X (t : tree X) x, In x (f X t) -> In x (preorder t)) ->
    ~ In Unwound (map (fun p => seen_context gvcb (in_tree i p)) (f _ (flat (bpositions (bt n))))).
  Proof.
    intros Hr Hf Hu; apply in_map_iff in Hu as (p & Ep & Hp); apply (Hr (pos_here p)).
    - rewrite <- bannotate_here_flat, preorder_map; apply in_map, Hf, Hp.
    - unfold seen_context in Ep; cbn [in_tree pos_here] in Ep; destruct (gvcb (pos_here p)) as [[? ?]|]; [discriminate Ep|reflexivity].
  Qed.

  Lemma precb_tree i n : yields_until_panic (uprecb_next gvcb) (prec_new n [N.of_nat i]) (told preorder i n).
  Proof. cbv beta; rewrite <- (each_bseen (fun X => @preorder X)) by (intros; apply preorder_map); exact (precb_until gvcb bt [i] n Hbt). Qed.
  Lemma postcb_tree i n : yields_until_panic (upostcb_next gvcb) (postc_new n [N.of_nat i]) (told postorder i n).
  Proof. cbv beta; rewrite <- (each_bseen (fun X => @postorder X)) by (intros; apply postorder_map); exact (postcb_until gvcb bt [i] n Hbt). Qed.
  Lemma postcob_tree i n : yields_until_panic (upostcob_next gvcb) (postco_new n [N.of_nat i]) (map (outcome_map no_children) (told postorder i n)).
  Proof. exact (until_sim_ok forget_postc no_children _ _ (postcob_until_sim gvcb) _ _ (postcb_tree i n)). Qed.
  Lemma bfscb_tree i n : match ubfscb_start gvcb n [N.of_nat i] with
    | Some it => yields_until_panic (ubfscb_next gvcb) it (told bfs i n)
    | None => told bfs i n = [Unwound]
    end.
  Proof.
    destruct (ubfscb_start gvcb n [N.of_nat i]) as [it|] eqn:E.
    - cbv beta; rewrite <- (each_bseen (fun X => @bfs X)) by (intros; apply bfs_map); exact (bfscb_until gvcb bt [i] n it Hbt E).
    - apply (root_balone (@bfs)); [|reflexivity]; unfold ubfscb_start in E; destruct (gvcb n) as [[v c]|]; [discriminate E|reflexivity].
  Qed.

  Lemma all_true : Forall (fun _ : Nd => True) trees.
  Proof. apply Forall_forall; auto. Qed.

  Lemma uprecb_each : yields_until_panic (uprecb_each_next gvcb) (mkCollc trees usize_max None) (each (told preorder) trees).
  Proof. apply (whole_until _ _ _ (observe_got _ _) (fun _ => True)); [apply all_true|exact Hlen|intros i n _; apply precb_tree]. Qed.
  Lemma upostcb_each : yields_until_panic (upostcb_each_next gvcb) (mkCollc trees usize_max None) (each (told postorder) trees).
  Proof. apply (whole_until _ _ _ (observe_got _ _) (fun _ => True)); [apply all_true|exact Hlen|intros i n _; apply postcb_tree]. Qed.
  Lemma ubfscb_each : yields_until_panic (ubfscb_each_next gvcb) (mkCollc trees usize_max None) (each (told bfs) trees).
  Proof. apply (whole_until _ _ _ (observe_got _ _) (fun _ => True)); [apply all_true|exact Hlen|intros i n _; apply bfscb_tree]. Qed.
  Lemma upostcob_each : yields_until_panic (upostcob_each_next gvcb) (mkCollc trees usize_max None)
    (each (fun i n => map (outcome_map no_children) (told postorder i n)) trees).
  Proof. apply (whole_until _ _ _ (observe_got _ _) (fun _ => True)); [apply all_true|exact Hlen|intros i n _; apply postcob_tree]. Qed.

  (** Inorder, owned. *)
  Lemma uinco_each : yields (uinco_each_next gvcb) (mkCollc trees usize_max None)
    (each (fun i n => map (outcome_map no_children) (map (fun p => seen_context gvcb (in_tree i p)) (inorder (bpositions (bt n))))) trees).
  Proof.
    apply (whole_yields _ _ _ (observe_got _ _) (fun _ => True)); [apply all_true|exact Hlen|]; intros i n _.
    exact (yields_sim_ok forget_inc (outcome_map no_children) _ _ (uinco_next_sim gvcb) _ _ (inc_tree gvcb bt Hbt i n)).
  Qed.

  (** Only roots panic. *)
  Definition brooted (n : Nd) : Prop := gvcb n = None \/ forall m, In m (preorder (flat (bt n))) -> gvcb m <> None.
  Hypothesis Hroots : Forall brooted trees.

  Lemma precb_root i n : gvcb n = None -> yields (uprecb_next gvcb) (prec_new n [N.of_nat i]) [Unwound].
  Proof.
    intros E; apply (ends_once _ _ (mkPrec None [] [N.of_nat i] [] None)); [|apply conv_eq; reflexivity].
    apply conv_eq; intros f; unfold uprecb_next, uprecb_advance, prec_new; cbn [pc_root]; rewrite E; reflexivity.
  Qed.
  Lemma postcb_root i n : gvcb n = None -> yields (upostcb_next gvcb) (postc_new n [N.of_nat i]) [Unwound].
  Proof.
    intros E; apply (ends_once _ _ (mkPostc None [] [] [N.of_nat i] [] None)); [|apply conv_eq; reflexivity].
    apply conv_eq; intros f; unfold upostcb_next, upostcb_advance, postc_new; cbn [ModelPost.pt_root]; rewrite E; reflexivity.
  Qed.
  Lemma postcob_root i n : gvcb n = None -> yields (upostcob_next gvcb) (postco_new n [N.of_nat i]) [Unwound].
  Proof.
    intros E; apply (ends_once _ _ (mkPostcO None [] [N.of_nat i] [])); [|apply conv_eq; reflexivity].
    apply conv_eq; intros f; unfold upostcob_next, upostco_next_with, upostco_advance, postco_new; cbn [pto_root]; rewrite E; reflexivity.
  Qed.

  Lemma uprecb_each_roots : yields (uprecb_each_next gvcb) (mkCollc trees usize_max None) (each (told preorder) trees).
  Proof.
    apply (whole_roots _ _ _ (observe_got _ _) brooted); [exact Hroots|exact Hlen|intros i n _; apply precb_tree|].
    intros i n it [E|Hq] Eit; injection Eit as <-; [right|left; apply (quiet_btree (@preorder)); auto].
    cbv beta; rewrite (root_balone (@preorder)) by (exact E || reflexivity); apply precb_root, E.
  Qed.
  Lemma upostcb_each_roots : yields (upostcb_each_next gvcb) (mkCollc trees usize_max None) (each (told postorder) trees).
  Proof.
    apply (whole_roots _ _ _ (observe_got _ _) brooted); [exact Hroots|exact Hlen|intros i n _; apply postcb_tree|].
    intros i n it [E|Hq] Eit; injection Eit as <-; [right|left; apply (quiet_btree (@postorder)); [exact Hq|]].
    - cbv beta; rewrite (root_balone (@postorder)) by (exact E || reflexivity); apply postcb_root, E.
    - intros X t x Hx; eapply Permutation.Permutation_in; [apply postorder_perm|exact Hx].
  Qed.
  Lemma ubfscb_each_roots : yields (ubfscb_each_next gvcb) (mkCollc trees usize_max None) (each (told bfs) trees).
  Proof.
    apply (whole_roots _ _ _ (observe_got _ _) brooted); [exact Hroots|exact Hlen|intros i n _; apply bfscb_tree|].
    intros i n it [E|Hq] Eit; [unfold ubfscb_start in Eit; rewrite E in Eit; discriminate Eit|left; apply (quiet_btree (@bfs)); [exact Hq|]].
    intros X t x Hx; eapply Permutation.Permutation_in; [apply bfs_perm|exact Hx].
  Qed.
  Lemma upostcob_each_roots : yields (upostcob_each_next gvcb) (mkCollc trees usize_max None)
    (each (fun i n => map (outcome_map no_children) (told postorder i n)) trees).
  Proof.
    apply (whole_roots _ _ _ (observe_got _ _) brooted); [exact Hroots|exact Hlen|intros i n _; apply postcob_tree|].
    intros i n it [E|Hq] Eit; injection Eit as <-; [right|left].
    - cbv beta; rewrite (root_balone (@postorder)) by (exact E || reflexivity); apply postcob_root, E.
    - intros Hu; apply in_map_iff in Hu as ([c|] & Eo & Hi); [discriminate Eo|]; revert Hi; apply (quiet_btree (@postorder)); [exact Hq|].
      intros X t x Hx; eapply Permutation.Permutation_in; [apply postorder_perm|exact Hx].
  Qed.
End BTreesCtx.

Section TreesOwned.
  Context {Nd V : Type} (gvc : Nd -> option (V * list Nd)) (nt : Nd -> tree Nd) (Hnt : fnode_tree gvc nt) (trees : list Nd).
  Hypothesis Hsmall : Forall (fun n => small_fnodes gvc (nt n)) trees.
  Hypothesis Hlen : (N.of_nat (length trees) <= usize_max)%N.
  Notation told := (fun i n => map (outcome_map no_children) (map (fun p => seen_context gvc (in_tree i p)) (postorder (positions (nt n))))).

  Lemma postco_tree i n : small_fnodes gvc (nt n) -> yields_until_panic (upostco_next gvc) (postco_new n [N.of_nat i]) (told i n).
  Proof.
    intros Hn; refine (until_sim_ok forget_postc no_children _ _ (postco_until_sim gvc) (postc_new n [N.of_nat i]) _ _).
    rewrite <- (each_seen nt gvc (fun X => @postorder X)) by (intros; apply postorder_map); exact (postc_until gvc nt [i] n Hnt Hn).
  Qed.
  Lemma upostco_each : yields_until_panic (upostco_each_next gvc) (mkCollc trees usize_max None) (each told trees).
  Proof. apply (whole_until _ _ _ (observe_got _ _) (fun n => small_fnodes gvc (nt n))); [exact Hsmall|exact Hlen|intros i n Hn; apply postco_tree, Hn]. Qed.

  Hypothesis Hroots : Forall (fun n => gvc n = None \/ forall m, In m (preorder (nt n)) -> gvc m <> None) trees.
  Lemma upostco_each_roots : yields (upostco_each_next gvc) (mkCollc trees usize_max None) (each told trees).
  Proof.
    apply (whole_roots _ _ _ (observe_got _ _) (rooted gvc nt)); [apply all_rooted; assumption|exact Hlen|intros i n [Hn _]; apply postco_tree, Hn|].
    intros i n it [Hn [E|Hq]] Eit; injection Eit as <-; [right|left].
    - cbv beta; rewrite (root_alone gvc nt Hnt (@postorder)) by (exact E || reflexivity).
      apply (ends_once _ _ (mkPostcO None [] [N.of_nat i] [])); [|apply conv_eq; reflexivity].
      apply conv_eq; intros f; unfold upostco_next, upostco_next_with, upostco_advance, postco_new; cbn [pto_root]; rewrite E; reflexivity.
    - intros Hu; apply in_map_iff in Hu as ([c|] & Eo & Hi); [discriminate Eo|]; revert Hi; apply (quiet_tree gvc nt (@postorder)); [exact Hq|].
      intros X t x Hx; eapply Permutation.Permutation_in; [apply postorder_perm|exact Hx].
  Qed.
End TreesOwned.
