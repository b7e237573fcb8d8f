(** * Edits without state which only take children away, or move them: the edited tree exists. *)
From Coq Require Import Permutation.
From Verif Require Import Prelim PrelimFacts Spec SpecFacts SpecObs SpecEdit ModelNode NodeFacts ModelBfs ModelPre ModelEdit ProofsMore ProofsEdit.
From Verif Require ProofsPath.

Lemma edits_stateless {X P C} (e : X -> C) (seen : P -> X) (kids : P -> C) xs :
  Forall (fun x => e (seen x) = kids x) xs -> edits_into (fun _ c => (tt, e c)) seen kids tt xs tt.
Proof. induction 1 as [|x xs E _ IH]; [constructor|econstructor; [rewrite E; reflexivity|exact IH]]. Qed.

Section Nary.
  Context {Nd V : Type} (gvc : Nd -> V * list Nd) (nt : Nd -> tree Nd) (e : tree_context V (list Nd) -> list Nd).
  Hypothesis Hnt : node_tree gvc nt.
  Hypothesis He : forall c l, c_children c = Some l -> incl (e c) l /\ length (e c) <= length l.

  Lemma removals_at n : forall P (ab : list (tree Nd)), exists t, root t = n /\
    (forall ab', map root ab' = map root ab ->
      Forall (fun x => e (context_at gvc (node_at x)) = kids_in x) (preorder (annotate P ab' (subtrees t)))) /\
    (small_nodes gvc (nt n) -> small_tree t).
  Proof.
    induction n as [n IH] using (node_ind gvc nt Hnt); intros P ab.
    set (c := mkCtx (map N.of_nat P) (map (nval gvc) (map root ab ++ [n])) (Some (nkids gvc n))).
    destruct (He c _ eq_refl) as [Hincl Hlen].
    assert (Hts : forall l i, incl l (nkids gvc n) -> exists ts, map root ts = l /\
      (forall ab', map root ab' = map root ab ++ [n] ->
        Forall (Forall (fun x => e (context_at gvc (node_at x)) = kids_in x))
        (mapi (fun j t => preorder (annotate (P ++ [j]) ab' (subtrees t))) i ts)) /\
      (small_nodes gvc (nt n) -> Forall small_tree ts)).
    { induction l as [|m l IHl]; intros i Hl.
      - exists []; repeat split; [intros; constructor|intros; constructor].
      - destruct (IHl (S i)) as (ts & E & Hf & Hs); [intros a Ha; apply Hl; right; exact Ha|].
        rewrite Forall_forall in IH.
        destruct (IH m (Hl m (or_introl eq_refl)) (P ++ [i]) (ab ++ [TNode n []])) as (t & Er & Ht & Hst).
        exists (t :: ts); split; [cbn; rewrite Er, E; reflexivity|]; split.
        + intros ab' Eab; cbn [mapi]; constructor; [|apply Hf; exact Eab].
          apply Ht; rewrite map_app; exact Eab.
        + intros Hsm; constructor; [|apply Hs, Hsm]; apply Hst.
          unfold small_nodes in *; rewrite (nt_unfold gvc nt Hnt n) in Hsm; cbn [preorder] in Hsm.
          apply Forall_inv_tail in Hsm; rewrite Forall_forall in Hsm |- *; intros y Hy; apply Hsm.
          rewrite flat_map_concat_map, map_map, <- flat_map_concat_map; apply in_flat_map; exists m; split; [apply Hl; left; reflexivity|exact Hy]. }
    destruct (Hts (e c) 0 Hincl) as (ts & E & Hf & Hs).
    exists (TNode n ts); split; [reflexivity|]; split.
    - intros ab' Eab; cbn [subtrees annotate preorder]; constructor.
      + unfold context_at, node_at, kids_in; cbn; rewrite Eab; fold c; rewrite E; reflexivity.
      + rewrite mapi_map, flat_map_concat_map, map_mapi.
        apply Forall_concat; specialize (Hf (ab' ++ [TNode n ts])).
        rewrite map_app in Hf; cbn in Hf; rewrite Eab in Hf; exact (Hf eq_refl).
    - intros Hsm; unfold small_tree; cbn [subtrees preorder]; constructor.
      + cbn. unfold small_nodes in Hsm; rewrite (nt_unfold gvc nt Hnt n) in Hsm; cbn [preorder] in Hsm; apply Forall_inv in Hsm.
        replace (length ts) with (length (map root ts)) by apply map_length; rewrite E; lia.
      + rewrite flat_map_concat_map, map_map, <- flat_map_concat_map.
        specialize (Hs Hsm); clear -Hs; induction Hs as [|t ts Ht _ IHs]; cbn; [constructor|].
        apply Forall_app; split; [exact Ht|exact IHs].
  Qed.

  (** The edited tree. *)
  Lemma removals n : small_nodes gvc (nt n) -> exists t, root t = n /\ small_tree t /\
    Forall (fun x => e (context_at gvc (node_at x)) = kids_in x) (preorder (positions (subtrees t))).
  Proof.
    intros Hs; destruct (removals_at n [] []) as (t & Er & Ht & Hst).
    exists t; split; [exact Er|]; split; [apply Hst, Hs|apply Ht; reflexivity].
  Qed.
End Nary.

Section Binary.
  Context {Nd V : Type} (gvcb : Nd -> V * (option Nd * option Nd)) (bt : Nd -> btree Nd)
    (e : tree_context V (option Nd * option Nd) -> option Nd * option Nd).
  Hypothesis Hbt : node_btree gvcb bt.
  Hypothesis He : forall c l r, c_children c = Some (l, r) ->
    (fst (e c) = None \/ fst (e c) = l \/ fst (e c) = r) /\ (snd (e c) = None \/ snd (e c) = l \/ snd (e c) = r).

  Lemma bremovals_at n : forall P (ab : list (btree Nd)), exists t, broot t = n /\
    forall ab', map broot ab' = map broot ab ->
      Forall (fun x => e (context_at gvcb (bnode_at x)) = bkids_in x) (preorder (flat (bannotate P ab' (bsubtrees t)))).
  Proof.
    induction n as [n IHl IHr] using (bnode_ind gvcb bt Hbt); intros P ab.
    set (c := mkCtx (map N.of_nat P) (map (nval gvcb) (map broot ab ++ [n])) (Some (nkids gvcb n))).
    destruct (He c (nleft gvcb n) (nright gvcb n)) as [Hel Her].
    { unfold c, nleft, nright, nkids; cbn; destruct (snd (gvcb n)); reflexivity. }
    assert (Hone : forall i o, (o = None \/ o = nleft gvcb n \/ o = nright gvcb n) -> exists ot, option_map broot ot = o /\
      forall ab', map broot ab' = map broot ab ++ [n] ->
        forall x, In x (match ot with Some t => preorder (flat (bannotate (P ++ [i]) ab' (bsubtrees t))) | None => [] end) ->
        e (context_at gvcb (bnode_at x)) = bkids_in x).
    { intros i o Ho.
      assert (Ho' : o = None \/ OForall (fun n => forall P (ab : list (btree Nd)), exists t, broot t = n /\
        forall ab', map broot ab' = map broot ab ->
          Forall (fun x => e (context_at gvcb (bnode_at x)) = bkids_in x) (preorder (flat (bannotate P ab' (bsubtrees t))))) o)
        by (destruct Ho as [->|[->| ->]]; auto).
      destruct o as [m|]; [|exists None; split; [reflexivity|intros ? ? ? []]].
      destruct Ho' as [Ho'|Ho']; [discriminate|]; cbn in Ho'.
      destruct (Ho' (P ++ [i]) (ab ++ [BNode n None None])) as (t & Er & Ht).
      exists (Some t); split; [cbn; rewrite Er; reflexivity|].
      intros ab' Eab x Hx; specialize (Ht ab'); rewrite map_app in Ht; specialize (Ht Eab).
      rewrite Forall_forall in Ht; apply Ht; exact Hx. }
    destruct (Hone 0 _ Hel) as (l & El & Hl), (Hone 1 _ Her) as (r & Er & Hr).
    exists (BNode n l r); split; [reflexivity|].
    intros ab' Eab; cbn [bsubtrees bannotate flat preorder]; constructor.
    - unfold context_at, bnode_at, bkids_in; cbn; rewrite Eab; fold c; rewrite El, Er; destruct (e c); reflexivity.
    - specialize (Hl (ab' ++ [BNode n l r])); specialize (Hr (ab' ++ [BNode n l r])).
      rewrite map_app in Hl, Hr; cbn [map broot] in Hl, Hr; rewrite Eab in Hl, Hr.
      rewrite Forall_forall; intros x Hx; rewrite flat_map_app in Hx; apply in_app_or in Hx; destruct Hx as [Hx|Hx].
      + apply (Hl eq_refl); destruct l; cbn in Hx |- *; rewrite ?app_nil_r in Hx; exact Hx.
      + apply (Hr eq_refl); destruct r; cbn in Hx |- *; rewrite ?app_nil_r in Hx; exact Hx.
  Qed.

  Lemma bremovals n : exists t, broot t = n /\
    Forall (fun x => e (context_at gvcb (bnode_at x)) = bkids_in x) (preorder (flat (bpositions (bsubtrees t)))).
  Proof. destruct (bremovals_at n [] []) as (t & Er & Ht); exists t; split; [exact Er|apply Ht; reflexivity]. Qed.
End Binary.
