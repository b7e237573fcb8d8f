(** * The cache of the breadth-first context iterators does not look at values. *)
From Verif Require Import Prelim PrelimFacts Spec ModelNode ModelBfs ProofsPre.

Section Nat.
  Context {U V : Type} (h : U -> V).

  Fixpoint cnm (c : cnode U) : cnode V :=
    match c with CNode v s l => CNode (option_map h v) s (map (option_map cnm) l) end.
  Definition cnd := map (option_map cnm).
  Definition pnm (s : cdfs_st (V:=U)) : cdfs_st (V:=V) :=
    let '(anc, path, cache, stack) := s in (map h anc, path, cnm cache, map cnm stack).

  Lemma cnm_children c : cn_children (cnm c) = cnd (cn_children c).
  Proof. destruct c; reflexivity. Qed.
  Lemma cnm_set c l : cnm (cn_set_children c l) = cn_set_children (cnm c) (cnd l).
  Proof. destruct c; reflexivity. Qed.
  Lemma top_nm stack cache : top_children (map cnm stack) (cnm cache) = cnd (top_children stack cache).
  Proof. destruct stack; cbn; apply cnm_children. Qed.
  Lemma set_top_nm stack cache l : set_top_children (map cnm stack) (cnm cache) (cnd l) =
    (map cnm (fst (set_top_children stack cache l)), cnm (snd (set_top_children stack cache l))).
  Proof. destruct stack; cbn; rewrite cnm_set; reflexivity. Qed.
  Lemma cnd_app a b : cnd (a ++ b) = cnd a ++ cnd b.
  Proof. apply map_app. Qed.

  Lemma body_nm sd f s x : cadvance_dfs_body sd f s = Ok x ->
    cadvance_dfs_body sd f (pnm s) = Ok (sum_map pnm pnm x).
  Proof.
    destruct s as [[[anc path] cache] stack]; unfold cadvance_dfs_body, pnm at 1.
    rewrite top_nm; destruct (top_children stack cache) as [|child rest]; cbn [cnd map].
    { intros E; injection E as <-; reflexivity. }
    change (map (option_map cnm) rest) with (cnd rest); rewrite set_top_nm.
    destruct (set_top_children stack cache rest) as [stack1 cache1]; cbn [fst snd].
    destruct child as [[value seg ch]|]; cbn [option_map cnm].
    - destruct value as [v|]; cbn [assume_init bindR option_map]; [|discriminate].
      cbn [length]; rewrite map_length.
      destruct ch as [|c ch]; cbn [map negb andb].
      + cbn [length]; destruct (sd <=? S (length anc)); intros E; injection E as <-; reflexivity.
      + intros E; injection E as <-; reflexivity.
    - assert (Hset : (match cnd rest with [] => (map cnm stack1, cnm cache1) | _ :: _ => set_top_children (map cnm stack1) (cnm cache1) (cnd rest ++ [None]) end) =
        (map cnm (fst (match rest with [] => (stack1, cache1) | _ :: _ => set_top_children stack1 cache1 (rest ++ [None]) end)),
         cnm (snd (match rest with [] => (stack1, cache1) | _ :: _ => set_top_children stack1 cache1 (rest ++ [None]) end)))).
      { destruct rest as [|o rest]; [reflexivity|].
        rewrite <- set_top_nm, cnd_app; reflexivity. }
      rewrite Hset; clear Hset.
      destruct (match rest with [] => (stack1, cache1) | _ :: _ => set_top_children stack1 cache1 (rest ++ [None]) end) as [stack2 cache2]; cbn [fst snd].
      rewrite map_length; destruct (1 <? length anc).
      + destruct stack2 as [|[v2 s2 l2] stack2]; [discriminate|]; cbn [map cnm].
        destruct anc as [|v anc]; [discriminate|]; destruct path as [|p path]; [discriminate|]; cbn [bindR map].
        rewrite top_nm.
        change (cnd (top_children stack2 cache2) ++ [Some (CNode (Some (h v)) p (map (option_map cnm) l2))]) with
          (cnd (top_children stack2 cache2) ++ cnd [Some (CNode (Some v) p l2)]).
        rewrite <- cnd_app, set_top_nm.
        destruct (set_top_children stack2 cache2 _) as [stack3 cache3].
        intros E; injection E as <-; reflexivity.
      + cbn [bindR]; destruct stack2 as [|x2 stack2]; cbn [map].
        * intros E; injection E as <-; reflexivity.
        * rewrite top_nm.
          change [Some (cnm x2)] with (cnd [Some x2]); rewrite <- cnd_app, set_top_nm.
          destruct (set_top_children stack2 cache2 _) as [stack3 cache3].
          intros E; injection E as <-; reflexivity.
  Qed.

  Lemma advance_nm f s s' : cadvance_dfs f s = Ok s' -> cadvance_dfs f (pnm s) = Ok (pnm s').
  Proof.
    destruct s as [[[anc path] cache] stack]; unfold cadvance_dfs; cbn [pnm]; rewrite map_length.
    apply (loop_sim_ok pnm pnm _ _ (body_nm (length anc))).
  Qed.

  Lemma drop_nm : forall stack anc path,
    cdrop_finished (map h anc) path (map cnm stack) =
    let '(anc', path', stack') := cdrop_finished anc path stack in (map h anc', path', map cnm stack').
  Proof.
    induction stack as [|x stack IH]; intros anc path; cbn [map cdrop_finished]; [reflexivity|].
    rewrite cnm_children; unfold cnd; rewrite map_length.
    destruct (1 <? length (cn_children x)); [reflexivity|]; rewrite <- IH; destruct anc; reflexivity.
  Qed.

  Lemma to_next_nm f s s' : cto_next_parent f s = Ok s' -> cto_next_parent f (pnm s) = Ok (pnm s').
  Proof.
    destruct s as [[[anc path] cache] stack]; unfold cto_next_parent; cbn [pnm].
    rewrite top_nm; destruct (top_children stack cache) as [|o l]; cbn [cnd map].
    - rewrite (drop_nm stack anc path); destruct (cdrop_finished anc path stack) as [[anc' path'] stack'].
      apply advance_nm.
    - pose proof (set_top_nm stack cache (None :: o :: l)) as E; cbn [cnd map option_map] in E |- *; rewrite E.
      destruct (set_top_children stack cache (None :: o :: l)) as [stack' cache']; apply advance_nm.
  Qed.

  Lemma update_nm g g' : (forall x, cnm (g x) = g' (cnm x)) -> forall stack i,
    update_from_bottom i g' (map cnm stack) = option_map (map cnm) (update_from_bottom i g stack).
  Proof.
    intros H stack i; unfold update_from_bottom; rewrite <- map_rev.
    assert (E : forall l i, update_nth i g' (map cnm l) = option_map (map cnm) (update_nth i g l)).
    { induction l as [|x l IH]; intros [|j]; cbn; try reflexivity; [rewrite H; reflexivity|].
      rewrite IH; destruct (update_nth j g l); reflexivity. }
    rewrite E; destruct (update_nth i g (rev stack)); cbn; [rewrite map_rev|]; reflexivity.
  Qed.

  Lemma maybe_pop_nm s s' : cmaybe_pop s = Ok s' -> cmaybe_pop (pnm s) = Ok (pnm s').
  Proof.
    destruct s as [[[anc path] cache] stack]; unfold cmaybe_pop; cbn [pnm]; rewrite !map_length.
    destruct (length anc =? length stack + 2); [|intros E; injection E as <-; reflexivity].
    unfold cpop_from_item_stack.
    destruct anc as [|v [|a below]]; [discriminate|intros E; injection E as <-; reflexivity|].
    destruct path as [|p path]; [discriminate|].
    assert (Hg : forall x, cnm (cn_set_children x (cn_children x ++ [Some (CNode (Some v) p [])])) =
                           cn_set_children (cnm x) (cn_children (cnm x) ++ [Some (CNode (Some (h v)) p [])])).
    { intros x; rewrite cnm_set, cnm_children, cnd_app; reflexivity. }
    destruct below as [|b below]; cbn [map].
    - intros E; injection E as <-; cbn [pnm tl map]; rewrite Hg; reflexivity.
    - rewrite (update_nm (fun n => cn_set_children n (cn_children n ++ [Some (CNode (Some v) p [])]))) by exact Hg.
      cbn [length]; rewrite map_length.
      destruct (update_from_bottom _ _ stack) as [stack'|]; [|discriminate].
      intros E; injection E as <-; reflexivity.
  Qed.
End Nat.
