(** * The cache of the breadth-first iterators with ancestors does not look at values. *)
From Verif Require Import Prelim PrelimFacts Spec ModelNode ModelBfs ProofsPre ProofsNat.

Section Nat.
  Context {U V : Type} (h : U -> V).
  Local Notation cnm := (cnm h).
  Local Notation cnd := (cnd h).
  Definition anm (s : dfs_st (V:=U)) : dfs_st (V:=V) :=
    let '(items, cache, stack) := s in (map h items, cnm cache, map cnm stack).

  Lemma abody_nm sd f s x : advance_dfs_body sd f s = Ok x ->
    advance_dfs_body sd f (anm s) = Ok (sum_map anm anm x).
  Proof.
    destruct s as [[anc cache] stack]; unfold advance_dfs_body, anm at 1.
    rewrite top_nm; destruct (top_children stack cache) as [|child rest]; cbn [ProofsNat.cnd map].
    { intros E; injection E as <-; reflexivity. }
    change (map (option_map cnm) rest) with (cnd rest); rewrite set_top_nm.
    destruct (set_top_children stack cache rest) as [stack1 cache1]; cbn [fst snd].
    destruct child as [[value seg ch]|]; cbn [option_map ProofsNat.cnm].
    - destruct value as [v|]; cbn [assume_init bindR option_map]; [|discriminate].
      cbn [length]; rewrite map_length.
      destruct ch as [|c ch]; cbn [map negb andb].
      + cbn [length]; destruct (sd <=? S (length anc)); intros E; injection E as <-; reflexivity.
      + intros E; injection E as <-; reflexivity.
    - assert (Hset : (match cnd rest with [] => (map cnm stack1, cnm cache1) | _ :: _ => set_top_children (map cnm stack1) (cnm cache1) (cnd rest ++ [None]) end) =
        (map cnm (fst (match rest with [] => (stack1, cache1) | _ :: _ => set_top_children stack1 cache1 (rest ++ [None]) end)),
         cnm (snd (match rest with [] => (stack1, cache1) | _ :: _ => set_top_children stack1 cache1 (rest ++ [None]) end)))).
      { destruct rest as [|o rest]; [reflexivity|].
        rewrite <- set_top_nm, cnd_app; reflexivity. }
      rewrite Hset; clear Hset.
      destruct (match rest with [] => (stack1, cache1) | _ :: _ => set_top_children stack1 cache1 (rest ++ [None]) end) as [stack2 cache2]; cbn [fst snd].
      rewrite map_length; destruct (1 <? length anc).
      + destruct stack2 as [|[v2 s2 l2] stack2]; [discriminate|]; cbn [map ProofsNat.cnm].
        destruct anc as [|v anc]; [discriminate|]; cbn [bindR map].
        rewrite top_nm.
        change (cnd (top_children stack2 cache2) ++ [Some (CNode (Some (h v)) s2 (map (option_map cnm) l2))]) with
          (cnd (top_children stack2 cache2) ++ cnd [Some (CNode (Some v) s2 l2)]).
        rewrite <- cnd_app, set_top_nm.
        destruct (set_top_children stack2 cache2 _) as [stack3 cache3].
        intros E; injection E as <-; reflexivity.
      + cbn [bindR]; destruct stack2 as [|x2 stack2]; cbn [map].
        * intros E; injection E as <-; reflexivity.
        * rewrite top_nm.
          change [Some (cnm x2)] with (cnd [Some x2]); rewrite <- cnd_app, set_top_nm.
          destruct (set_top_children stack2 cache2 _) as [stack3 cache3].
          intros E; injection E as <-; reflexivity.
  Qed.

  Lemma aadvance_nm f s s' : advance_dfs f s = Ok s' -> advance_dfs f (anm s) = Ok (anm s').
  Proof.
    destruct s as [[anc cache] stack]; unfold advance_dfs; cbn [anm]; rewrite map_length.
    apply (loop_sim_ok anm anm _ _ (abody_nm (length anc))).
  Qed.

  Lemma adrop_nm : forall stack anc,
    drop_finished (map h anc) (map cnm stack) =
    let '(anc', stack') := drop_finished anc stack in (map h anc', map cnm stack').
  Proof.
    induction stack as [|x stack IH]; intros anc; cbn [map drop_finished]; [reflexivity|].
    rewrite cnm_children; unfold ProofsNat.cnd; rewrite map_length.
    destruct (1 <? length (cn_children x)); [reflexivity|]; rewrite <- IH; destruct anc; reflexivity.
  Qed.

  Lemma ato_next_nm f s s' : to_next_parent f s = Ok s' -> to_next_parent f (anm s) = Ok (anm s').
  Proof.
    destruct s as [[anc cache] stack]; unfold to_next_parent; cbn [anm].
    rewrite top_nm; destruct (top_children stack cache) as [|o l]; cbn [ProofsNat.cnd map].
    - rewrite (adrop_nm stack anc); destruct (drop_finished anc stack) as [anc' stack'].
      apply aadvance_nm.
    - pose proof (set_top_nm h stack cache (None :: o :: l)) as E; cbn [ProofsNat.cnd map option_map] in E |- *; rewrite E.
      destruct (set_top_children stack cache (None :: o :: l)) as [stack' cache']; apply aadvance_nm.
  Qed.

  Lemma amaybe_pop_nm s s' : maybe_pop s = Ok s' -> maybe_pop (anm s) = Ok (anm s').
  Proof.
    destruct s as [[anc cache] stack]; unfold maybe_pop; cbn [anm]; rewrite !map_length.
    destruct (length anc =? length stack + 2); [|intros E; injection E as <-; reflexivity].
    unfold pop_from_item_stack.
    destruct anc as [|v [|a below]]; [discriminate|intros E; injection E as <-; reflexivity|].
    assert (Hg : forall x, cnm (cn_set_children x (cn_children x ++ [Some (CNode (Some v) 0 [])])) =
                           cn_set_children (cnm x) (cn_children (cnm x) ++ [Some (CNode (Some (h v)) 0 [])])).
    { intros x; rewrite cnm_set, cnm_children, cnd_app; reflexivity. }
    destruct below as [|b below]; cbn [map].
    - intros E; injection E as <-; cbn [anm tl map]; rewrite Hg; reflexivity.
    - rewrite (update_nm h (fun n => cn_set_children n (cn_children n ++ [Some (CNode (Some v) 0 [])]))) by exact Hg.
      cbn [length]; rewrite map_length.
      destruct (update_from_bottom _ _ stack) as [stack'|]; [|discriminate].
      intros E; injection E as <-; reflexivity.
  Qed.
End Nat.
