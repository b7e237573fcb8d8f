(** Weights of the breadth-first streaming iterators, the inorder iterators, the context iterators and the collections. *)
From Verif Require Import Prelim PrelimFacts Spec ModelNode ModelBfs ModelPre ModelPost ModelIn ModelLeaves ModelColl ModelDrops SpecAlias ModelAlias ProofsAlias.

Section Weights.
  Context {Nd V : Type}.
  Variable wn : Nd -> nat.
  Variable wv : V -> nat.
  Notation wo := (wo wn).
  Notation wov := (wov wv).
  Notation wvs := (wsum wv).

  Ltac go := repeat (rewrite ?wsum_nil, ?wsum_cons, ?wsum_app in * ).
  Ltac inv E := injection E; clear E; intros; subst.

  (** *** The cache of the breadth-first streaming iterators *)
  Definition wcn (c : cnode V) : nat := wvs (cn_values c).
  Definition wd (l : list (option (cnode V))) : nat := wsum (fun o => match o with Some c => wcn c | None => 0 end) l.
  Lemma wcn_eq v p l : wcn (CNode v p l) = wov v + wd l.
  Proof.
    unfold wcn, wd; cbn [cn_values]; rewrite wsum_app; f_equal.
    - destruct v; [cbn [opt_value]; rewrite wsum_cons, wsum_nil; cbn; lia|reflexivity].
    - induction l as [|[c|] l IH]; [reflexivity| |]; cbn [flat_map]; rewrite wsum_app, IH, wsum_cons; reflexivity.
  Qed.
  Lemma wd_nil : wd [] = 0. Proof. reflexivity. Qed.
  Lemma wd_some c l : wd (Some c :: l) = wcn c + wd l. Proof. reflexivity. Qed.
  Lemma wd_none l : wd (None :: l) = wd l. Proof. reflexivity. Qed.
  Lemma wd_app a b : wd (a ++ b) = wd a + wd b. Proof. apply wsum_app. Qed.
  Ltac gd := repeat (rewrite ?wcn_eq, ?wd_some, ?wd_none, ?wd_app, ?wd_nil, ?wsum_nil, ?wsum_cons, ?wsum_app in * ).

  Lemma set_top_w stack cache l stack' cache' : set_top_children stack cache l = (stack', cache') ->
    wsum wcn stack' + wcn cache' + wd (top_children stack cache) = wsum wcn stack + wcn cache + wd l.
  Proof.
    destruct stack as [|[v p k] us]; [destruct cache as [v p k]|]; cbn [set_top_children top_children cn_set_children cn_children];
      intros E; inv E; gd; lia.
  Qed.
  Lemma update_w (add : cnode V -> cnode V) k l i l' : (forall c, wcn (add c) = k + wcn c) -> update_nth i add l = Some l' ->
    wsum wcn l' = k + wsum wcn l.
  Proof.
    intros Ha; revert i l'; induction l as [|c l IH]; intros [|i] l' E; try discriminate; cbn [update_nth] in E.
    - inv E; rewrite !wsum_cons, Ha; lia.
    - destruct (update_nth i add l) as [l2|] eqn:E2; [|discriminate]; inv E; rewrite !wsum_cons, (IH _ _ E2); lia.
  Qed.
  Lemma update_bottom_w (add : cnode V -> cnode V) k l i l' : (forall c, wcn (add c) = k + wcn c) -> update_from_bottom i add l = Some l' ->
    wsum wcn l' = k + wsum wcn l.
  Proof.
    intros Ha E; unfold update_from_bottom in E; destruct (update_nth i add (rev l)) as [l2|] eqn:E2; [|discriminate]; inv E.
    rewrite wsum_rev, (update_w _ _ _ _ _ Ha E2), wsum_rev; reflexivity.
  Qed.
  Lemma add_w v p c : wcn (cn_set_children c (cn_children c ++ [Some (CNode (Some v) p [])])) = wv v + wcn c.
  Proof. destruct c as [v' p' l]; cbn [cn_set_children cn_children]; gd; cbn; lia. Qed.

  (** iterators with ancestors *)
  Definition w_dfs (s : dfs_st (V:=V)) : nat := let '(items, cache, stack) := s in wvs items + wcn cache + wsum wcn stack.
  Lemma advance_dfs_le f s s' : advance_dfs f s = Ok s' -> w_dfs s' <= w_dfs s.
  Proof.
    destruct s as [[it0 ca0] st0]; unfold advance_dfs; intros E.
    assert (HB : forall f s (r : dfs_st + dfs_st), advance_dfs_body (length it0) f s = Ok r -> match r with inl s' | inr s' => w_dfs s' end <= w_dfs s).
    { clear; intros f [[it ca] st] r; unfold advance_dfs_body; destruct (top_children st ca) as [|ch rest] eqn:Et; [intros E; inv E; lia|].
      destruct (set_top_children st ca rest) as [st1 ca1] eqn:E1; pose proof (set_top_w _ _ _ _ _ E1) as H1; rewrite Et in H1.
      destruct ch as [[v sg k]|].
      - destruct v as [v|]; cbn [assume_init bindR]; [|discriminate].
        destruct (negb _ && _); intros E; inv E; unfold w_dfs; gd; cbn [ProofsAlias.wov] in *; lia.
      - destruct (match rest with [] => (st1, ca1) | _ => set_top_children st1 ca1 (rest ++ [None]) end) as [st2 ca2] eqn:E2.
        assert (H2 : wsum wcn st2 + wcn ca2 = wsum wcn st + wcn ca).
        { rewrite wd_none in H1; destruct rest as [|o rest]; [inv E2; lia|].
          pose proof (set_top_w _ _ _ _ _ E2) as H2; assert (Et1 : top_children st1 ca1 = o :: rest).
          { destruct st as [|[? ? ?] ?]; [destruct ca|]; cbn in E1; inv E1; reflexivity. }
          rewrite Et1 in H2; gd; lia. }
        clear E2 H1 E1.
        destruct (if 1 <? length it then _ else _) as [[it3 st3]| | |] eqn:E3; cbn [bindR]; try discriminate.
        assert (H3 : wvs it3 + wsum wcn st3 + wcn ca2 <= wvs it + wsum wcn st2 + wcn ca2).
        { destruct (1 <? length it); [|inv E3; lia]; destruct st2 as [|[v' sg' k'] st2]; [discriminate|].
          destruct it as [|v it]; [discriminate|]; inv E3; gd; cbn [ProofsAlias.wov]; lia. }
        clear E3; destruct st3 as [|p st3]; [intros E; inv E; unfold w_dfs; gd; lia|].
        destruct (set_top_children st3 ca2 _) as [st4 ca4] eqn:E4; pose proof (set_top_w _ _ _ _ _ E4) as H4; intros E; inv E; unfold w_dfs; gd; lia. }
    refine (loop_le w_dfs w_dfs _ _ _ _ _ _ E); intros f1 s1 r1 E1; [exact (HB f1 s1 _ E1)|exact (HB f1 s1 (inr r1) E1)].
  Qed.
  Lemma maybe_pop_le s s' : maybe_pop s = Ok s' -> w_dfs s' <= w_dfs s.
  Proof.
    destruct s as [[it ca] st]; unfold maybe_pop, pop_from_item_stack; destruct (length it =? length st + 2); [|intros E; inv E; lia].
    destruct it as [|v [|w below]]; [discriminate|intros E; inv E; lia|]; destruct below as [|b below].
    - intros E; inv E; unfold w_dfs; cbn [tl]; rewrite add_w; gd; lia.
    - destruct (update_from_bottom _ _ st) as [st'|] eqn:Eu; [|discriminate]; intros E; inv E; unfold w_dfs; cbn [tl].
      apply (update_bottom_w _ (wv v)) in Eu; [gd; lia|]; intros c; apply add_w.
  Qed.
  Lemma drop_finished_le st : forall it it' st', drop_finished it st = (it', st') -> wvs it' + wsum wcn st' <= wvs it + wsum wcn st.
  Proof.
    induction st as [|c st IH]; intros it it' st'; cbn [drop_finished]; [intros E; inv E; lia|].
    destruct (1 <? _); [intros E; inv E; lia|]; intros E; apply IH in E; pose proof (wsum_tl wv it); gd; lia.
  Qed.
  Lemma to_next_parent_le f s s' : to_next_parent f s = Ok s' -> w_dfs s' <= w_dfs s.
  Proof.
    destruct s as [[it ca] st]; unfold to_next_parent; destruct (top_children st ca) as [|o l] eqn:Et.
    - destruct (drop_finished it st) as [it1 st1] eqn:E1; apply drop_finished_le in E1; intros E; apply advance_dfs_le in E; unfold w_dfs in *; destruct s' as [[? ?] ?]; lia.
    - destruct (set_top_children st ca _) as [st1 ca1] eqn:E1; apply set_top_w in E1; rewrite Et, wd_none in E1.
      intros E; apply advance_dfs_le in E; unfold w_dfs in *; destruct s' as [[? ?] ?]; lia.
  Qed.

  Notation ws := (wsum (wsum wn)).
  Definition w_bfsa (s : bfsa Nd V) : nat := w_dfs (ba_items s, ba_cache s, ba_stack s) + ws (ba_queue s).
  Section Nary.
    Variable gvc : Nd -> V * list Nd.
    Hypothesis Hgvc : forall n, wv (fst (gvc n)) + wsum wn (snd (gvc n)) <= wn n.
    Lemma gvc_le' n v c : gvc n = (v, c) -> wv v + wsum wn c <= wn n.
    Proof. intros E; specialize (Hgvc n); rewrite E in Hgvc; exact Hgvc. Qed.
    Ltac take n := let E := fresh "Eg" in let v := fresh "v" in let c := fresh "c" in
      destruct (gvc n) as [v c] eqn:E; apply gvc_le' in E.

    Lemma bfsa_le f s s' : bfsa_advance gvc f s = Ok s' -> w_bfsa s' <= w_bfsa s.
    Proof.
      unfold bfsa_advance; destruct (ba_is_root s); [intros E; inv E; unfold w_bfsa; cbn [ba_items ba_cache ba_stack ba_queue]; lia|].
      intros E; assert (HB : forall f s r, bfsa_advance_body gvc f s = Ok r -> w_bfsa match r with inl s' | inr s' => s' end <= w_bfsa s).
      { clear E f s s'; intros f [rt it ca st q] r; unfold bfsa_advance_body; cbn [ba_is_root ba_items ba_cache ba_stack ba_queue].
        destruct (maybe_pop _) as [[[it1 ca1] st1]| | |] eqn:E1; cbn [bindR]; try discriminate; apply maybe_pop_le in E1.
        unfold w_bfsa; cbn [ba_is_root ba_items ba_cache ba_stack ba_queue]; destruct q as [|[|n l] q]; [discriminate| |].
        - destruct (to_next_parent _ _) as [[[it2 ca2] st2]| | |] eqn:E2; cbn [bindR]; try discriminate; apply to_next_parent_le in E2.
          destruct q; intros E; inv E; cbn [ba_is_root ba_items ba_cache ba_stack ba_queue]; unfold w_dfs in *; go; lia.
        - take n; intros E; inv E; cbn [ba_is_root ba_items ba_cache ba_stack ba_queue app]; unfold w_dfs in *; go; lia. }
      refine (loop_le w_bfsa w_bfsa _ _ _ _ _ _ E); intros f1 s1 r1 E1; [exact (HB f1 s1 _ E1)|exact (HB f1 s1 (inr r1) E1)].
    Qed.
    Lemma baleaves_le f s s' : baleaves_advance gvc f s = Ok s' -> w_bfsa s' <= w_bfsa s.
    Proof.
      unfold baleaves_advance; intros E.
      assert (HB : forall f s r, baleaves_body gvc f s = Ok r -> w_bfsa match r with inl s' | inr s' => s' end <= w_bfsa s).
      { clear E f s s'; intros f [rt it ca st q] r; unfold baleaves_body; cbn [ba_is_root ba_items ba_cache ba_stack ba_queue].
        destruct q as [|fr q]; [intros E; inv E; unfold w_bfsa, w_dfs; cbn [ba_is_root ba_items ba_cache ba_stack ba_queue]; go; lia|].
        destruct (maybe_pop _) as [[[it1 ca1] st1]| | |] eqn:E1; cbn [bindR]; try discriminate; apply maybe_pop_le in E1.
        unfold w_bfsa; cbn [ba_is_root ba_items ba_cache ba_stack ba_queue]; destruct fr as [|n l].
        - destruct rt; [intros E; inv E; cbn [ba_is_root ba_items ba_cache ba_stack ba_queue]; lia|].
          destruct (to_next_parent _ _) as [[[it2 ca2] st2]| | |] eqn:E2; cbn [bindR]; try discriminate; apply to_next_parent_le in E2.
          intros E; inv E; cbn [ba_is_root ba_items ba_cache ba_stack ba_queue]; unfold w_dfs in *; go; lia.
        - take n; destruct (negb _); intros E; inv E; cbn [ba_is_root ba_items ba_cache ba_stack ba_queue app]; unfold w_dfs in *; go; lia. }
      refine (loop_le w_bfsa w_bfsa _ _ _ _ _ _ E); intros f1 s1 r1 E1; [exact (HB f1 s1 _ E1)|exact (HB f1 s1 (inr r1) E1)].
    Qed.
  End Nary.

  (** iterators with contexts *)
  Definition w_cdfs (s : cdfs_st (V:=V)) : nat := let '(anc, _, cache, stack) := s in wvs anc + wcn cache + wsum wcn stack.
  Lemma cadvance_dfs_le f s s' : cadvance_dfs f s = Ok s' -> w_cdfs s' <= w_cdfs s.
  Proof.
    destruct s as [[[it0 pa0] ca0] st0]; unfold cadvance_dfs; intros E.
    assert (HB : forall f s (r : cdfs_st + cdfs_st), cadvance_dfs_body (length it0) f s = Ok r -> match r with inl s' | inr s' => w_cdfs s' end <= w_cdfs s).
    { clear; intros f [[[it pa] ca] st] r; unfold cadvance_dfs_body; destruct (top_children st ca) as [|ch rest] eqn:Et; [intros E; inv E; lia|].
      destruct (set_top_children st ca rest) as [st1 ca1] eqn:E1; pose proof (set_top_w _ _ _ _ _ E1) as H1; rewrite Et in H1.
      destruct ch as [[v sg k]|].
      - destruct v as [v|]; cbn [assume_init bindR]; [|discriminate].
        destruct (negb _ && _); intros E; inv E; unfold w_cdfs; gd; cbn [ProofsAlias.wov] in *; lia.
      - destruct (match rest with [] => (st1, ca1) | _ => set_top_children st1 ca1 (rest ++ [None]) end) as [st2 ca2] eqn:E2.
        assert (H2 : wsum wcn st2 + wcn ca2 = wsum wcn st + wcn ca).
        { rewrite wd_none in H1; destruct rest as [|o rest]; [inv E2; lia|].
          pose proof (set_top_w _ _ _ _ _ E2) as H2; assert (Et1 : top_children st1 ca1 = o :: rest).
          { destruct st as [|[? ? ?] ?]; [destruct ca|]; cbn in E1; inv E1; reflexivity. }
          rewrite Et1 in H2; gd; lia. }
        clear E2 H1 E1.
        destruct (if 1 <? length it then _ else _) as [[[it3 pa3] st3]| | |] eqn:E3; cbn [bindR]; try discriminate.
        assert (H3 : wvs it3 + wsum wcn st3 + wcn ca2 <= wvs it + wsum wcn st2 + wcn ca2).
        { destruct (1 <? length it); [|inv E3; lia]; destruct st2 as [|[v' sg' k'] st2]; [discriminate|].
          destruct it as [|v it]; [discriminate|]; destruct pa as [|p pa]; [discriminate|]; inv E3; gd; cbn [ProofsAlias.wov]; lia. }
        clear E3; destruct st3 as [|p st3]; [intros E; inv E; unfold w_cdfs; gd; lia|].
        destruct (set_top_children st3 ca2 _) as [st4 ca4] eqn:E4; pose proof (set_top_w _ _ _ _ _ E4) as H4; intros E; inv E; unfold w_cdfs; gd; lia. }
    refine (loop_le w_cdfs w_cdfs _ _ _ _ _ _ E); intros f1 s1 r1 E1; [exact (HB f1 s1 _ E1)|exact (HB f1 s1 (inr r1) E1)].
  Qed.
  Lemma cmaybe_pop_le s s' : cmaybe_pop s = Ok s' -> w_cdfs s' <= w_cdfs s.
  Proof.
    destruct s as [[[it pa] ca] st]; unfold cmaybe_pop, cpop_from_item_stack; destruct (length it =? length st + 2); [|intros E; inv E; lia].
    destruct it as [|v [|w below]]; [discriminate|intros E; inv E; lia|]; destruct pa as [|p pa]; [discriminate|]; destruct below as [|b below].
    - intros E; inv E; unfold w_cdfs; cbn [tl]; rewrite add_w; gd; lia.
    - destruct (update_from_bottom _ _ st) as [st'|] eqn:Eu; [|discriminate]; intros E; inv E; unfold w_cdfs; cbn [tl].
      apply (update_bottom_w _ (wv v)) in Eu; [gd; lia|]; intros c; apply add_w.
  Qed.
  Lemma cdrop_finished_le st : forall it pa it' pa' st', cdrop_finished it pa st = (it', pa', st') -> wvs it' + wsum wcn st' <= wvs it + wsum wcn st.
  Proof.
    induction st as [|c st IH]; intros it pa it' pa' st'; cbn [cdrop_finished]; [intros E; inv E; lia|].
    destruct (1 <? _); [intros E; inv E; lia|]; intros E; apply IH in E; pose proof (wsum_tl wv it); gd; lia.
  Qed.
  Lemma cto_next_parent_le f s s' : cto_next_parent f s = Ok s' -> w_cdfs s' <= w_cdfs s.
  Proof.
    destruct s as [[[it pa] ca] st]; unfold cto_next_parent; destruct (top_children st ca) as [|o l] eqn:Et.
    - destruct (cdrop_finished it pa st) as [[it1 pa1] st1] eqn:E1; apply cdrop_finished_le in E1; intros E; apply cadvance_dfs_le in E; unfold w_cdfs in *; destruct s' as [[[? ?] ?] ?]; lia.
    - destruct (set_top_children st ca _) as [st1 ca1] eqn:E1; apply set_top_w in E1; rewrite Et, wd_none in E1.
      intros E; apply cadvance_dfs_le in E; unfold w_cdfs in *; destruct s' as [[[? ?] ?] ?]; lia.
  Qed.

  (** *** Any children container *)
  Definition wopt {C} (wc : C -> nat) (o : option C) : nat := match o with Some c => wc c | None => 0 end.
  Section Container.
    Context {I C : Type} (wi : I -> nat) (wc : C -> nat).
    Notation wis := (wsum (wsum wi)).
    Definition w_bfsc (s : bfsc V I C) : nat :=
      w_cdfs (bc_anc s, bc_path s, bc_cache s, bc_stack s) + wis (bc_queue s) + wopt wc (bc_children s).
    Definition w_prec (s : prec Nd V I C) : nat := wo (pc_root s) + wis (pc_stack s) + wvs (pc_anc s) + wopt wc (pc_children s).

    Variable gv : Nd -> V * C.
    Variable into_iter : C -> list I.
    Hypothesis Hgv : forall n, wv (fst (gv n)) + wc (snd (gv n)) <= wn n.
    Hypothesis Hinto : forall c, wsum wi (into_iter c) <= wc c.
    Lemma gv_le n v c : gv n = (v, c) -> wv v + wc c <= wn n.
    Proof. intros E; specialize (Hgv n); rewrite E in Hgv; exact Hgv. Qed.

    Lemma bfsc_advance_le body f s s' : (forall f s r, body f s = Ok r -> w_bfsc match r with inl s' | inr s' => s' end <= w_bfsc s) ->
      bfsc_advance_with into_iter body f s = Ok s' -> w_bfsc s' <= w_bfsc s.
    Proof.
      intros HB; unfold bfsc_advance_with; destruct (bc_is_root s); [intros E; inv E; exact (le_n _)|].
      destruct (bc_anc s) as [|a anc] eqn:Ea; [intros E; inv E; lia|]; destruct (bc_children s) as [c|] eqn:Ec; cbn [unwrap bindR]; [|discriminate].
      intros E; transitivity (w_bfsc (mkBfsc false (bc_cache s) (bc_stack s) (bc_queue s ++ [into_iter c]) (bc_path s) (a :: anc) None (bc_counter s))).
      - refine (loop_le w_bfsc w_bfsc _ _ _ _ _ _ E); intros f1 s1 r1 E1; [exact (HB f1 s1 _ E1)|exact (HB f1 s1 (inr r1) E1)].
      - unfold w_bfsc; cbn [bc_anc bc_path bc_cache bc_stack bc_queue bc_children]; rewrite Ea, Ec; cbn [wopt]; go; specialize (Hinto c); lia.
    Qed.

    Definition w_pcl (s : pc_loop_st (V:=V) I) : nat := let '(stack, _, anc) := s in wis stack + wvs anc.
    Lemma prec_advance_le body f s s' :
      (forall f s s', body f s = Ok (inl s') -> w_pcl s' <= w_pcl s) ->
      (forall f s o s', body f s = Ok (inr (o, s')) -> wo o + w_pcl s' <= w_pcl s) ->
      prec_advance_with gv into_iter body f s = Ok s' -> w_prec s' <= w_prec s.
    Proof.
      intros Hl Hr; unfold prec_advance_with; destruct (pc_root s) as [r|] eqn:Er.
      - destruct (gv r) as [v c] eqn:Eg; apply gv_le in Eg; intros E; inv E; unfold w_prec; cbn [pc_root pc_stack pc_anc pc_children wopt ProofsAlias.wo]; rewrite Er; cbn [ProofsAlias.wo]; go; lia.
      - destruct (pc_anc s) as [|a0 anc0] eqn:Ea; [intros E; inv E; lia|].
        destruct (match pc_children s with Some _ => _ | None => _ end) as [[st pa] anc] eqn:E1.
        assert (H1 : w_pcl (st, pa, anc) <= w_prec s).
        { unfold w_prec; rewrite Er, Ea; destruct (pc_children s) as [c|]; inv E1; unfold w_pcl; cbn [ProofsAlias.wo wopt]; go; [specialize (Hinto c); lia|cbn [tl]; lia]. }
        clear E1; destruct (loop body f (st, pa, anc)) as [[o [[st2 pa2] anc2]]| | |] eqn:El; cbn [bindR]; try discriminate.
        assert (H2 : wo o + w_pcl (st2, pa2, anc2) <= w_pcl (st, pa, anc)).
        { refine (loop_le w_pcl (fun r => wo (fst r) + w_pcl (snd r)) _ _ _ _ _ _ El); [exact Hl|]; intros f1 s1 [o1 s2] E1; exact (Hr _ _ _ _ E1). }
        unfold w_pcl in H2; destruct o as [n|]; [destruct (gv n) as [v c] eqn:Eg; apply gv_le in Eg|]; intros E; inv E;
          unfold w_prec at 1; cbn [pc_root pc_stack pc_anc pc_children wopt ProofsAlias.wo] in *; go; unfold w_pcl in H1; lia.
    Qed.
  End Container.

  (** n-ary *)
  Section NaryContext.
    Variable gvc : Nd -> V * list Nd.
    Hypothesis Hgvc : forall n, wv (fst (gvc n)) + wsum wn (snd (gvc n)) <= wn n.
    Lemma prec_le f s s' : prec_advance gvc f s = Ok s' -> w_prec wn (wsum wn) s' <= w_prec wn (wsum wn) s.
    Proof.
      apply (prec_advance_le _ _ _ _ Hgvc); [reflexivity| |].
      - intros ? [[[|[|n l] st] pa] anc] s2; cbn [prec_body]; try discriminate; [intros E; inv E; unfold w_pcl; pose proof (wsum_tl wv anc); go; lia|].
        destruct (incr_last pa); discriminate.
      - intros ? [[[|[|n l] st] pa] anc] o s2; cbn [prec_body]; try discriminate; [intros E; inv E; unfold w_pcl; cbn; lia|].
        destruct (incr_last pa); cbn [bindR]; try discriminate; intros E; inv E; unfold w_pcl; cbn [ProofsAlias.wo]; go; lia.
    Qed.
    Lemma bfsc_le f s s' : bfsc_advance gvc f s = Ok s' -> w_bfsc wn (wsum wn) s' <= w_bfsc wn (wsum wn) s.
    Proof.
      apply bfsc_advance_le; [reflexivity|]; clear f s s'; intros f s r; unfold bfsc_body.
      destruct (cmaybe_pop _) as [[[[it1 pa1] ca1] st1]| | |] eqn:E1; cbn [bindR]; try discriminate; apply cmaybe_pop_le in E1.
      unfold w_bfsc at 2; destruct (bc_queue s) as [|[|n l] q]; [discriminate| |].
      - destruct (cto_next_parent _ _) as [[[[it2 pa2] ca2] st2]| | |] eqn:E2; cbn [bindR]; try discriminate; apply cto_next_parent_le in E2.
        destruct q; intros E; inv E; unfold w_bfsc; cbn [bc_anc bc_path bc_cache bc_stack bc_queue bc_children]; unfold w_cdfs in *; go; lia.
      - destruct (checked_succ _); cbn [bindR]; try discriminate; destruct (gvc n) as [v c] eqn:Eg; apply (gv_le _ _ Hgvc) in Eg.
        intros E; inv E; unfold w_bfsc; cbn [bc_anc bc_path bc_cache bc_stack bc_queue bc_children wopt]; unfold w_cdfs in *; go; lia.
    Qed.
  End NaryContext.

  (** binary *)
  Section BinaryContext.
    Context {C : Type} (wc : C -> nat) (gv : Nd -> V * C) (into_iter : C -> list (option Nd)).
    Hypothesis Hgv : forall n, wv (fst (gv n)) + wc (snd (gv n)) <= wn n.
    Hypothesis Hinto : forall c, wsum wo (into_iter c) <= wc c.

    Lemma scan_le top : forall pa o top' pa', prec_scan top pa = Ok (o, top', pa') -> wo o + wsum wo top' <= wsum wo top.
    Proof.
      induction top as [|[n|] top IH]; intros pa o top' pa'; cbn [prec_scan]; [intros E; inv E; cbn; lia| |];
        destruct (incr_last pa); cbn [bindR]; try discriminate; [intros E; inv E; go; lia|intros E; apply IH in E; go; cbn [ProofsAlias.wo]; lia].
    Qed.
    Lemma skip_le it : forall k o it' k', bfsc_skip it k = Ok (o, it', k') -> wo o + wsum wo it' <= wsum wo it.
    Proof.
      induction it as [|[n|] it IH]; intros k o it' k'; cbn [bfsc_skip]; [intros E; inv E; cbn; lia|intros E; inv E; go; lia|].
      destruct (checked_succ k); cbn [bindR]; try discriminate; intros E; apply IH in E; go; cbn [ProofsAlias.wo]; lia.
    Qed.
    Lemma precb_le f s s' : precb_advance gv into_iter f s = Ok s' -> w_prec wo wc s' <= w_prec wo wc s.
    Proof.
      apply (prec_advance_le _ _ _ _ Hgv Hinto).
      - intros ? [[[|top st] pa] anc] s2; cbn [precb_body]; try discriminate.
        destruct (prec_scan top pa) as [[[o top'] pa']| | |] eqn:E1; cbn [bindR]; try discriminate; apply scan_le in E1; destruct o; try discriminate.
        intros E; inv E; unfold w_pcl; pose proof (wsum_tl wv anc); go; lia.
      - intros ? [[[|top st] pa] anc] o s2; cbn [precb_body]; try discriminate; [intros E; inv E; unfold w_pcl; cbn; lia|].
        destruct (prec_scan top pa) as [[[o1 top'] pa']| | |] eqn:E1; cbn [bindR]; try discriminate; apply scan_le in E1; destruct o1; try discriminate.
        intros E; inv E; unfold w_pcl; cbn [ProofsAlias.wo] in *; go; lia.
    Qed.
    Lemma bfscb_le f s s' : bfscb_advance gv into_iter f s = Ok s' -> w_bfsc wo wc s' <= w_bfsc wo wc s.
    Proof.
      apply (bfsc_advance_le _ _ _ Hinto); clear f s s'; intros f s r; unfold bfscb_body.
      destruct (cmaybe_pop _) as [[[[it1 pa1] ca1] st1]| | |] eqn:E1; cbn [bindR]; try discriminate; apply cmaybe_pop_le in E1.
      unfold w_bfsc at 2; destruct (bc_queue s) as [|fr q]; [discriminate|].
      destruct (bfsc_skip fr _) as [[[o iter] k]| | |] eqn:Es; cbn [bindR]; try discriminate; apply skip_le in Es; destruct o as [n|].
      - destruct (checked_succ _); cbn [bindR]; try discriminate; destruct (gv n) as [v c] eqn:Eg; apply (gv_le _ _ Hgv) in Eg.
        intros E; inv E; unfold w_bfsc; cbn [bc_anc bc_path bc_cache bc_stack bc_queue bc_children wopt ProofsAlias.wo] in *; unfold w_cdfs in *; go; lia.
      - destruct (cto_next_parent _ _) as [[[[it2 pa2] ca2] st2]| | |] eqn:E2; cbn [bindR]; try discriminate; apply cto_next_parent_le in E2.
        destruct q; intros E; inv E; unfold w_bfsc; cbn [bc_anc bc_path bc_cache bc_stack bc_queue bc_children]; unfold w_cdfs in *; go; lia.
    Qed.
  End BinaryContext.

  (** inorder *)
  Section In.
    Variable gvcb : Nd -> V * (option Nd * option Nd).
    Hypothesis Hgv : forall n, wv (fst (gvcb n)) + (wo (fst (snd (gvcb n))) + wo (snd (snd (gvcb n)))) <= wn n.
    Lemma gvcb_le n v l r : gvcb n = (v, (l, r)) -> wv v + (wo l + wo r) <= wn n.
    Proof. intros E; specialize (Hgv n); rewrite E in Hgv; exact Hgv. Qed.
    Ltac take n := let E := fresh "Eg" in let v := fresh "v" in let l := fresh "l" in let r := fresh "r" in
      destruct (gvcb n) as [v [l r]] eqn:E; apply gvcb_le in E.
    Definition w_in (s : in_iter Nd V) : nat := wsum wo (in_right s) + wvs (in_items s).
    Lemma in_find_le f : forall rs it r, loop in_find_body f (rs, it) = Ok r ->
      match r with inl (o, it', rs') => wov o + wvs it' + wsum wo rs' | inr (c, rs') => wo c + wsum wo rs' + wvs it end <= wsum wo rs + wvs it.
    Proof.
      induction f as [|f IH]; intros rs it r; [discriminate|]; cbn [loop]; unfold in_find_body at 1; destruct (_ =? _).
      - intros E; inv E; pose proof (wsum_hd_tl wv it); unfold ProofsAlias.wov; lia.
      - destruct rs as [|o rs]; [intros E; inv E; cbn; lia|]; destruct rs as [|o' rs]; [intros E; inv E; go; lia|].
        destruct o as [n|]; [intros E; inv E; go; lia|]; intros E; apply IH in E; rewrite (wsum_cons wo None); cbn [ProofsAlias.wo]; lia.
    Qed.
    Lemma in_le f s o s' : in_next gvcb f s = Ok (o, s') -> wov o + w_in s' <= w_in s.
    Proof.
      unfold in_next, w_in.
      destruct (loop in_find_body f (in_right s, in_items s)) as [r| | |] eqn:E1; cbn [bindR]; try discriminate; apply in_find_le in E1.
      destruct r as [[[o1 it1] rs1]|[c rs1]]; [intros E; inv E; cbn [in_right in_items]; lia|].
      destruct (loop (in_descend_body gvcb) f (c, rs1, in_items s)) as [[rs2 it2]| | |] eqn:E2; cbn [bindR]; try discriminate.
      assert (H2 : wsum wo rs2 + wvs it2 <= wo c + wsum wo rs1 + wvs (in_items s)).
      { refine (loop_le (fun p => wo (fst (fst p)) + wsum wo (snd (fst p)) + wvs (snd p)) (fun p => wsum wo (fst p) + wvs (snd p)) _ _ _ _ _ _ E2);
          intros ? [[[n|] rs] it] s3; cbn [in_descend_body]; try discriminate; try (take n); try discriminate; intros E; inv E; cbn [fst snd ProofsAlias.wo]; go; lia. }
      intros E; inv E; cbn [in_right in_items]; pose proof (wsum_hd_tl wv it2); unfold ProofsAlias.wov; lia.
    Qed.

    Definition w_ina (s : ina Nd V) : nat := wsum wo (ia_right s) + wvs (ia_items s).
    Definition w_found {S} (w : S -> nat) (r : found S) : nat := match r with Return s => w s | Descend n s => wn n + w s end.
    Lemma ina_le f s s' : ina_advance gvcb f s = Ok s' -> w_ina s' <= w_ina s.
    Proof.
      unfold ina_advance; destruct (loop ina_find_body f s) as [r| | |] eqn:E1; cbn [bindR]; try discriminate.
      assert (H1 : w_found w_ina r <= w_ina s).
      { refine (loop_le w_ina (w_found w_ina) _ _ _ _ _ _ E1); clear; intros ? [rs it st] s2; unfold ina_find_body, w_ina; cbn [ia_right ia_items ia_status];
          (destruct st as [|[| |] st]); try discriminate; try (destruct rs as [|[n|] rs]); try discriminate; intros E; inv E;
          unfold w_found; cbn [ia_right ia_items ia_status]; pose proof (wsum_tl wv it); go; cbn [ProofsAlias.wo]; lia. }
      destruct r as [s1|n s1]; cbn [w_found] in H1; [intros E; inv E; exact H1|].
      destruct (loop (ina_descend_body gvcb) f (Some n, s1)) as [s2| | |] eqn:E2; cbn [bindR]; try discriminate.
      assert (H2 : w_ina s2 <= wn n + w_ina s1).
      { refine (loop_le (fun p => wo (fst p) + w_ina (snd p)) w_ina _ _ _ _ _ _ E2); clear E1 E2 H1 n s1 s2; unfold w_ina;
          intros ? [[n|] s3] s4; cbn [ina_descend_body]; try discriminate; try (take n); try discriminate; intros E; inv E; cbn [fst snd ProofsAlias.wo ia_right ia_items]; go; lia. }
      destruct (set_returned _); cbn [bindR]; try discriminate; intros E; inv E; unfold w_ina in *; cbn [ia_right ia_items]; lia.
    Qed.
    Definition w_inco (s : inco Nd V) : nat := wsum wo (io_right s) + wvs (io_anc s).
    Lemma inco_le f s s' : inco_advance gvcb f s = Ok s' -> w_inco s' <= w_inco s.
    Proof.
      unfold inco_advance; destruct (loop inco_find_body f s) as [r| | |] eqn:E1; cbn [bindR]; try discriminate.
      assert (H1 : w_found w_inco r <= w_inco s).
      { refine (loop_le w_inco (w_found w_inco) _ _ _ _ _ _ E1); clear; intros ? [rs pa it st] s2; unfold inco_find_body, w_inco; cbn [io_right io_anc io_status io_path];
          (destruct st as [|[| |] st]); try discriminate; try (destruct rs as [|[n|] rs]); try discriminate; intros E; inv E;
          unfold w_found; cbn [io_right io_anc io_status]; pose proof (wsum_tl wv it); go; cbn [ProofsAlias.wo]; lia. }
      destruct r as [s1|n s1]; cbn [w_found] in H1; [intros E; inv E; exact H1|].
      destruct (loop (inco_descend_body gvcb) f (Some n, s1)) as [s2| | |] eqn:E2; cbn [bindR]; try discriminate.
      assert (H2 : w_inco s2 <= wn n + w_inco s1).
      { refine (loop_le (fun p => wo (fst p) + w_inco (snd p)) w_inco _ _ _ _ _ _ E2); clear E1 E2 H1 n s1 s2; unfold w_inco;
          intros ? [[n|] s3] s4; cbn [inco_descend_body]; try discriminate; try (take n); try discriminate; intros E; inv E; cbn [fst snd ProofsAlias.wo io_right io_anc]; go; lia. }
      destruct (set_returned _); cbn [bindR]; try discriminate; intros E; inv E; unfold w_inco in *; cbn [io_right io_anc]; lia.
    Qed.
  End In.

  (** owned postorder with context *)
  Section PostOwned.
    Context {I C : Type} (wi : I -> nat) (wc : C -> nat).
    Notation wis := (wsum (wsum wi)).
    Variable gv : Nd -> V * C.
    Variable into_iter : C -> list I.
    Hypothesis Hgv : forall n, wv (fst (gv n)) + wc (snd (gv n)) <= wn n.
    Hypothesis Hinto : forall c, wsum wi (into_iter c) <= wc c.
    Definition w_postco (s : postc_owned Nd V I) : nat := wo (pto_root s) + wis (pto_stack s) + wvs (pto_anc s).
    Definition w_pto (s : pto_loop_st (V:=V) I) : nat := let '(st, _, anc) := s in wis st + wvs anc.
    Lemma postco_le body f s s' : (forall f s r, body f s = Ok r -> w_pto match r with inl s' | inr s' => s' end <= w_pto s) ->
      postco_advance_with gv into_iter body f s = Ok s' -> w_postco s' <= w_postco s.
    Proof.
      intros HB; assert (HL : forall s r, loop body f s = Ok r -> w_pto r <= w_pto s).
      { intros s0 r0 E0; refine (loop_le w_pto w_pto _ _ _ _ _ _ E0); intros f1 s1 r1 E1; [exact (HB f1 s1 _ E1)|exact (HB f1 s1 (inr r1) E1)]. }
      unfold postco_advance_with, w_postco; destruct (pto_root s) as [r|].
      - destruct (gv r) as [v c] eqn:Eg; apply (gv_le _ _ Hgv) in Eg.
        destruct (loop body f _) as [[[st pa] anc]| | |] eqn:E1; cbn [bindR]; try discriminate; apply HL in E1; unfold w_pto in E1.
        specialize (Hinto c); intros E; inv E; cbn [pto_root pto_stack pto_anc ProofsAlias.wo]; go; lia.
      - pose proof (wsum_tl wv (pto_anc s)) as Ht; destruct (tl (pto_anc s)) as [|a anc]; [intros E; inv E; cbn [pto_root pto_stack pto_anc ProofsAlias.wo]; go; lia|].
        destruct (loop body f _) as [[[st pa] anc1]| | |] eqn:E1; cbn [bindR]; try discriminate; apply HL in E1; unfold w_pto in E1.
        intros E; inv E; cbn [pto_root pto_stack pto_anc ProofsAlias.wo]; go; lia.
    Qed.
  End PostOwned.
  Lemma postco_body_le (gvc : Nd -> V * list Nd) : (forall n, wv (fst (gvc n)) + wsum wn (snd (gvc n)) <= wn n) ->
    forall f s r, postco_body gvc f s = Ok r -> w_pto wn match r with inl s' | inr s' => s' end <= w_pto wn s.
  Proof.
    intros Hg f [[[|[|n l] st] pa] anc] r; cbn [postco_body tl]; [intros E; inv E; exact (le_n _)|intros E; inv E; unfold w_pto; go; lia|].
    destruct (incr_last pa); cbn [bindR]; try discriminate; destruct (gvc n) as [v c] eqn:Eg; apply (gv_le _ _ Hg) in Eg.
    intros E; inv E; unfold w_pto; go; lia.
  Qed.
  Lemma postcob_body_le {C} (wc : C -> nat) gv into_iter : (forall n, wv (fst (gv n)) + wc (snd (gv n)) <= wn n) -> (forall c, wsum wo (into_iter c) <= wc c) ->
    forall f s r, postcob_body gv into_iter f s = Ok r -> w_pto wo match r with inl s' | inr s' => s' end <= w_pto wo s.
  Proof.
    intros Hg Hi f [[[|top st] pa] anc] r; cbn [postcob_body]; [intros E; inv E; exact (le_n _)|].
    destruct (prec_scan top pa) as [[[o top'] pa']| | |] eqn:E1; cbn [bindR]; try discriminate; apply scan_le in E1; destruct o as [n|].
    - destruct (gv n) as [v c] eqn:Eg; apply (gv_le _ _ Hg) in Eg; specialize (Hi c); intros E; inv E; unfold w_pto; cbn [ProofsAlias.wo] in *; go; lia.
    - intros E; inv E; unfold w_pto; go; lia.
  Qed.
End Weights.

(** *** Collections *)
Section Collections.
  Context {T S A : Type} (wt : T -> nat) (wS : S -> nat) (wa : option A -> nat).
  Definition w_coll (s : coll T S) : nat := wsum wt (co_trees s) + wopt wS (co_cur s).
  Lemma coll_le new next f s o s' : wa None = 0 -> (forall t, wS (new t) <= wt t) -> (forall f s o s', next f s = Ok (o, s') -> wa o + wS s' <= wS s) ->
    coll_next new next f s = Ok (o, s') -> wa o + w_coll s' <= w_coll s.
  Proof.
    intros Ha Hn Hx E; unfold coll_next in E.
    assert (HT : forall ts, match coll_next_tree new ts with inl s => w_coll s | inr (o, s) => wa o + w_coll s end <= wsum wt ts).
    { intros [|t ts]; unfold coll_next_tree, w_coll; cbn [co_trees co_cur wopt]; [rewrite Ha; cbn; lia|]; rewrite wsum_cons; specialize (Hn t); lia. }
    refine (loop_le w_coll (fun r => wa (fst r) + w_coll (snd r)) _ _ _ _ _ _ E); intros f1 [ts cu] r1; unfold coll_body; cbn [co_trees co_cur]; specialize (HT ts);
      (destruct cu as [i|]; [destruct (next f1 i) as [[o1 i1]| | |] eqn:E1; cbn [bindR]; try discriminate; apply Hx in E1; destruct o1 as [v|]|]); intros E2;
      try discriminate; injection E2; clear E2; intros E2; try rewrite E2 in HT; try subst r1; unfold w_coll in *; cbn [co_trees co_cur wopt fst snd] in *; try destruct r1 as [? ?]; cbn [fst snd] in *; lia.
  Qed.
  Definition w_collc (s : collc T S) : nat := wsum wt (cc_trees s) + wopt wS (cc_cur s).
  Lemma collc_le new (next : nat -> S -> Res (option A * S)) get f s o s' : (forall t p, wS (new t p) <= wt t) -> (forall f s o s', next f s = Ok (o, s') -> wS s' <= wS s) ->
    collc_next new next get f s = Ok (o, s') -> w_collc s' <= w_collc s.
  Proof.
    intros Hn Hx; unfold collc_next, collc_advance; destruct (loop _ f s) as [s1| | |] eqn:E; cbn [bindR]; try discriminate; intros E0; injection E0 as _ <-.
    assert (HT : forall s, match collc_next_tree new s with inl s => w_collc s | inr s => w_collc s end <= wsum wt (cc_trees s)).
    { intros [[|t ts] k c]; unfold collc_next_tree, w_collc; cbn [cc_trees cc_cur cc_index wopt]; [cbn; lia|]; rewrite wsum_cons; specialize (Hn t [wrapping_succ k]); lia. }
    refine (loop_le w_collc w_collc _ _ _ _ _ _ E); intros f1 [ts k cu] r1; unfold collc_body; cbn [cc_trees cc_cur cc_index];
      (destruct cu as [i|]; [destruct (next f1 i) as [[o1 i1]| | |] eqn:E1; cbn [bindR]; try discriminate; apply Hx in E1; destruct o1 as [v|]|]); intros E2; try discriminate;
      [specialize (HT (mkCollc ts k (Some i1)))|specialize (HT (mkCollc ts k None))| | specialize (HT (mkCollc ts k (Some i1)))|specialize (HT (mkCollc ts k None))];
      injection E2; clear E2; intros E2; try rewrite E2 in HT; try subst r1; unfold w_collc in *; cbn [cc_trees cc_cur wopt] in *; lia.
  Qed.
End Collections.

(** ** From the cells to the weights *)
Section Cells.
  Context {Nd V : Type}.
  Variable ncells : Nd -> list nat.
  Variable vcells : V -> list nat.
  Variable x : nat.
  Definition kn (n : Nd) : nat := cnt x (ncells n).
  Definition kv (v : V) : nat := cnt x (vcells v).
  Lemma kn_list l : cnt x (flat_map ncells l) = wsum kn l.
  Proof. apply cnt_flat. Qed.
  Lemma kv_list l : cnt x (flat_map vcells l) = wsum kv l.
  Proof. apply cnt_flat. Qed.
  Lemma ko o : cnt x (ocells ncells o) = wo kn o.
  Proof. destruct o; reflexivity. Qed.
  Lemma kp c : cnt x (pcells ncells c) = wo kn (fst c) + wo kn (snd c).
  Proof. unfold pcells; rewrite cnt_app, !ko; reflexivity. Qed.
  Lemma k_gvc gvc : takes_apart gvc ncells vcells -> forall n, kv (fst (gvc n)) + wsum kn (snd (gvc n)) <= kn n.
  Proof. intros H n; specialize (H n x); rewrite cnt_app, kn_list in H; exact H. Qed.
  Lemma k_gvcb gvcb : takes_apart_binary gvcb ncells vcells -> forall n, kv (fst (gvcb n)) + (wo kn (fst (snd (gvcb n))) + wo kn (snd (snd (gvcb n)))) <= kn n.
  Proof. intros H n; specialize (H n x); rewrite cnt_app, kp in H; exact H. Qed.
  Lemma k_pair (c : option Nd * option Nd) : wsum (wo kn) (pair_iter c) <= cnt x (pcells ncells c).
  Proof. destruct c as [l r]; rewrite kp; unfold pair_iter; rewrite !wsum_cons, wsum_nil; cbn [fst snd]; lia. Qed.
  Lemma k_slice (items : list V) : cnt x (slice_cells vcells match items with [] => None | v :: l => Some (rev (v :: l)) end) = wsum kv items.
  Proof. destruct items as [|v l]; [reflexivity|]; unfold slice_cells; rewrite kv_list, wsum_rev; reflexivity. Qed.
  Lemma k_item o : cnt x (item_cells vcells o) = wov kv o.
  Proof. destruct o; reflexivity. Qed.
  Lemma k_context {C} (ccells : C -> list nat) path anc c :
    cnt x (context_cells vcells ccells match anc with [] => None | v :: l => Some (mkCtx (rev path) (rev (v :: l)) c) end) =
    match anc with [] => 0 | _ => wsum kv anc + wopt (fun c => cnt x (ccells c)) c end.
  Proof.
    destruct anc as [|v l]; [reflexivity|]; cbn [context_cells c_ancestors c_children]; rewrite cnt_app, kv_list, wsum_rev; f_equal; destruct c; reflexivity.
  Qed.
End Cells.

Lemma once_of h n : NoDup (n ++ h) -> forall x, cnt x n + cnt x h <= 1.
Proof. intros H x; rewrite <- cnt_app; apply (proj1 (NoDup_count_occ Nat.eq_dec _) H). Qed.

Lemma takes_apart_of_binary {Nd V} (gvcb : Nd -> V * (option Nd * option Nd)) ncells vcells :
  takes_apart_binary gvcb ncells vcells -> takes_apart (binary_gvc gvcb) ncells vcells.
Proof.
  intros H n x; specialize (H n x); unfold binary_gvc; destruct (gvcb n) as [v [l r]]; unfold pcells in H; cbn [fst snd] in *; rewrite !cnt_app in *.
  enough (cnt x (flat_map ncells (flat_map opt_list (pair_iter (l, r)))) = cnt x (ocells ncells l) + cnt x (ocells ncells r)) by lia.
  unfold pair_iter; cbn [flat_map fst snd]; rewrite app_nil_r, flat_map_app, cnt_app; f_equal; [destruct l|destruct r]; cbn [opt_list flat_map ocells]; rewrite ?app_nil_r; reflexivity.
Qed.

(** ** The iterators *)
Section Conserve.
  Context {Nd V : Type}.
  Variable ncells : Nd -> list nat.
  Variable vcells : V -> list nat.
  Notation kn := (kn ncells).
  Notation kv := (kv vcells).

  Lemma plain_conserves {St} (next : nat -> St -> Res (option V * St)) (tot : nat -> St -> nat) :
    (forall x f s o s', next f s = Ok (o, s') -> wov (kv x) o + tot x s' <= tot x s) ->
    conserves next (item_cells vcells) hidden no_write tot.
  Proof. intros H; split; [intros x f s o s' E; rewrite k_item; exact (H _ _ _ _ _ E)|split; [intros; cbn; lia|intros x s s' []]]. Qed.
  Lemma streaming_conserves {St O} (advance : nat -> St -> Res St) (get : St -> O) (next : nat -> St -> Res (O * St)) shown (written : St -> St -> Prop) (tot : nat -> St -> nat) :
    (forall f s, next f s = bindR (advance f s) (fun s' => Ok (get s', s'))) ->
    (forall x f s s', advance f s = Ok s' -> tot x s' <= tot x s) -> (forall x s, cnt x (shown s) <= tot x s) ->
    (forall x s s', written s s' -> tot x s' + cnt x (shown s) = tot x s + cnt x (shown s')) ->
    conserves next nothing shown written tot.
  Proof.
    intros Hn Ha Hs Hw; split; [|split; assumption].
    intros x f s o s' E; rewrite Hn in E; destruct (advance f s) as [s1| | |] eqn:E1; cbn [bindR] in E; try discriminate; injection E as _ <-; exact (Ha _ _ _ _ E1).
  Qed.

  Section Nary.
    Variable gvc : Nd -> V * list Nd.
    Hypothesis H : takes_apart gvc ncells vcells.
    Lemma bfs_conserves : conserves (bfs_next gvc) (item_cells vcells) hidden no_write (fun x => w_bfs (kn x)).
    Proof. apply plain_conserves; intros x; apply bfs_le, k_gvc, H. Qed.
    Lemma pre_conserves : conserves (pre_next gvc) (item_cells vcells) hidden no_write (fun x => w_pre (kn x)).
    Proof. apply plain_conserves; intros x; apply pre_le, k_gvc, H. Qed.
    Lemma post_conserves : conserves (post_next gvc) (item_cells vcells) hidden no_write (fun x => w_post (kn x) (kv x)).
    Proof. apply plain_conserves; intros x; apply post_le, k_gvc, H. Qed.
    Lemma dleaves_conserves : conserves (dleaves_next gvc) (item_cells vcells) hidden no_write (fun x => w_dl (kn x) (kv x)).
    Proof. apply plain_conserves; intros x; apply dleaves_le, k_gvc, H. Qed.
    Lemma bleaves_conserves : conserves (bleaves_next gvc) (item_cells vcells) hidden no_write (fun x => w_bl (kn x)).
    Proof. apply plain_conserves; intros x; apply bleaves_le, k_gvc, H. Qed.

    Lemma prea_conserves : conserves (prea_next gvc) nothing (fun s => slice_cells vcells (prea_get s)) prea_written (fun x => w_prea (kn x) (kv x)).
    Proof.
      apply (streaming_conserves (prea_advance gvc) prea_get); [reflexivity|intros x; apply prea_le, k_gvc, H| |].
      - intros x s; unfold prea_get; rewrite k_slice; unfold w_prea, wvs; lia.
      - intros x s s' (items & _ & ->); unfold prea_get; rewrite !k_slice; unfold w_prea, wvs; cbn [pa_root pa_stack pa_items]; lia.
    Qed.
    Lemma posta_conserves : conserves (posta_next gvc) nothing (fun s => slice_cells vcells (posta_get s)) posta_written (fun x => w_post (kn x) (kv x)).
    Proof.
      apply (streaming_conserves (posta_advance gvc) posta_get); [reflexivity|intros x; apply posta_le, k_gvc, H| |].
      - intros x s; unfold posta_get; rewrite k_slice; unfold w_post, wvs; lia.
      - intros x s s' (items & _ & ->); unfold posta_get; rewrite !k_slice; unfold w_post, wvs; cbn [po_root po_stack po_items]; lia.
    Qed.
    Lemma daleaves_conserves : conserves (daleaves_next gvc) nothing (fun s => slice_cells vcells (daleaves_get s)) daleaves_written (fun x => w_da (kn x) (kv x)).
    Proof.
      apply (streaming_conserves (daleaves_advance gvc) daleaves_get); [reflexivity|intros x; apply daleaves_le, k_gvc, H| |].
      - intros x s; unfold daleaves_get; rewrite k_slice; unfold w_da, wvs; lia.
      - intros x s s' (items & _ & ->); unfold daleaves_get; rewrite !k_slice; unfold w_da, wvs; cbn [da_root da_items da_old da_new]; lia.
    Qed.
    Lemma bfsa_conserves : conserves (bfsa_next gvc) nothing (fun s => slice_cells vcells (bfsa_get s)) bfsa_written (fun x => w_bfsa (kn x) (kv x)).
    Proof.
      apply (streaming_conserves (bfsa_advance gvc) bfsa_get); [reflexivity|intros x; apply bfsa_le, k_gvc, H| |].
      - intros x s; unfold bfsa_get; rewrite k_slice; unfold w_bfsa, w_dfs; lia.
      - intros x s s' (items & _ & ->); unfold bfsa_get; rewrite !k_slice; unfold w_bfsa, w_dfs; cbn [ba_items ba_cache ba_stack ba_queue]; lia.
    Qed.
    Lemma baleaves_conserves : conserves (baleaves_next gvc) nothing (fun s => slice_cells vcells (bfsa_get s)) bfsa_written (fun x => w_bfsa (kn x) (kv x)).
    Proof.
      apply (streaming_conserves (baleaves_advance gvc) bfsa_get); [reflexivity|intros x; apply baleaves_le, k_gvc, H| |].
      - intros x s; unfold bfsa_get; rewrite k_slice; unfold w_bfsa, w_dfs; lia.
      - intros x s s' (items & _ & ->); unfold bfsa_get; rewrite !k_slice; unfold w_bfsa, w_dfs; cbn [ba_items ba_cache ba_stack ba_queue]; lia.
    Qed.
  End Nary.

  (** contexts, for any container *)
  Section Container.
    Context {I C : Type} (icells : I -> list nat) (ccells : C -> list nat).
    Notation kc := (fun x c => cnt x (ccells c)).
    Notation ki := (fun x i => cnt x (icells i)).
    Notation shown get := (fun s => context_cells vcells ccells (get s)).
    Lemma prec_conserves_with (next : nat -> prec Nd V I C -> _) advance : (forall f s, next f s = bindR (advance f s) (fun s' => Ok (prec_get s', s'))) ->
      (forall x f s s', advance f s = Ok s' -> w_prec (kn x) (kv x) (ki x) (kc x) s' <= w_prec (kn x) (kv x) (ki x) (kc x) s) ->
      conserves next nothing (shown prec_get) prec_written (fun x => w_prec (kn x) (kv x) (ki x) (kc x)).
    Proof.
      intros Hn Ha; apply (streaming_conserves advance prec_get); [exact Hn|exact Ha| |].
      - intros x s; unfold prec_get; rewrite k_context; unfold w_prec; destruct (pc_anc s); [lia|]; lia.
      - intros x s s' (Hg & anc & c & Hl & _ & ->); unfold prec_get in *; rewrite !k_context; unfold w_prec; cbn [pc_root pc_stack pc_path pc_anc pc_children].
        destruct (pc_anc s); [destruct Hg; reflexivity|]; destruct anc; [discriminate|]; lia.
    Qed.
    Lemma bfsc_conserves_with (next : nat -> bfsc V I C -> _) advance : (forall f s, next f s = bindR (advance f s) (fun s' => Ok (bfsc_get s', s'))) ->
      (forall x f s s', advance f s = Ok s' -> w_bfsc (kv x) (ki x) (kc x) s' <= w_bfsc (kv x) (ki x) (kc x) s) ->
      conserves next nothing (shown bfsc_get) bfsc_written (fun x => w_bfsc (kv x) (ki x) (kc x)).
    Proof.
      intros Hn Ha; apply (streaming_conserves advance bfsc_get); [exact Hn|exact Ha| |].
      - intros x s; unfold bfsc_get; rewrite k_context; unfold w_bfsc, w_cdfs; destruct (bc_anc s); [lia|]; lia.
      - intros x s s' (Hg & anc & c & Hl & _ & ->); unfold bfsc_get in *; rewrite !k_context; unfold w_bfsc, w_cdfs; cbn [bc_cache bc_stack bc_queue bc_path bc_anc bc_children].
        destruct (bc_anc s); [destruct Hg; reflexivity|]; destruct anc; [discriminate|]; lia.
    Qed.
    Lemma postco_conserves_with (next : nat -> postc_owned Nd V I -> _) advance : (forall f s, next f s = bindR (advance f s) (fun s' => Ok (postco_get s', s'))) ->
      (forall x f s s', advance f s = Ok s' -> w_postco (kn x) (kv x) (ki x) s' <= w_postco (kn x) (kv x) (ki x) s) ->
      conserves next nothing (fun s => context_cells vcells nothing (postco_get s)) postco_written (fun x => w_postco (kn x) (kv x) (ki x)).
    Proof.
      intros Hn Ha; assert (Hs : forall x (s : postc_owned Nd V I), cnt x (context_cells vcells nothing (postco_get s)) = wsum (kv x) (pto_anc s)).
      { intros x s; unfold postco_get; rewrite k_context; destruct (pto_anc s); [reflexivity|]; cbn [wopt]; lia. }
      apply (streaming_conserves advance postco_get); [exact Hn|exact Ha| |].
      - intros x s; rewrite Hs; unfold w_postco; lia.
      - intros x s s' (anc & _ & ->); rewrite !Hs; unfold w_postco; cbn [pto_root pto_stack pto_anc]; lia.
    Qed.
  End Container.

  Section NaryContext.
    Variable gvc : Nd -> V * list Nd.
    Hypothesis H : takes_apart gvc ncells vcells.
    Lemma k_gv x n : kv x (fst (gvc n)) + cnt x (flat_map ncells (snd (gvc n))) <= kn x n.
    Proof. rewrite kn_list; apply k_gvc, H. Qed.
    Lemma prec_w x s : w_prec (Nd:=Nd) (V:=V) (kn x) (kv x) (kn x) (fun c => cnt x (flat_map ncells c)) s = w_prec (kn x) (kv x) (kn x) (wsum (kn x)) s.
    Proof. unfold w_prec; f_equal; destruct (pc_children s); [apply kn_list|reflexivity]. Qed.
    Lemma bfsc_w x s : w_bfsc (V:=V) (kv x) (kn x) (fun c => cnt x (flat_map ncells c)) s = w_bfsc (kv x) (kn x) (wsum (kn x)) s.
    Proof. unfold w_bfsc; f_equal; destruct (bc_children s); [apply kn_list|reflexivity]. Qed.
    Notation shown get := (fun s => context_cells vcells (flat_map ncells) (get s)).
    Lemma prec_conserves : conserves (prec_next gvc) nothing (shown prec_get) prec_written
      (fun x => w_prec (kn x) (kv x) (kn x) (fun c => cnt x (flat_map ncells c))).
    Proof. apply (prec_conserves_with ncells (flat_map ncells) _ (prec_advance gvc)); [reflexivity|]; intros x f s s' E; fold (kn x); rewrite !prec_w; revert E; apply prec_le, k_gvc, H. Qed.
    Lemma bfsc_conserves : conserves (bfsc_next gvc) nothing (shown bfsc_get) bfsc_written
      (fun x => w_bfsc (kv x) (kn x) (fun c => cnt x (flat_map ncells c))).
    Proof. apply (bfsc_conserves_with ncells (flat_map ncells) _ (bfsc_advance gvc)); [reflexivity|]; intros x f s s' E; fold (kn x); rewrite !bfsc_w; revert E; apply (bfsc_le (kn x)), k_gvc, H. Qed.
    Lemma postco_conserves : conserves (postco_next gvc) nothing (fun s => context_cells vcells nothing (postco_get s)) postco_written
      (fun x => w_postco (kn x) (kv x) (kn x)).
    Proof.
      apply (postco_conserves_with ncells _ (postco_advance_with gvc (fun l => l) (postco_body gvc))); [reflexivity|]; intros x f s s'.
      apply (postco_le (kn x) (kv x) (kn x) (wsum (kn x))); [apply k_gvc, H|reflexivity|apply postco_body_le, k_gvc, H].
    Qed.
  End NaryContext.

  Section BinaryContext.
    Variable gvcb : Nd -> V * (option Nd * option Nd).
    Hypothesis H : takes_apart_binary gvcb ncells vcells.
    Lemma k_gvb x n : kv x (fst (gvcb n)) + cnt x (pcells ncells (snd (gvcb n))) <= kn x n.
    Proof. rewrite kp; apply k_gvcb, H. Qed.
    Notation shown get := (fun s => context_cells vcells (pcells ncells) (get s)).
    Lemma prec_ob x s : w_prec (Nd:=Nd) (V:=V) (C:=option Nd * option Nd) (kn x) (kv x) (fun i => cnt x (ocells ncells i)) (fun c => cnt x (pcells ncells c)) s = w_prec (kn x) (kv x) (wo (kn x)) (fun c => cnt x (pcells ncells c)) s.
    Proof. unfold w_prec; do 3 f_equal; induction (pc_stack s) as [|l st IH]; [reflexivity|]; rewrite !wsum_cons, IH; f_equal; induction l as [|[n|] l IHl]; [reflexivity| |]; rewrite !wsum_cons, IHl; reflexivity. Qed.
    Lemma bfsc_ob x s : w_bfsc (V:=V) (C:=option Nd * option Nd) (kv x) (fun i => cnt x (ocells ncells i)) (fun c => cnt x (pcells ncells c)) s = w_bfsc (kv x) (wo (kn x)) (fun c => cnt x (pcells ncells c)) s.
    Proof. unfold w_bfsc; do 2 f_equal; induction (bc_queue s) as [|l st IH]; [reflexivity|]; rewrite !wsum_cons, IH; f_equal; induction l as [|[n|] l IHl]; [reflexivity| |]; rewrite !wsum_cons, IHl; reflexivity. Qed.
    Lemma postco_ob x s : w_postco (Nd:=Nd) (V:=V) (kn x) (kv x) (fun i => cnt x (ocells ncells i)) s = w_postco (kn x) (kv x) (wo (kn x)) s.
    Proof. unfold w_postco; do 2 f_equal; induction (pto_stack s) as [|l st IH]; [reflexivity|]; rewrite !wsum_cons, IH; f_equal; induction l as [|[n|] l IHl]; [reflexivity| |]; rewrite !wsum_cons, IHl; reflexivity. Qed.
    Lemma precb_conserves : conserves (precb_next gvcb pair_iter) nothing (shown prec_get) prec_written
      (fun x => w_prec (kn x) (kv x) (fun i => cnt x (ocells ncells i)) (fun c => cnt x (pcells ncells c))).
    Proof.
      apply (prec_conserves_with (ocells ncells) (pcells ncells) _ (precb_advance gvcb pair_iter)); [reflexivity|]; intros x f s s' E; rewrite !prec_ob; revert E.
      apply (precb_le (kn x) (kv x) (fun c => cnt x (pcells ncells c))); [apply k_gvb|apply k_pair].
    Qed.
    Lemma bfscb_conserves : conserves (bfscb_next gvcb pair_iter) nothing (shown bfsc_get) bfsc_written
      (fun x => w_bfsc (kv x) (fun i => cnt x (ocells ncells i)) (fun c => cnt x (pcells ncells c))).
    Proof.
      apply (bfsc_conserves_with (ocells ncells) (pcells ncells) _ (bfscb_advance gvcb pair_iter)); [reflexivity|]; intros x f s s' E; rewrite !bfsc_ob; revert E.
      apply (bfscb_le (kn x) (kv x) (fun c => cnt x (pcells ncells c))); [apply k_gvb|apply k_pair].
    Qed.
    Lemma postcob_conserves : conserves (postcob_next gvcb pair_iter) nothing (fun s => context_cells vcells nothing (postco_get s)) postco_written
      (fun x => w_postco (kn x) (kv x) (fun i => cnt x (ocells ncells i))).
    Proof.
      apply (postco_conserves_with (ocells ncells) _ (postco_advance_with gvcb pair_iter (postcob_body gvcb pair_iter))); [reflexivity|]; intros x f s s' E; rewrite !postco_ob; revert E.
      apply (postco_le (kn x) (kv x) (wo (kn x)) (fun c => cnt x (pcells ncells c))); [apply k_gvb|apply k_pair|].
      apply (postcob_body_le (kn x) (kv x) (fun c => cnt x (pcells ncells c))); [apply k_gvb|apply k_pair].
    Qed.
    Lemma in_conserves : conserves (in_next gvcb) (item_cells vcells) hidden no_write (fun x => w_in (kn x) (kv x)).
    Proof. apply plain_conserves; intros x; apply in_le, k_gvcb, H. Qed.
    Lemma ina_conserves : conserves (ina_next gvcb) nothing (fun s => slice_cells vcells (ina_get s)) ina_written (fun x => w_ina (kn x) (kv x)).
    Proof.
      apply (streaming_conserves (ina_advance gvcb) ina_get); [reflexivity|intros x; apply ina_le, k_gvcb, H| |].
      - intros x s; unfold ina_get; rewrite k_slice; unfold w_ina; lia.
      - intros x s s' (items & _ & ->); unfold ina_get; rewrite !k_slice; unfold w_ina; cbn [ia_right ia_items]; lia.
    Qed.
    Lemma inco_conserves : conserves (inco_next gvcb) nothing (fun s => context_cells vcells nothing (inco_get s)) inco_written (fun x => w_inco (kn x) (kv x)).
    Proof.
      assert (Hs : forall x (s : inco Nd V), cnt x (context_cells vcells nothing (inco_get s)) = wsum (kv x) (io_anc s)).
      { intros x s; unfold inco_get; rewrite k_context; destruct (io_anc s); [reflexivity|]; cbn [wopt]; lia. }
      apply (streaming_conserves (inco_advance gvcb) inco_get); [reflexivity|intros x; apply inco_le, k_gvcb, H| |].
      - intros x s; rewrite Hs; unfold w_inco; lia.
      - intros x s s' (anc & _ & ->); rewrite !Hs; unfold w_inco; cbn [io_right io_anc]; lia.
    Qed.
  End BinaryContext.
End Conserve.

(** collections *)
Lemma coll_conserves {T St A} (tcells : T -> list nat) (new : T -> St) (next : nat -> St -> Res (option A * St)) (icells : A -> list nat) tot :
  conserves next (item_cells icells) hidden no_write tot -> (forall x t, tot x (new t) <= cnt x (tcells t)) ->
  conserves (coll_next new next) (item_cells icells) hidden no_write (fun x => w_coll (fun t => cnt x (tcells t)) (tot x)).
Proof.
  intros (H & _) Ht; split; [|split; [intros; cbn; lia|intros x s s' []]].
  intros x f s o s'; apply (coll_le _ _ (fun o => cnt x (item_cells icells o))); [reflexivity|apply Ht|intros; eapply H; eassumption].
Qed.
Lemma collc_conserves {T St A} (tcells : T -> list nat) (new : T -> list N -> St) (next : nat -> St -> Res (option A * St)) get (show : option A -> list nat) written tot :
  show None = [] -> conserves next nothing (fun s => show (get s)) written tot -> (forall x t p, tot x (new t p) <= cnt x (tcells t)) ->
  conserves (collc_next new next get) nothing (fun s => show (collc_get get s)) (collc_written written) (fun x => w_collc (fun t => cnt x (tcells t)) (tot x)).
Proof.
  intros H0 (H & Hs & Hw) Ht; split; [|split].
  - intros x f s o s' E; cbn [nothing count_occ Nat.add]; refine (collc_le _ _ _ _ _ _ _ _ _ _ _ E); [apply Ht|]; intros f1 s1 o1 s2 E1; exact (H x _ _ _ _ E1).
  - intros x s; unfold collc_get, w_collc; destruct (cc_cur s); cbn [wopt]; [specialize (Hs x s0); lia|rewrite H0; cbn; lia].
  - intros x s s' (i & i' & E & Hi & ->); unfold collc_get, w_collc; rewrite E; cbn [wopt cc_trees cc_cur]; specialize (Hw x _ _ Hi); lia.
Qed.
