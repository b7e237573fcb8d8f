(** * Proofs for the breadth-first iterators with ancestors, and their leaves. *)
From Verif Require Import Prelim PrelimFacts Spec SpecFacts SpecObs ModelNode NodeFacts ModelBfs ModelLeaves Slots ProofsPlain ProofsPre BfsCore ProofsBfs.

(** ** The iterators with ancestors keep the same structure without path segments *)
Section Erase.
  Context {V : Type}.

  Fixpoint er (c : cnode V) : cnode V :=
    match c with CNode v _ l => CNode v 0 (map (option_map er) l) end.
  Definition erd := map (option_map er).
  Definition proj (s : cdfs_st (V:=V)) : dfs_st (V:=V) :=
    let '(anc, _, cache, stack) := s in (anc, er cache, map er stack).

  Lemma er_children c : cn_children (er c) = erd (cn_children c).
  Proof. destruct c; reflexivity. Qed.
  Lemma er_set c l : er (cn_set_children c l) = cn_set_children (er c) (erd l).
  Proof. destruct c; reflexivity. Qed.
  Lemma top_er stack cache : top_children (map er stack) (er cache) = erd (top_children stack cache).
  Proof. destruct stack; cbn; apply er_children. Qed.
  Lemma set_top_er stack cache l : set_top_children (map er stack) (er cache) (erd l) =
    (map er (fst (set_top_children stack cache l)), er (snd (set_top_children stack cache l))).
  Proof. destruct stack; cbn; rewrite er_set; reflexivity. Qed.
  Lemma erd_app a b : erd (a ++ b) = erd a ++ erd b.
  Proof. apply map_app. Qed.

  Lemma body_er sd f s x : cadvance_dfs_body sd f s = Ok x ->
    advance_dfs_body sd f (proj s) = Ok (sum_map proj proj x).
  Proof.
    destruct s as [[[anc path] cache] stack]; unfold cadvance_dfs_body, advance_dfs_body, proj at 1.
    rewrite top_er; destruct (top_children stack cache) as [|child rest]; cbn [erd map].
    { intros E; injection E as <-; reflexivity. }
    change (map (option_map er) rest) with (erd rest); rewrite set_top_er.
    destruct (set_top_children stack cache rest) as [stack1 cache1]; cbn [fst snd].
    destruct child as [[value seg ch]|]; cbn [option_map er].
    - destruct value as [v|]; cbn [assume_init bindR]; [|discriminate].
      destruct ch as [|c ch]; cbn [map negb andb].
      + destruct (sd <=? length (v :: anc)); intros E; injection E as <-; reflexivity.
      + intros E; injection E as <-; reflexivity.
    - assert (Hset : (match erd rest with [] => (map er stack1, er cache1) | _ :: _ => set_top_children (map er stack1) (er cache1) (erd rest ++ [None]) end) =
        (map er (fst (match rest with [] => (stack1, cache1) | _ :: _ => set_top_children stack1 cache1 (rest ++ [None]) end)),
         er (snd (match rest with [] => (stack1, cache1) | _ :: _ => set_top_children stack1 cache1 (rest ++ [None]) end)))).
      { destruct rest as [|o rest]; [reflexivity|].
        rewrite <- set_top_er, erd_app; reflexivity. }
      rewrite Hset; clear Hset.
      destruct (match rest with [] => (stack1, cache1) | _ :: _ => set_top_children stack1 cache1 (rest ++ [None]) end) as [stack2 cache2]; cbn [fst snd].
      destruct (1 <? length anc).
      + destruct stack2 as [|[v2 s2 l2] stack2]; [discriminate|]; cbn [map er].
        destruct anc as [|v anc]; [discriminate|]; destruct path as [|p path]; [discriminate|]; cbn [bindR].
        rewrite top_er.
        change (erd (top_children stack2 cache2) ++ [Some (CNode (Some v) 0 (map (option_map er) l2))]) with
          (erd (top_children stack2 cache2) ++ erd [Some (CNode (Some v) p l2)]).
        rewrite <- erd_app, set_top_er.
        destruct (set_top_children stack2 cache2 _) as [stack3 cache3].
        intros E; injection E as <-; reflexivity.
      + cbn [bindR]; destruct stack2 as [|x2 stack2]; cbn [map].
        * intros E; injection E as <-; reflexivity.
        * rewrite top_er.
          change [Some (er x2)] with (erd [Some x2]); rewrite <- erd_app, set_top_er.
          destruct (set_top_children stack2 cache2 _) as [stack3 cache3].
          intros E; injection E as <-; reflexivity.
  Qed.

  Lemma advance_er f s s' : cadvance_dfs f s = Ok s' -> advance_dfs f (proj s) = Ok (proj s').
  Proof.
    destruct s as [[[anc path] cache] stack]; unfold cadvance_dfs, advance_dfs; cbn [proj].
    apply (loop_sim_ok proj proj _ _ (body_er (length anc))).
  Qed.

  Lemma drop_er : forall stack anc path,
    drop_finished anc (map er stack) =
    let '(anc', _, stack') := cdrop_finished anc path stack in (anc', map er stack').
  Proof.
    induction stack as [|x stack IH]; intros anc path; cbn [map drop_finished cdrop_finished]; [reflexivity|].
    rewrite er_children; unfold erd; rewrite map_length.
    destruct (1 <? length (cn_children x)); [reflexivity|apply IH].
  Qed.

  Lemma to_next_er f s s' : cto_next_parent f s = Ok s' -> to_next_parent f (proj s) = Ok (proj s').
  Proof.
    destruct s as [[[anc path] cache] stack]; unfold cto_next_parent, to_next_parent; cbn [proj].
    rewrite top_er; destruct (top_children stack cache) as [|o l]; cbn [erd map].
    - rewrite (drop_er stack anc path); destruct (cdrop_finished anc path stack) as [[anc' path'] stack'].
      apply advance_er.
    - pose proof (set_top_er stack cache (None :: o :: l)) as E; cbn [erd map option_map] in E |- *; rewrite E.
      destruct (set_top_children stack cache (None :: o :: l)) as [stack' cache']; apply advance_er.
  Qed.

  Lemma conv_to_next s s' : (fun f => cto_next_parent f s) ⇓ Ok s' -> (fun f => to_next_parent f (proj s)) ⇓ Ok (proj s').
  Proof. intros [F HF]; exists F; intros f Hf; apply to_next_er, HF, Hf. Qed.

  Lemma update_er g g' : (forall x, er (g x) = g' (er x)) -> forall stack i,
    update_from_bottom i g' (map er stack) = option_map (map er) (update_from_bottom i g stack).
  Proof.
    intros H stack i; unfold update_from_bottom; rewrite <- map_rev.
    assert (E : forall l i, update_nth i g' (map er l) = option_map (map er) (update_nth i g l)).
    { induction l as [|x l IH]; intros [|j]; cbn; try reflexivity; [rewrite H; reflexivity|].
      rewrite IH; destruct (update_nth j g l); reflexivity. }
    rewrite E; destruct (update_nth i g (rev stack)); cbn; [rewrite map_rev|]; reflexivity.
  Qed.

  Lemma maybe_pop_er s s' : cmaybe_pop s = Ok s' -> maybe_pop (proj s) = Ok (proj s').
  Proof.
    destruct s as [[[anc path] cache] stack]; unfold cmaybe_pop, maybe_pop; cbn [proj]; rewrite map_length.
    destruct (length anc =? length stack + 2); [|intros E; injection E as <-; reflexivity].
    unfold cpop_from_item_stack, pop_from_item_stack.
    destruct anc as [|v [|a below]]; [discriminate|intros E; injection E as <-; reflexivity|].
    destruct path as [|p path]; [discriminate|].
    assert (Hg : forall x, er (cn_set_children x (cn_children x ++ [Some (CNode (Some v) p [])])) =
                           cn_set_children (er x) (cn_children (er x) ++ [Some (CNode (Some v) 0 [])])).
    { intros x; rewrite er_set, er_children, erd_app; reflexivity. }
    destruct below as [|b below].
    - intros E; injection E as <-; cbn [proj tl]; rewrite Hg; reflexivity.
    - rewrite (update_er (fun n => cn_set_children n (cn_children n ++ [Some (CNode (Some v) p [])]))) by exact Hg.
      destruct (update_from_bottom _ _ stack) as [stack'|]; [|discriminate].
      intros E; injection E as <-; reflexivity.
  Qed.
End Erase.

Section BfsAnc.
  Context {Nd V : Type} (gvc : Nd -> V * list Nd) (nt : Nd -> tree Nd) (n0 : Nd).
  Hypothesis Hnt : node_tree gvc nt.
  Local Notation value := (nval gvc).
  Let T : list nat -> list Nd -> Nd -> tree (pos Nd) := fun p ab n => annotate p ab (nt n).
  Let HT : slot_law (fun n => map Some (nkids gvc n)) T := slot_law_nary gvc nt Hnt.
  Local Notation kids := (pkids gvc (map Some)).
  Local Notation tq := (ptree T).
  Local Notation A := (panc gvc).
  Local Notation kidsN := (fun q => nkids gvc (pos_here q)).
  Let r : pos Nd := mkPos [] [] n0.
  Local Notation at_par := (at_parent kids (pval gvc) pseg tq r).
  Local Notation pend := (pending kids).
  Let Hnode : node_tree (fun q => (pval gvc q, kids q)) tq := pnode gvc (map Some) T HT.
  Let HA := pkids_A gvc (map Some).
  Let HP := pkids_P gvc (map Some).
  Let HAr : A r = [pval gvc r] := eq_refl.

  Lemma here_kids q : map pos_here (kids q) = kidsN q.
  Proof.
    unfold pkids, pbelow, pslots; generalize 0; induction (nkids gvc (pos_here q)) as [|c l IH]; intros j; cbn; [reflexivity|].
    f_equal; apply IH.
  Qed.

  Definition posn (s : bfsa Nd V) (ns : list (pos Nd)) : Prop :=
    exists D m done todo rest ul nxt,
      at_par D m done todo rest ul nxt /\
      maybe_pop (ba_items s, ba_cache s, ba_stack s) = Ok (proj (st (A m) (ppath m) ul)) /\
      ba_queue s = map pos_here todo :: map kidsN (rest ++ nxt) /\
      bfs_rem tq (pend todo rest nxt) ns.

  Lemma proj_st anc path (ul : list (cnode V)) : proj (st anc path ul) = (anc, er (snd (split ul)), map er (fst (split ul))).
  Proof. rewrite st_eq; reflexivity. Qed.

  Lemma posn_visit s D m done c todo rest ul nxt ns :
    at_par D m done (c :: todo) rest ul nxt -> bfs_rem tq (pend (c :: todo) rest nxt) ns ->
    s = mkBfsa false (A c) (er (snd (split ul))) (map er (fst (split ul)))
          ((map pos_here todo :: map kidsN (rest ++ nxt)) ++ [kidsN c]) ->
    exists ns', ns = c :: ns' /\ posn s ns'.
  Proof.
    intros Hat Hrem ->.
    change (pend (c :: todo) rest nxt) with (c :: pend todo rest nxt) in Hrem.
    apply (bfs_rem_step _ _ Hnode) in Hrem as (ns' & -> & Hrem).
    exists ns'; split; [reflexivity|].
    destruct (maybe_pop_after kids (pval gvc) pseg A ppath tq HA HP r HAr _ _ _ _ _ _ _ _ Hat) as (ul' & Hpop & Hat').
    exists D, m, (done ++ [c]), todo, rest, ul', (nxt ++ [c]); split; [exact Hat'|split; [|split]].
    - cbn [ba_items ba_cache ba_stack]; rewrite <- proj_st with (path := ppath c); apply maybe_pop_er, Hpop.
    - cbn [ba_queue]; rewrite (app_assoc rest), (map_app _ (rest ++ nxt)); reflexivity.
    - change (nkids (fun q : pos Nd => (pval gvc q, kids q)) c) with (kids c) in Hrem.
      unfold pending in *; rewrite flat_map_app; cbn [flat_map]; rewrite app_nil_r, !app_assoc in *; exact Hrem.
  Qed.

  (** The front iterator is exhausted. *)
  Lemma posn_next D m done rest ul nxt ns :
    at_par D m done [] rest ul nxt -> bfs_rem tq (pend [] rest nxt) ns ->
    exists items cache stack,
      (fun f => to_next_parent f (proj (st (A m) (ppath m) ul))) ⇓ Ok (items, cache, stack) /\
      ((rest ++ nxt = [] /\ ns = []) \/
       (rest ++ nxt <> [] /\ forall b, posn (mkBfsa b items cache stack (map kidsN (rest ++ nxt))) ns)).
  Proof.
    intros Hat Hrem.
    destruct (next_parent' kids (pval gvc) pseg A ppath tq Hnode HA HP r HAr _ _ _ _ _ _ Hat)
      as (s1 & Hc & [[Hnil _]|(D' & m' & rest' & ul' & nxt' & -> & Hat' & Eq)]).
    - apply conv_to_next in Hc; destruct (proj s1) as [[items cache] stack].
      exists items, cache, stack; split; [exact Hc|left; split; [exact Hnil|]].
      apply app_eq_nil in Hnil as [-> ->]; apply bfs_rem_nil in Hrem; exact Hrem.
    - apply conv_to_next in Hc; rewrite (proj_st (A m')) in Hc.
      do 3 eexists; split; [exact Hc|right]; rewrite Eq; split; [discriminate|]; intros b.
      exists D', m', [], (kids m'), rest', ul', nxt'; split; [exact Hat'|split; [|split]].
      + cbn [ba_items ba_cache ba_stack]; rewrite <- proj_st with (path := ppath m').
        apply maybe_pop_er; eapply maybe_pop_at; [exact HA|exact HAr|exact Hat'].
      + cbn [ba_queue map]; rewrite here_kids; reflexivity.
      + unfold pending in *; cbn [app] in Hrem; rewrite <- flat_map_app in *; rewrite Eq in Hrem; exact Hrem.
  Qed.

  Lemma posn_root b : posn (mkBfsa b [value n0] cn_default [] [nkids gvc n0]) (tl (bfs (T [] [] n0))).
  Proof.
    pose proof (bfs_rem_root _ _ Hnode r) as Hrem; apply (bfs_rem_step _ _ Hnode) in Hrem as (ns' & Eq & Hrem).
    change (tq r) with (T [] [] n0) in Eq; rewrite Eq; cbn [tl].
    pose proof (at_root kids (pval gvc) pseg tq Hnode r) as Hat.
    exists 0, r, [], (kids r), [], [CNode None (pseg r) []], []; split; [exact Hat|split; [|split]].
    - reflexivity.
    - cbn [ba_queue map app]; rewrite here_kids; reflexivity.
    - unfold pending; cbn [flat_map app]; rewrite app_nil_r; exact Hrem.
  Qed.

  Lemma bfs_root_first : bfs (T [] [] n0) = r :: tl (bfs (T [] [] n0)).
  Proof.
    pose proof (bfs_rem_root _ _ Hnode r) as Hrem; apply (bfs_rem_step _ _ Hnode) in Hrem as (ns' & Eq & Hrem).
    change (tq r) with (T [] [] n0) in Eq; rewrite Eq; reflexivity.
  Qed.

  Lemma A_rev c : rev (A c) = ancestors_at gvc c.
  Proof. apply rev_involutive. Qed.
  Lemma get_c (s : bfsa Nd V) c : ba_items s = A c -> bfsa_get s = Some (ancestors_at gvc c).
  Proof.
    intros E; unfold bfsa_get; rewrite E, <- A_rev.
    destruct (A c) as [|a l] eqn:Ea; [|reflexivity].
    pose proof (A_rev c) as H; rewrite Ea in H; unfold ancestors_at in H.
    apply (f_equal (@length _)) in H; rewrite map_length, app_length in H; cbn in H; lia.
  Qed.

  (** ** [advance] of the iterator with ancestors *)
  Lemma bfsa_loop k : forall s ns, length (ba_queue s) <= k -> posn s ns -> ba_is_root s = false ->
    exists s', (fun f => loop (bfsa_advance_body gvc) f s) ⇓ Ok s' /\
      ((ns = [] /\ ba_items s' = [] /\ ba_queue s' = [] /\ ba_is_root s' = false) \/
       exists c ns', ns = c :: ns' /\ ba_items s' = A c /\ ba_is_root s' = false /\ posn s' ns').
  Proof.
    induction k as [|k IH]; intros s ns Hk (D & m & done & todo & rest & ul & nxt & Hat & Hpop & Hq & Hrem) Hroot.
    { rewrite Hq in Hk; cbn in Hk; lia. }
    rewrite proj_st in Hpop.
    destruct todo as [|c todo].
    - destruct (posn_next _ _ _ _ _ _ _ Hat Hrem) as (items & cache & stack & Hc & Hres).
      rewrite proj_st in Hc.
      destruct Hres as [[Hnil ->]|[Hne Hp]].
      + eexists; split.
        * apply loop_done; eapply conv_ext; [intros f; unfold bfsa_advance_body; rewrite Hpop, Hq; cbn [bindR map]; reflexivity|].
          eapply conv_bind; [exact Hc|]; rewrite Hnil; now_conv.
        * left; auto.
      + destruct (IH (mkBfsa (ba_is_root s) items cache stack (map kidsN (rest ++ nxt))) ns) as (s' & Hc' & Hres').
        * rewrite Hq in Hk; cbn [ba_queue length] in *; lia.
        * apply Hp.
        * exact Hroot.
        * exists s'; split; [|exact Hres'].
          eapply loop_step; [|exact Hc'].
          eapply conv_ext; [intros f; unfold bfsa_advance_body; rewrite Hpop, Hq; cbn [bindR map]; reflexivity|].
          eapply conv_bind; [exact Hc|].
          destruct (rest ++ nxt); [congruence|now_conv].
    - assert (Hin : In c (kids m)) by (destruct Hat as (_ & -> & _); apply in_app_iff; right; left; reflexivity).
      destruct (posn_visit _ _ _ _ _ _ _ _ _ _ Hat Hrem eq_refl) as (ns' & -> & Hp).
      eexists; split.
      + apply loop_done, conv_eq; intros f; unfold bfsa_advance_body; rewrite Hpop, Hq; cbn [bindR map].
        rewrite (gv_eq gvc (pos_here c)), Hroot.
        change (value (pos_here c) :: A m) with (pval gvc c :: A m); rewrite <- (HA _ _ Hin); reflexivity.
      + right; exists c, ns'; auto.
  Qed.

  Definition bfsa_R (s : bfsa Nd V) (l : list (pos Nd)) : Prop :=
    (s = bfsa_new gvc n0 /\ l = bfs (T [] [] n0)) \/ (ba_is_root s = false /\ posn s l).
  Definition bfsa_ended (s : bfsa Nd V) : Prop := ba_items s = [] /\ ba_queue s = [] /\ ba_is_root s = false.

  Lemma bfsa_step s l : bfsa_R s l -> exists s', (fun f => bfsa_next gvc f s) ⇓ Ok (option_map (ancestors_at gvc) (hd_error l), s') /\
    match l with [] => bfsa_ended s' | _ :: l' => bfsa_R s' l' end.
  Proof.
    intros [[-> ->]|[Hroot Hp]].
    - rewrite bfs_root_first; exists (mkBfsa false [value n0] cn_default [] [nkids gvc n0]); split.
      + apply conv_eq; intros f; unfold bfsa_next, bfsa_advance, bfsa_new; rewrite (gv_eq gvc n0); reflexivity.
      + right; split; [reflexivity|apply posn_root].
    - destruct (bfsa_loop _ s l (le_n _) Hp Hroot) as (s' & Hc & Hres).
      exists s'; split.
      + eapply conv_ext; [intros f; unfold bfsa_next, bfsa_advance; rewrite Hroot; reflexivity|].
        eapply conv_bind; [exact Hc|].
        apply conv_eq; intros f; destruct Hres as [(-> & Hi & _ & _)|(c & ns' & -> & Hi & _)].
        * unfold bfsa_get; rewrite Hi; reflexivity.
        * rewrite (get_c s' c Hi); reflexivity.
      + destruct Hres as [(-> & H1 & H2 & H3)|(c & ns' & -> & _ & H2 & H3)]; [repeat split; auto|right; auto].
  Qed.

  Lemma bfsa_calls k : forall s l, bfsa_R s l -> k <= S (length l) ->
    exists s', calls (bfsa_next gvc) k s ⇓ Ok (map (nth_error (map (ancestors_at gvc) l)) (seq 0 k), s') /\
      (k <= length l /\ bfsa_R s' (skipn k l) \/ k = S (length l) /\ bfsa_ended s').
  Proof.
    induction k as [|k IH]; intros s l H Hk.
    - exists s; split; [apply calls_0|left; split; [lia|exact H]].
    - destruct (bfsa_step s l H) as (s1 & Hc & H1).
      destruct l as [|p l].
      + assert (k = 0) by (cbn in Hk; lia); subst k.
        exists s1; split; [eapply calls_S; [exact Hc|apply calls_0]|right; auto].
      + destruct (IH s1 l H1) as (s' & Hc' & Hres); [cbn in Hk; lia|].
        exists s'; split.
        * cbn [seq map nth_error].
          replace (map (nth_error (ancestors_at gvc p :: map (ancestors_at gvc) l)) (seq 1 k)) with
            (map (nth_error (map (ancestors_at gvc) l)) (seq 0 k)) by (rewrite <- seq_shift, map_map; reflexivity).
          eapply calls_S; [exact Hc|exact Hc'].
        * destruct Hres as [[? ?]|[? ?]]; [left; split; [cbn; lia|assumption]|right; split; [cbn; lia|assumption]].
  Qed.

  Lemma bfsa_new_R : bfsa_R (bfsa_new gvc n0) (bfs (positions (nt n0))).
  Proof. left; auto. Qed.

  Lemma bfsa_yields : yields_to_end (bfsa_next gvc) (bfsa_new gvc n0) (map (ancestors_at gvc) (bfs (positions (nt n0)))).
  Proof.
    intros k Hk; rewrite map_length in Hk.
    destruct (bfsa_calls k _ _ bfsa_new_R Hk) as (s' & Hc & _); exists s'; exact Hc.
  Qed.

  (** One call too many. *)
  Lemma bfsa_overrun s : after (bfsa_next gvc) (S (length (bfs (positions (nt n0))))) (bfsa_new gvc n0) s ->
    (fun f => bfsa_next gvc f s) ⇓ Panic.
  Proof.
    intros [os H]; destruct (bfsa_calls _ _ _ bfsa_new_R (le_n _)) as (s' & Hc & Hres).
    pose proof (conv_fun _ _ _ H Hc) as E; injection E as -> ->.
    destruct Hres as [[? _]|[_ (Hi & Hq & Hr)]]; [lia|].
    exists 1; intros [|f] Hf; [lia|].
    unfold bfsa_next, bfsa_advance; rewrite Hr; cbn [loop]; unfold bfsa_advance_body; rewrite Hi, Hq; cbn [maybe_pop length].
    destruct (0 =? length (ba_stack s') + 2) eqn:E; [apply Nat.eqb_eq in E; lia|reflexivity].
  Qed.

  (** ** Leaves with ancestors, started at any point *)
  Local Notation leafp := (fun p => is_leaf gvc (pos_here p)).

  Lemma leaf_nil c : is_nil (nkids gvc (pos_here c)) = leafp c.
  Proof. unfold is_leaf, is_nil; destruct (nkids gvc (pos_here c)); reflexivity. Qed.

  Lemma baleaves_loop k : forall s ns, 2 * length ns + length (ba_queue s) <= k -> posn s ns ->
    ba_is_root s = false \/ hd [] (ba_queue s) <> [] ->
    exists s', (fun f => loop (baleaves_body gvc) f s) ⇓ Ok s' /\
      ((filter leafp ns = [] /\ ba_items s' = [] /\ ba_queue s' = []) \/
       exists c ns', filter leafp ns = c :: filter leafp ns' /\ ba_items s' = A c /\ ba_is_root s' = false /\ posn s' ns').
  Proof.
    induction k as [|k IH]; intros s ns Hk (D & m & done & todo & rest & ul & nxt & Hat & Hpop & Hq & Hrem) Hroot.
    { rewrite Hq in Hk; cbn in Hk; lia. }
    rewrite proj_st in Hpop; rewrite Hq in Hk; cbn [length] in Hk.
    destruct todo as [|c todo].
    - rewrite Hq in Hroot; cbn [map hd] in Hroot; destruct Hroot as [Hroot|]; [|congruence].
      destruct (posn_next _ _ _ _ _ _ _ Hat Hrem) as (items & cache & stack & Hc & Hres).
      rewrite proj_st in Hc.
      assert (Hstep : (fun f => baleaves_body gvc f s) ⇓ Ok (inl (mkBfsa (ba_is_root s) items cache stack (map kidsN (rest ++ nxt))))).
      { eapply conv_ext; [intros f; unfold baleaves_body; rewrite Hpop, Hq, Hroot; cbn [bindR map]; reflexivity|].
        eapply conv_bind; [exact Hc|]; rewrite Hroot; now_conv. }
      destruct Hres as [[Hnil ->]|[Hne Hp]].
      + eexists; split.
        * eapply loop_step; [exact Hstep|]; rewrite Hnil; apply loop_done; now_conv.
        * left; auto.
      + destruct (IH (mkBfsa (ba_is_root s) items cache stack (map kidsN (rest ++ nxt))) ns) as (s' & Hc' & Hres').
        * cbn [ba_queue]; lia.
        * apply Hp.
        * left; exact Hroot.
        * exists s'; split; [|exact Hres'].
          eapply loop_step; [exact Hstep|exact Hc'].
    - assert (Hin : In c (kids m)) by (destruct Hat as (_ & -> & _); apply in_app_iff; right; left; reflexivity).
      destruct (posn_visit _ _ _ _ _ _ _ _ _ _ Hat Hrem eq_refl) as (ns' & -> & Hp).
      assert (Hb : forall f, baleaves_body gvc f s =
        let s' := mkBfsa false (A c) (er (snd (split ul))) (map er (fst (split ul)))
          ((map pos_here todo :: map kidsN (rest ++ nxt)) ++ [kidsN c]) in
        if negb (leafp c) then Ok (inl s') else Ok (inr s')).
      { intros f; unfold baleaves_body; rewrite Hpop, Hq; cbn [bindR map].
        rewrite (gv_eq gvc (pos_here c)), leaf_nil.
        change (value (pos_here c) :: A m) with (pval gvc c :: A m); rewrite <- (HA _ _ Hin); reflexivity. }
      cbn [filter]; destruct (leafp c) eqn:El; cbn [negb] in Hb.
      + eexists; split; [apply loop_done, conv_eq; exact Hb|].
        right; exists c, ns'; auto.
      + assert (Hk' : 2 * length ns' + length ((map pos_here todo :: map kidsN (rest ++ nxt)) ++ [kidsN c]) <= k)
          by (rewrite app_length; cbn [length] in *; lia).
        destruct (IH (mkBfsa false (A c) (er (snd (split ul))) (map er (fst (split ul)))
          ((map pos_here todo :: map kidsN (rest ++ nxt)) ++ [kidsN c])) ns' Hk' Hp (or_introl eq_refl)) as (s' & Hc' & Hres').
        exists s'; split; [|exact Hres'].
        eapply loop_step; [apply conv_eq; exact Hb|exact Hc'].
  Qed.

  Definition baleaves_R (s : bfsa Nd V) (l : list (list V)) : Prop :=
    exists ns, l = map (ancestors_at gvc) (filter leafp ns) /\ (bfsa_R s ns \/ ba_queue s = [] /\ ns = []).

  Lemma baleaves_step : step_inv (baleaves_next gvc) baleaves_R.
  Proof.
    assert (Hgo : forall s ns, posn s ns -> ba_is_root s = false \/ hd [] (ba_queue s) <> [] ->
      exists s', (fun f => baleaves_next gvc f s) ⇓ Ok (hd_error (map (ancestors_at gvc) (filter leafp ns)), s') /\
        baleaves_R s' (tl (map (ancestors_at gvc) (filter leafp ns)))).
    { intros s ns Hp Hr; destruct (baleaves_loop _ s ns (le_n _) Hp Hr) as (s' & Hc & Hres).
      exists s'; split.
      - eapply conv_bind; [exact Hc|]; apply conv_eq; intros f.
        destruct Hres as [(-> & Hi & _)|(c & ns' & -> & Hi & _)].
        + unfold bfsa_get; rewrite Hi; reflexivity.
        + rewrite (get_c s' c Hi); reflexivity.
      - destruct Hres as [(-> & _ & Hq)|(c & ns' & -> & _ & H2 & H3)]; cbn [map tl].
        + exists []; split; [reflexivity|]; right; auto.
        + exists ns'; split; [reflexivity|]; left; right; auto. }
    intros s l (ns & -> & [[(-> & ->)|(Hr & Hp)]|(Hq & ->)]).
    - rewrite bfs_root_first; cbn [filter pos_here r]; unfold bfsa_new; rewrite (gv_eq gvc n0).
      destruct (nkids gvc n0) as [|k ks] eqn:Ek.
      + assert (Hl : is_leaf gvc n0 = true) by (unfold is_leaf; rewrite Ek; reflexivity).
        rewrite Hl; cbn [map hd_error tl].
        exists (mkBfsa false [value n0] cn_default [] [[]]); split.
        * eapply conv_bind.
          -- unfold baleaves_advance; apply loop_done, conv_eq; intros f; reflexivity.
          -- apply conv_eq; intros f; reflexivity.
        * exists (tl (bfs (T [] [] n0))); split; [reflexivity|]; left; right; split; [reflexivity|].
          pose proof (posn_root false) as Hp; rewrite Ek in Hp; exact Hp.
      + assert (Hl : is_leaf gvc n0 = false) by (unfold is_leaf; rewrite Ek; reflexivity).
        rewrite Hl, <- Ek; apply Hgo; [apply posn_root|right; cbn; rewrite Ek; discriminate].
    - apply Hgo; auto.
    - exists (mkBfsa (ba_is_root s) [] (ba_cache s) (ba_stack s) []); split.
      + eapply conv_bind.
        * unfold baleaves_advance; apply loop_done, conv_eq; intros f; unfold baleaves_body; rewrite Hq; reflexivity.
        * apply conv_eq; intros f; reflexivity.
      + exists []; split; [reflexivity|]; right; auto.
  Qed.

  Lemma baleaves_yields k s : k <= S (length (bfs (positions (nt n0)))) -> after (bfsa_next gvc) k (bfsa_new gvc n0) s ->
    yields (baleaves_next gvc) (bfsa_leaves s)
      (map (ancestors_at gvc) (filter leafp (skipn k (bfs (positions (nt n0)))))).
  Proof.
    intros Hk [os H]; destruct (bfsa_calls k _ _ bfsa_new_R Hk) as (s' & Hc & Hres).
    pose proof (conv_fun _ _ _ H Hc) as E; injection E as -> ->.
    apply (step_inv_yields _ _ baleaves_step); eexists; split; [reflexivity|].
    destruct Hres as [[_ H']|[-> (_ & Hq & _)]]; [left; exact H'|right; split; [exact Hq|]].
    apply skipn_all2; lia.
  Qed.
End BfsAnc.
