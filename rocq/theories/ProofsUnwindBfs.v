(** * ProofsUnwindBfs: the breadth-first iterator with ancestors whose user code panics.

    Its state is the state of the iterator of ModelBfs over the tree without the nodes that panic, with those
    nodes added to the queue. *)
From Verif Require Import Prelim PrelimFacts Spec SpecFacts SpecObs ModelNode NodeFacts ModelBfs ModelLeaves Slots ProofsPlain ProofsPre BfsCore ProofsBfs ProofsBfsAnc
  ModelUnwind SpecUnwind ProofsUnwind.
From Coq Require Import Permutation.

(** ** Trees without some of their leaves *)
Section Prune.
  Context {A : Type} (f : A -> bool).
  Fixpoint prune (t : tree A) : tree A :=
    match t with TNode v ts => TNode v (flat_map (fun t => if f (root t) then [prune t] else []) ts) end.
  Inductive leafy : tree A -> Prop :=
  | leafy_intro v ts : (f v = false -> ts = []) -> Forall leafy ts -> leafy (TNode v ts).

  Lemma prune_unfold v ts : prune (TNode v ts) = TNode v (map prune (filter (fun t => f (root t)) ts)).
  Proof. cbn; f_equal; induction ts as [|t ts IH]; cbn; [reflexivity|rewrite IH; destruct (f (root t)); reflexivity]. Qed.

  Lemma filter_flat_map {B} (g : B -> list A) l : filter f (flat_map g l) = flat_map (fun x => filter f (g x)) l.
  Proof. induction l as [|x l IH]; cbn; [reflexivity|rewrite filter_app, IH; reflexivity]. Qed.

  Lemma level_prune d : forall t, leafy t -> filter f (level d t) = if f (root t) then level d (prune t) else [].
  Proof.
    induction d as [|d IH]; intros t Ht; destruct Ht as [v ts Hv Hts].
    - cbn; destruct (f v); reflexivity.
    - rewrite prune_unfold; cbn [level root]; rewrite filter_flat_map.
      rewrite (flat_map_ext_Forall _ (fun t => if f (root t) then level d (prune t) else [])).
      + destruct (f v) eqn:E; [|rewrite (Hv eq_refl); reflexivity].
        clear; induction ts as [|t ts IH]; cbn; [reflexivity|rewrite IH; destruct (f (root t)); reflexivity].
      + apply Forall_impl with (2 := Hts); exact IH.
  Qed.

  Lemma bfs_prune t : leafy t -> f (root t) = true -> bfs (prune t) = filter f (bfs t).
  Proof.
    intros Ht Hr.
    rewrite (bfs_bound t (height t + height (prune t))), (bfs_bound (prune t) (height t + height (prune t))) by lia.
    rewrite filter_flat_map; apply flat_map_ext; intros d; rewrite (level_prune d t Ht), Hr; reflexivity.
  Qed.
End Prune.

Section Anct.
  Context {A : Type}.
  Definition ah (p : pos A) : list A * A := (pos_above p, pos_here p).
  Fixpoint anct (ab : list A) (t : tree A) : tree (list A * A) :=
    match t with TNode v ts => TNode (ab, v) (map (anct (ab ++ [v])) ts) end.

  Lemma annotate_anct t : forall p ab, tree_map ah (annotate p ab t) = anct ab t.
  Proof.
    induction t as [v ts IH] using tree_ind'; intros p ab; cbn; f_equal.
    rewrite map_mapi; revert IH; generalize 0; induction ts as [|t ts IHl]; intros j IH; [reflexivity|].
    rewrite mapi_cons; inversion IH as [|? ? H1 H2]; subst; cbn [map]; f_equal; [apply H1|apply IHl, H2].
  Qed.

  Lemma root_anct ab t : root (anct ab t) = (ab, root t).
  Proof. destruct t; reflexivity. Qed.

  Lemma anct_prune f t : forall ab, anct ab (prune f t) = prune (fun x => f (snd x)) (anct ab t).
  Proof.
    induction t as [v ts IH] using tree_ind'; intros ab; rewrite prune_unfold; cbn [anct]; rewrite prune_unfold; f_equal.
    induction IH as [|t ts Ht _ IHl]; [reflexivity|]; cbn [filter map]; rewrite root_anct; cbn [snd].
    destruct (f (root t)); cbn [map]; [f_equal; [apply Ht|exact IHl]|exact IHl].
  Qed.

  Lemma anct_leafy f t : leafy f t -> forall ab, leafy (fun x => f (snd x)) (anct ab t).
  Proof.
    induction t as [v ts IH] using tree_ind'; intros H ab; inversion H as [? ? Hv Hts]; subst; cbn; constructor.
    - cbn; intros E; rewrite (Hv E); reflexivity.
    - clear Hv H; induction ts as [|t ts IHl]; [constructor|].
      inversion IH; inversion Hts; subst; constructor; auto.
  Qed.

  Lemma bfs_positions_prune f t : leafy f t -> f (root t) = true ->
    map ah (bfs (positions (prune f t))) = filter (fun x => f (snd x)) (map ah (bfs (positions t))).
  Proof.
    intros H Hr; unfold positions; rewrite <- !bfs_map, !annotate_anct, anct_prune.
    apply bfs_prune; [apply anct_leafy, H|rewrite root_anct; exact Hr].
  Qed.

  Lemma above_ok (P : A -> Prop) t : forall p ab, (forall v ts, In (TNode v ts) (preorder (subtrees t)) -> ts <> [] -> P v) ->
    Forall P ab -> Forall (fun q => Forall P (pos_above q)) (preorder (annotate p ab t)).
  Proof.
    induction t as [v ts IH] using tree_ind'; intros p ab HP Hab; cbn; constructor; [exact Hab|].
    destruct ts as [|t0 ts0] eqn:Ets; [constructor|rewrite <- Ets in *].
    assert (Hv : P v) by (apply (HP v ts); [left; reflexivity|rewrite Ets; discriminate]).
    assert (Hsub : forall t, In t ts -> forall v' ts', In (TNode v' ts') (preorder (subtrees t)) -> ts' <> [] -> P v').
    { intros t Ht v' ts' Hin; apply HP; right; apply in_flat_map; exists (subtrees t); split; [apply in_map, Ht|exact Hin]. }
    clear HP Ets t0 ts0; generalize 0; induction ts as [|t ts IHl]; intros j; [constructor|].
    inversion IH as [|? ? H1 H2]; subst; rewrite mapi_cons; cbn [flat_map]; apply Forall_app; split.
    - apply H1; [apply Hsub; left; reflexivity|apply Forall_app; auto].
    - apply IHl; [exact H2|intros; eapply Hsub; [right|..]; eauto].
  Qed.
End Anct.

Section UBfsAnc.
  Context {Nd V : Type} (gvc : Nd -> option (V * list Nd)) (nt : Nd -> tree Nd) (n0 : Nd) (v0 : V) (c0 : list Nd).
  Hypothesis Hnt : fnode_tree gvc nt.
  Hypothesis H0 : gvc n0 = Some (v0, c0).

  Definition okn (n : Nd) : bool := match gvc n with Some _ => true | None => false end.
  Definition fgvc (n : Nd) : V * list Nd := match gvc n with Some (v, c) => (v, filter okn c) | None => (v0, []) end.
  Definition ft (n : Nd) : tree Nd := prune okn (nt n).

  Lemma root_nt n : root (nt n) = n.
  Proof. rewrite Hnt; reflexivity. Qed.
  Lemma Hft : node_tree fgvc ft.
  Proof.
    intros n; unfold ft at 1; rewrite Hnt, prune_unfold; unfold fgvc; destruct (gvc n) as [[v c]|]; cbn [snd]; [|reflexivity].
    f_equal; induction c as [|k c IH]; [reflexivity|]; cbn [map filter]; rewrite root_nt; destruct (okn k); cbn [map]; [f_equal; exact IH|exact IH].
  Qed.

  Lemma nt_leafy n : leafy okn (nt n).
  Proof.
    remember (nt n) as t eqn:E; revert n E; induction t as [v ts IH] using tree_ind'; intros n E.
    rewrite Hnt in E; injection E as -> ->; constructor.
    - unfold okn; destruct (gvc n) as [[v c]|]; [discriminate|reflexivity].
    - destruct (gvc n) as [[v c]|]; [|constructor]; apply Forall_forall; intros t Ht.
      rewrite Forall_forall in IH; apply in_map_iff in Ht as (k & <- & Hk).
      apply (IH (nt k)) with (n := k); [apply in_map, Hk|reflexivity].
  Qed.

  Lemma nt_inner_ok n : forall v ts, In (TNode v ts) (preorder (subtrees (nt n))) -> ts <> [] -> okn v = true.
  Proof.
    remember (nt n) as t eqn:E; revert n E; induction t as [w us IH] using tree_ind'; intros n E v ts Hin Hts.
    rewrite Hnt in E; injection E as -> Eus.
    cbn in Hin; destruct Hin as [Hin|Hin].
    - injection Hin as <- <-; unfold okn; destruct (gvc n) as [[? ?]|]; [reflexivity|congruence].
    - apply in_flat_map in Hin as (t & Ht & Hin); apply in_map_iff in Ht as (u & <- & Hu).
      rewrite Forall_forall in IH; destruct (gvc n) as [[? c]|]; [|subst us; destruct Hu].
      rewrite Eus in Hu; apply in_map_iff in Hu as (k & <- & Hk).
      apply (IH (nt k)) with (n := k) (ts := ts); auto; rewrite Eus; apply in_map, Hk.
  Qed.

  Definition shadow (s : bfsa Nd V) : bfsa Nd V :=
    mkBfsa (ba_is_root s) (ba_items s) (ba_cache s) (ba_stack s) (map (filter okn) (ba_queue s)).
  Local Notation posn := (posn fgvc ft n0).
  Local Notation A := (panc fgvc).
  Local Notation kids := (pkids fgvc (map Some)).
  Let T : list nat -> list Nd -> Nd -> tree (pos Nd) := fun p ab n => annotate p ab (ft n).
  Let HA := pkids_A fgvc (map Some).

  Lemma ubfsa_loop k : forall s ns, length (ba_queue s) <= k -> posn (shadow s) ns -> ba_is_root s = false ->
    exists r, (fun f => loop (ubfsa_body gvc) f s) ⇓ Ok r /\
      match r with
      | Done s' => ba_is_root s' = false /\
          ((ns = [] /\ ba_items s' = [] /\ ba_queue s' = [] /\ concat (ba_queue s) = []) \/
           exists c ns' v kk l, ns = c :: ns' /\ ba_items s' = A c /\ posn (shadow s') ns' /\ gvc (pos_here c) = Some (v, kk) /\
             concat (ba_queue s) = pos_here c :: l /\ concat (ba_queue s') = l ++ kk)
      | Raised s' => ba_is_root s' = false /\ posn (shadow s') ns /\
          exists n l, gvc n = None /\ concat (ba_queue s) = n :: l /\ concat (ba_queue s') = l
      end.
  Proof.
    induction k as [|k IH]; intros s ns Hk Hp Hroot.
    { destruct Hp as (D & m & done & todo & rest & ul & nxt & Hat & Hpop & Hq & Hrem).
      destruct (ba_queue s) as [|q0 qs] eqn:Eq; [unfold shadow in Hq; rewrite Eq in Hq; discriminate Hq|cbn in Hk; lia]. }
    destruct s as [ir items cache stack [|q0 qs]]; cbn [ba_is_root ba_queue shadow] in *;
      destruct Hp as (D & m & done & todo & rest & ul & nxt & Hat & Hpop & Hq & Hrem); cbn in Hq; [discriminate Hq|].
    cbn [ba_items ba_cache ba_stack shadow] in Hpop; subst ir.
    rewrite proj_st in Hpop.
    destruct q0 as [|nd it].
    - cbn in Hq; destruct todo as [|c todo]; [|discriminate Hq]; injection Hq as Hq.
      destruct (posn_next fgvc ft n0 Hft _ _ _ _ _ _ _ Hat Hrem) as (items' & cache' & stack' & Hc & Hres).
      rewrite proj_st in Hc.
      destruct Hres as [[Hnil ->]|[Hne Hp]].
      + assert (qs = []) by (destruct qs; [reflexivity|rewrite Hnil in Hq; discriminate Hq]); subst qs.
        exists (Done (mkBfsa false [] cache' stack' [])); split; [|split; [reflexivity|left; auto]].
        apply loop_done; eapply conv_ext; [intros f; unfold ubfsa_body; cbn [ba_items ba_cache ba_stack ba_queue]; rewrite Hpop; cbn [bindR]; reflexivity|].
        eapply conv_bind; [exact Hc|]; now_conv.
      + destruct (IH (mkBfsa false items' cache' stack' qs) ns) as (r & Hc' & Hr).
        * cbn in Hk |- *; lia.
        * unfold shadow; cbn [ba_is_root ba_items ba_cache ba_stack ba_queue]; rewrite Hq; apply Hp.
        * reflexivity.
        * exists r; split; [|exact Hr].
          eapply loop_step; [|exact Hc'].
          eapply conv_ext; [intros f; unfold ubfsa_body; cbn [ba_items ba_cache ba_stack ba_queue]; rewrite Hpop; cbn [bindR]; reflexivity|].
          eapply conv_bind; [exact Hc|].
          destruct qs; [destruct (rest ++ nxt); [congruence|discriminate Hq]|now_conv].
    - cbn [map filter] in Hq; destruct (gvc nd) as [[v kk]|] eqn:End; unfold okn at 1 in Hq; rewrite End in Hq.
      + destruct todo as [|c todo]; [discriminate Hq|]; injection Hq as -> Hit Hqs.
        assert (Hin : In c (kids m)) by (destruct Hat as (_ & -> & _); apply in_app_iff; right; left; reflexivity).
        destruct (posn_visit fgvc ft n0 Hft _ _ _ _ _ _ _ _ _ _ Hat Hrem eq_refl) as (ns' & -> & Hp).
        eexists; split.
        * apply loop_done, conv_eq; intros f; unfold ubfsa_body; cbn [ba_items ba_cache ba_stack ba_queue ba_is_root]; rewrite Hpop; cbn [bindR].
          rewrite End; reflexivity.
        * assert (Ev : v :: A m = A c).
          { rewrite (HA _ _ Hin); unfold pval, nval, fgvc; rewrite End; reflexivity. }
          rewrite Ev; cbn; split; [reflexivity|right].
          exists c, ns', v, kk, (it ++ concat qs); repeat split; auto.
          -- unfold shadow; cbn [ba_is_root ba_items ba_cache ba_stack ba_queue]; rewrite map_cons, map_app, Hit, Hqs; cbn [map].
             replace (filter okn kk) with (nkids fgvc (pos_here c)) by (unfold nkids, fgvc; rewrite End; reflexivity); exact Hp.
          -- rewrite concat_app; cbn; rewrite app_nil_r, app_assoc; reflexivity.
      + eexists; split.
        * apply loop_done, conv_eq; intros f; unfold ubfsa_body; cbn [ba_items ba_cache ba_stack ba_queue ba_is_root]; rewrite Hpop; cbn [bindR].
          rewrite End; reflexivity.
        * cbn; split; [reflexivity|split; [|exists nd, (it ++ concat qs); auto]].
          exists D, m, done, todo, rest, ul, nxt; split; [exact Hat|split; [|split; [exact Hq|exact Hrem]]].
          cbn [ba_items ba_cache ba_stack shadow]; rewrite <- proj_st with (path := ppath m); apply maybe_pop_er; eapply maybe_pop_at; [exact HA| |exact Hat].
          reflexivity.
  Qed.

  Definition aboves (ps : list (pos Nd)) : Prop := Forall (fun p => Forall (fun n => okn n = true) (pos_above p)) ps.
  Definition ubfsa_I (s : bfsa Nd V) (ps : list (pos Nd)) : Prop :=
    ba_is_root s = false /\ exists ns, posn (shadow s) ns /\ bfs_rem nt (concat (ba_queue s)) (map pos_here ps) /\
      map ah ns = filter (fun x => okn (snd x)) (map ah ps) /\ aboves ps.
  Definition ubfsa_end (s : bfsa Nd V) : Prop := ba_items s = [] /\ ba_queue s = [] /\ ba_is_root s = false.

  Lemma anc_values c p : ah c = ah p -> Forall (fun n => okn n = true) (pos_above p) -> okn (pos_here p) = true ->
    Got (ancestors_at fgvc c) = seen_ancestors gvc p.
  Proof.
    intros E Hab Hh; injection E as E1 E2; unfold ancestors_at, seen_ancestors; rewrite E1, E2.
    assert (Hall : Forall (fun n => okn n = true) (pos_above p ++ [pos_here p])) by (apply Forall_app; auto).
    assert (Ev : map (nval fgvc) (pos_above p ++ [pos_here p]) = values gvc (pos_above p ++ [pos_here p])).
    { induction Hall as [|n l Hn _ IH]; [reflexivity|]; cbn; rewrite IH; unfold okn in Hn; unfold nval, fgvc.
      destruct (gvc n) as [[? ?]|]; [reflexivity|discriminate Hn]. }
    rewrite Ev; unfold okn in Hh; destruct (gvc (pos_here p)); [reflexivity|discriminate Hh].
  Qed.

  Let Htot : node_tree (tot gvc) nt := node_tot gvc nt Hnt.

  Lemma ubfsa_stepI s ps : ubfsa_I s ps -> exists s', (fun f => ubfsa_next gvc f s) ⇓ Ok (option_map (seen_ancestors gvc) (hd_error ps), s') /\
    match ps with [] => ubfsa_end s' | _ :: ps' => ubfsa_I s' ps' end.
  Proof.
    intros (Hroot & ns & Hp & Hrem & Hns & Hab).
    destruct (ubfsa_loop _ s ns (le_n _) Hp Hroot) as (r & Hc & Hr).
    assert (Hgo : (fun f => ubfsa_next gvc f s) ⇓ Ok (observe bfsa_get r)).
    { unfold ubfsa_next, ubfsa_advance; rewrite Hroot; eapply (conv_bind _ _ (fun _ => _)); [exact Hc|apply conv_eq; reflexivity]. }
    destruct r as [s'|s']; destruct Hr as (Hroot' & Hr); cbn [observe] in Hgo.
    - destruct Hr as [(-> & Hi & Hq & Hcq)|(c & ns' & v & kk & l & -> & Hi & Hp' & Hv & Hcq & Hcq')].
      + rewrite Hcq in Hrem; apply bfs_rem_nil in Hrem; destruct ps; [|discriminate Hrem].
        exists s'; split; [|repeat split; auto].
        unfold bfsa_get in Hgo; rewrite Hi in Hgo; exact Hgo.
      + rewrite Hcq in Hrem; apply (bfs_rem_step (tot gvc) nt Htot) in Hrem as (ms & Ems & Hrem).
        destruct ps as [|p ps]; [discriminate Ems|]; cbn in Ems; injection Ems as Eh <-.
        cbn [map filter] in Hns; change (snd (ah p)) with (pos_here p) in Hns; rewrite Eh in Hns.
        assert (Hok : okn (pos_here c) = true) by (unfold okn; rewrite Hv; reflexivity).
        rewrite Hok in Hns; injection Hns as E1 E2 Hns.
        inversion Hab as [|? ? Hab1 Hab2]; subst.
        exists s'; split.
        * rewrite (get_c fgvc s' c Hi) in Hgo; cbn [option_map hd_error] in Hgo |- *.
          rewrite (anc_values c p) in Hgo; [exact Hgo|unfold ah; rewrite E1, E2; reflexivity|exact Hab1|rewrite Eh; exact Hok].
        * split; [exact Hroot'|]; exists ns'; split; [exact Hp'|split; [|split; [exact Hns|exact Hab2]]].
          rewrite Hcq'; unfold nkids, tot in Hrem; rewrite Hv in Hrem; exact Hrem.
    - destruct Hr as (Hp' & n & l & Hv & Hcq & Hcq').
      rewrite Hcq in Hrem; apply (bfs_rem_step (tot gvc) nt Htot) in Hrem as (ms & Ems & Hrem).
      destruct ps as [|p ps]; [discriminate Ems|]; cbn in Ems; injection Ems as Eh <-.
      inversion Hab as [|? ? Hab1 Hab2]; subst.
      exists s'; split.
      + cbn [hd_error option_map]; unfold seen_ancestors; rewrite Hv; exact Hgo.
      + split; [exact Hroot'|]; exists ns; split; [exact Hp'|split; [|split; [|exact Hab2]]].
        * unfold nkids, tot in Hrem; rewrite Hv, app_nil_r in Hrem; exact Hrem.
        * cbn [map filter] in Hns; change (snd (ah p)) with (pos_here p) in Hns; unfold okn at 1 in Hns; rewrite Hv in Hns; exact Hns.
  Qed.

  Definition ubfsa_R (s : bfsa Nd V) (ps : list (pos Nd)) : Prop :=
    (s = mkBfsa true [v0] cn_default [] [c0] /\ ps = bfs (positions (nt n0))) \/ ubfsa_I s ps.

  Lemma ubfsa_step s ps : ubfsa_R s ps -> exists s', (fun f => ubfsa_next gvc f s) ⇓ Ok (option_map (seen_ancestors gvc) (hd_error ps), s') /\
    match ps with [] => ubfsa_end s' | _ :: ps' => ubfsa_R s' ps' end.
  Proof.
    intros [[-> ->]|HI].
    - assert (Hh : map pos_here (bfs (positions (nt n0))) = bfs (nt n0)) by (rewrite <- bfs_map; unfold positions; rewrite annotate_here; reflexivity).
      pose proof (bfs_rem_root (tot gvc) nt Htot n0) as Hrem; apply (bfs_rem_step (tot gvc) nt Htot) in Hrem as (ms & Ems & Hrem).
      pose proof (posn_root fgvc ft n0 Hft false) as Hp.
      assert (Hok0 : okn n0 = true) by (unfold okn; rewrite H0; reflexivity).
      pose proof (bfs_positions_prune okn (nt n0) (nt_leafy n0) ltac:(rewrite root_nt; exact Hok0)) as Hpr.
      assert (Hab : aboves (bfs (positions (nt n0)))).
      { eapply Permutation_Forall; [symmetry; apply bfs_perm|].
        apply above_ok; [apply nt_inner_ok|constructor]. }
      assert (Hf := bfs_root_first fgvc ft n0 Hft).
      assert (Hr0 : exists p ps, bfs (positions (nt n0)) = p :: ps /\ ah p = ([], n0)).
      { exists (mkPos [] [] n0), (tl (bfs (positions (nt n0)))); split; [|reflexivity].
        unfold positions; rewrite (Hnt n0); reflexivity. }
      destruct Hr0 as (p & ps & Eps & Ep); rewrite Eps in *; cbn [map] in Hh; rewrite Ems in Hh; injection Hh as _ Hms.
      change (bfs (positions (prune okn (nt n0)))) with (bfs (annotate [] [] (ft n0))) in Hpr.
      rewrite Hf in Hpr; cbn [map filter] in Hpr; rewrite Ep in Hpr; cbn [snd] in Hpr; rewrite Hok0 in Hpr; injection Hpr as Hpr.
      inversion Hab as [|? ? Hab1 Hab2]; subst.
      exists (mkBfsa false [v0] cn_default [] [c0]); split.
      + apply conv_eq; intros f; cbn; unfold seen_ancestors; injection Ep as -> ->; rewrite H0; unfold values; cbn; rewrite H0; reflexivity.
      + right; split; [reflexivity|]; exists (tl (bfs (positions (ft n0)))); split; [|split; [|split; [exact Hpr|exact Hab2]]].
        * unfold shadow; cbn [ba_is_root ba_items ba_cache ba_stack ba_queue map].
          unfold nval, nkids, fgvc in Hp; rewrite H0 in Hp; exact Hp.
        * cbn; rewrite app_nil_r; unfold nkids, tot in Hrem; rewrite H0 in Hrem; exact Hrem.
    - destruct (ubfsa_stepI s ps HI) as (s' & Hc & H'); exists s'; split; [exact Hc|destruct ps; [exact H'|right; exact H']].
  Qed.

  Lemma ubfsa_calls k : forall s l, ubfsa_R s l -> k <= S (length l) ->
    exists s', calls (ubfsa_next gvc) k s ⇓ Ok (map (nth_error (map (seen_ancestors gvc) l)) (seq 0 k), s').
  Proof.
    induction k as [|k IH]; intros s l H Hk.
    - exists s; apply calls_0.
    - destruct (ubfsa_step s l H) as (s1 & Hc & H1).
      destruct l as [|p l].
      + assert (k = 0) by (cbn in Hk; lia); subst k.
        exists s1; eapply calls_S; [exact Hc|apply calls_0].
      + destruct (IH s1 l H1) as (s' & Hc'); [cbn in Hk; lia|].
        exists s'; cbn [seq map nth_error].
        replace (map (nth_error (seen_ancestors gvc p :: map (seen_ancestors gvc) l)) (seq 1 k)) with
          (map (nth_error (map (seen_ancestors gvc) l)) (seq 0 k)) by (rewrite <- seq_shift, map_map; reflexivity).
        eapply calls_S; [exact Hc|exact Hc'].
  Qed.

  Lemma ubfsa_yields : yields_to_end (ubfsa_next gvc) (mkBfsa true [v0] cn_default [] [c0]) (map (seen_ancestors gvc) (bfs (positions (nt n0)))).
  Proof. intros k Hk; rewrite map_length in Hk; apply (ubfsa_calls k); [left; auto|exact Hk]. Qed.

  (** ** [leaves()] *)
  Notation lgo := (fun s f => loop (ubaleaves_body gvc) f s).
  Lemma ubal_loop k : forall s ns, length (ba_queue s) <= k -> posn (shadow s) ns -> ba_is_root s = false ->
    (exists s', lgo s ⇓ Ok (Done s') /\ ns = [] /\ ba_items s' = [] /\ ba_queue s' = [] /\ concat (ba_queue s) = []) \/
    (exists s' n l, lgo s ⇓ Ok (Raised s') /\ ba_is_root s' = false /\ posn (shadow s') ns /\
       gvc n = None /\ concat (ba_queue s) = n :: l /\ concat (ba_queue s') = l) \/
    (exists s' c ns' v kk l, ba_is_root s' = false /\ ns = c :: ns' /\ ba_items s' = A c /\ posn (shadow s') ns' /\ gvc (pos_here c) = Some (v, kk) /\
       concat (ba_queue s) = pos_here c :: l /\ concat (ba_queue s') = l ++ kk /\
       match kk with [] => lgo s ⇓ Ok (Done s') | _ => forall r, lgo s' ⇓ Ok r -> lgo s ⇓ Ok r end).
  Proof.
    induction k as [|k IH]; intros s ns Hk Hp Hroot.
    { destruct Hp as (D & m & done & todo & rest & ul & nxt & Hat & Hpop & Hq & Hrem).
      destruct (ba_queue s) as [|q0 qs] eqn:Eq; [unfold shadow in Hq; rewrite Eq in Hq; discriminate Hq|cbn in Hk; lia]. }
    destruct s as [ir items cache stack [|q0 qs]]; cbn [ba_is_root ba_queue shadow] in *;
      destruct Hp as (D & m & done & todo & rest & ul & nxt & Hat & Hpop & Hq & Hrem); cbn in Hq; [discriminate Hq|].
    cbn [ba_items ba_cache ba_stack shadow] in Hpop; subst ir.
    rewrite proj_st in Hpop.
    destruct q0 as [|nd it].
    - cbn in Hq; destruct todo as [|c todo]; [|discriminate Hq]; injection Hq as Hq.
      destruct (posn_next fgvc ft n0 Hft _ _ _ _ _ _ _ Hat Hrem) as (items' & cache' & stack' & Hc & Hres).
      rewrite proj_st in Hc.
      assert (Hstep : (fun f => ubaleaves_body gvc f (mkBfsa false items cache stack ([] :: qs))) ⇓ Ok (inl (mkBfsa false items' cache' stack' qs))).
      { eapply conv_ext; [intros f; unfold ubaleaves_body; cbn [ba_is_root ba_items ba_cache ba_stack ba_queue]; rewrite Hpop; cbn [bindR]; reflexivity|].
        eapply conv_bind; [exact Hc|]; now_conv. }
      destruct Hres as [[Hnil ->]|[Hne Hp]].
      + assert (qs = []) by (destruct qs; [reflexivity|rewrite Hnil in Hq; discriminate Hq]); subst qs.
        left; exists (mkBfsa false [] cache' stack' []); split; [|auto].
        eapply loop_step; [exact Hstep|]; apply loop_done, conv_eq; reflexivity.
      + destruct (IH (mkBfsa false items' cache' stack' qs) ns) as [(s' & Hl & H')|[(s' & n & l & Hl & H')|(s' & c & ns' & v & kk & l & Hr' & E & Hi & Hp' & Hv & Hcq & Hcq' & Hl)]].
        * cbn in Hk |- *; lia.
        * unfold shadow; cbn [ba_is_root ba_items ba_cache ba_stack ba_queue]; rewrite Hq; apply Hp.
        * reflexivity.
        * left; exists s'; split; [eapply loop_step; [exact Hstep|exact Hl]|exact H'].
        * right; left; exists s', n, l; split; [eapply loop_step; [exact Hstep|exact Hl]|exact H'].
        * right; right; exists s', c, ns', v, kk, l; split; [exact Hr'|split; [exact E|split; [exact Hi|split; [exact Hp'|split; [exact Hv|split; [exact Hcq|split; [exact Hcq'|]]]]]]].
          destruct kk; [eapply loop_step; [exact Hstep|exact Hl]|intros r H'; eapply loop_step; [exact Hstep|exact (Hl r H')]].
    - right; cbn [map filter] in Hq; destruct (gvc nd) as [[v kk]|] eqn:End; unfold okn at 1 in Hq; rewrite End in Hq; [right|left].
      + destruct todo as [|c todo]; [discriminate Hq|]; injection Hq as -> Hit Hqs.
        assert (Hin : In c (kids m)) by (destruct Hat as (_ & -> & _); apply in_app_iff; right; left; reflexivity).
        destruct (posn_visit fgvc ft n0 Hft _ _ _ _ _ _ _ _ _ _ Hat Hrem eq_refl) as (ns' & -> & Hp).
        assert (Ev : v :: A m = A c).
        { rewrite (HA _ _ Hin); unfold pval, nval, fgvc; rewrite End; reflexivity. }
        eexists; exists c, ns', v, kk, (it ++ concat qs); split; [|split; [reflexivity|split; [|split; [|split; [exact End|split; [reflexivity|split]]]]]].
        5: { destruct kk as [|k0 kk].
             - apply loop_done, conv_eq; intros f; unfold ubaleaves_body; cbn [ba_items ba_cache ba_stack ba_queue ba_is_root]; rewrite Hpop; cbn [bindR].
               rewrite End; reflexivity.
             - intros r Hr; eapply loop_step; [|exact Hr].
               apply conv_eq; intros f; unfold ubaleaves_body; cbn [ba_items ba_cache ba_stack ba_queue ba_is_root]; rewrite Hpop; cbn [bindR].
               rewrite End; reflexivity. }
        * reflexivity.
        * exact Ev.
        * rewrite Ev; unfold shadow; cbn [ba_is_root ba_items ba_cache ba_stack ba_queue app]; rewrite map_cons, map_app, Hit, Hqs; cbn [map].
          replace (filter okn kk) with (nkids fgvc (pos_here c)) by (unfold nkids, fgvc; rewrite End; reflexivity); exact Hp.
        * cbn; rewrite concat_app; cbn; rewrite app_nil_r, app_assoc; reflexivity.
      + eexists; exists nd, (it ++ concat qs); split; [|split; [|split; [|split; [exact End|split]]]].
        * apply loop_done, conv_eq; intros f; unfold ubaleaves_body; cbn [ba_items ba_cache ba_stack ba_queue ba_is_root]; rewrite Hpop; cbn [bindR].
          rewrite End; reflexivity.
        * reflexivity.
        * exists D, m, done, todo, rest, ul, nxt; split; [exact Hat|split; [|split; [exact Hq|exact Hrem]]].
          cbn [ba_items ba_cache ba_stack shadow]; rewrite <- proj_st with (path := ppath m); apply maybe_pop_er; eapply maybe_pop_at; [exact HA| |exact Hat].
          reflexivity.
        * reflexivity.
        * reflexivity.
  Qed.

  Definition heard (p : pos Nd) : bool := leaf_or_panic gvc (pos_here p).
  Lemma ubal_stepI ps : forall s, ubfsa_I s ps -> exists r s', lgo s ⇓ Ok r /\
    observe bfsa_get r = (option_map (seen_ancestors gvc) (hd_error (filter heard ps)), s') /\
    ((exists ps', filter heard ps' = tl (filter heard ps) /\ ubfsa_I s' ps') \/ filter heard ps = [] /\ ba_items s' = [] /\ ba_queue s' = []).
  Proof.
    induction ps as [|p ps IH]; intros s (Hroot & ns & Hp & Hrem & Hns & Hab).
    - destruct (ubal_loop _ s ns (le_n _) Hp Hroot) as [(s' & Hl & -> & Hi & Hq & Hcq)|[(s' & n & l & Hl & Hr' & Hp' & Hv & Hcq & Hcq')|(s' & c & ns' & v & kk & l & _ & -> & _)]].
      + exists (Done s'), s'; split; [exact Hl|split; [cbn; unfold bfsa_get; rewrite Hi; reflexivity|right; auto]].
      + rewrite Hcq in Hrem; apply (bfs_rem_step (tot gvc) nt Htot) in Hrem as (ms & Ems & _); discriminate Ems.
      + discriminate Hns.
    - inversion Hab as [|? ? Hab1 Hab2]; subst.
      destruct (ubal_loop _ s ns (le_n _) Hp Hroot) as [(s' & Hl & -> & Hi & Hq & Hcq)|[(s' & n & l & Hl & Hr' & Hp' & Hv & Hcq & Hcq')|(s' & c & ns' & v & kk & l & Hr' & -> & Hi & Hp' & Hv & Hcq & Hcq' & Hl)]].
      + rewrite Hcq in Hrem; apply bfs_rem_nil in Hrem; discriminate Hrem.
      + rewrite Hcq in Hrem; apply (bfs_rem_step (tot gvc) nt Htot) in Hrem as (ms & Ems & Hrem).
        cbn in Ems; injection Ems as Eh <-.
        assert (Hhd : heard p = true) by (unfold heard, leaf_or_panic; rewrite Eh, Hv; reflexivity).
        exists (Raised s'), s'; split; [exact Hl|]; cbn [filter]; rewrite Hhd; cbn [hd_error tl option_map]; split; [unfold seen_ancestors; rewrite Eh, Hv; reflexivity|].
        left; exists ps; split; [reflexivity|]; split; [exact Hr'|]; exists ns; split; [exact Hp'|split; [|split; [|exact Hab2]]].
        * unfold nkids, tot in Hrem; rewrite Hv, app_nil_r in Hrem; rewrite Hcq'; exact Hrem.
        * cbn [map filter] in Hns; change (snd (ah p)) with (pos_here p) in Hns; unfold okn at 1 in Hns; rewrite Eh, Hv in Hns; exact Hns.
      + rewrite Hcq in Hrem; apply (bfs_rem_step (tot gvc) nt Htot) in Hrem as (ms & Ems & Hrem).
        cbn in Ems; injection Ems as Eh <-.
        cbn [map filter] in Hns; change (snd (ah p)) with (pos_here p) in Hns; rewrite Eh in Hns.
        assert (Hok : okn (pos_here c) = true) by (unfold okn; rewrite Hv; reflexivity).
        rewrite Hok in Hns; injection Hns as E1 E2 Hns.
        assert (HI : ubfsa_I s' ps).
        { split; [exact Hr'|]; exists ns'; split; [exact Hp'|split; [|split; [exact Hns|exact Hab2]]].
          rewrite Hcq'; unfold nkids, tot in Hrem; rewrite Hv in Hrem; exact Hrem. }
        assert (Hhd : heard p = match kk with [] => true | _ => false end) by (unfold heard, leaf_or_panic; rewrite Eh, Hv; destruct kk; reflexivity).
        cbn [filter]; rewrite Hhd; destruct kk as [|k0 kk].
        * exists (Done s'), s'; split; [exact Hl|]; cbn [hd_error tl option_map observe]; split; [|left; exists ps; auto].
          rewrite (get_c fgvc s' c Hi); cbn [option_map]; rewrite (anc_values c p); [reflexivity|unfold ah; rewrite E1, E2; reflexivity|exact Hab1|rewrite Eh; exact Hok].
        * destruct (IH s' HI) as (r & s2 & Hr & H2); exists r, s2; split; [exact (Hl r Hr)|exact H2].
  Qed.

  Definition ubal_R (s : bfsa Nd V) (l : list (outcome (list V))) : Prop :=
    (s = mkBfsa true [v0] cn_default [] [c0] /\ l = map (seen_ancestors gvc) (filter heard (bfs (positions (nt n0))))) \/
    (exists ps, ubfsa_I s ps /\ l = map (seen_ancestors gvc) (filter heard ps)) \/ (l = [] /\ ba_items s = [] /\ ba_queue s = []).
  Lemma ubal_step : step_inv (ubaleaves_next gvc) ubal_R.
  Proof.
    assert (HstepI : forall s ps, ubfsa_I s ps -> exists s', (fun f => ubaleaves_next gvc f s) ⇓ Ok (hd_error (map (seen_ancestors gvc) (filter heard ps)), s') /\
      ubal_R s' (tl (map (seen_ancestors gvc) (filter heard ps)))).
    { intros s ps HI; destruct (ubal_stepI ps s HI) as (r & s' & Hl & Ho & Hr); exists s'; split.
      - unfold ubaleaves_next; eapply conv_bind; [exact Hl|]; rewrite Ho; destruct (filter heard ps); now_conv.
      - right; destruct Hr as [(ps' & E & HI')|(E & H')]; [left; exists ps'; split; [exact HI'|rewrite E; destruct (filter heard ps); reflexivity]|right; rewrite E; auto]. }
    intros s l [[-> ->]|[(ps & HI & ->)|(-> & Hi & Hq)]].
    - destruct (ubfsa_step _ _ (or_introl (conj eq_refl eq_refl))) as (s1 & Hn & H1).
      assert (Es : s1 = mkBfsa false [v0] cn_default [] [c0]).
      { assert (E : (fun f => ubfsa_next gvc f (mkBfsa true [v0] cn_default [] [c0])) ⇓ Ok (Some (Got [v0]), mkBfsa false [v0] cn_default [] [c0])) by (apply conv_eq; reflexivity).
        pose proof (conv_fun _ _ _ Hn E) as E'; injection E' as _ ->; reflexivity. }
      assert (Hr0 : exists ps, bfs (positions (nt n0)) = mkPos [] [] n0 :: ps).
      { exists (tl (bfs (positions (nt n0)))); unfold positions; rewrite (Hnt n0); reflexivity. }
      destruct Hr0 as (ps & Eps); rewrite Eps in *; destruct H1 as [[E _]|HI]; [rewrite E in Es; discriminate Es|]; subst s1.
      assert (Hhd : heard (mkPos [] [] n0) = match c0 with [] => true | _ => false end)
        by (unfold heard, leaf_or_panic; cbn [pos_here]; rewrite H0; destruct c0; reflexivity).
      cbn [filter]; rewrite Hhd; clear Hhd.
      assert (Hc0 : c0 = [] \/ exists k0 kk, c0 = k0 :: kk) by (destruct c0; eauto); destruct Hc0 as [Ec|(k0 & kk & Ec)]; rewrite Ec in HI |- *; rewrite Ec in H0.
      + exists (mkBfsa false [v0] cn_default [] [[]]); split.
        * unfold ubaleaves_next; eapply (conv_bind _ _ (fun _ => _)); [apply loop_done, conv_eq; reflexivity|]; apply conv_eq; intros f; cbn.
          unfold seen_ancestors; cbn; rewrite H0; reflexivity.
        * right; left; exists ps; auto.
      + destruct (HstepI _ _ HI) as (s' & Hc & HR); exists s'; split; [|exact HR].
        unfold ubaleaves_next in *; eapply conv_ext; [|exact Hc]; intros [|f]; [reflexivity|]; cbn [loop]; unfold ubaleaves_body at 1 3.
        cbn [ba_queue ba_items ba_cache ba_stack ba_is_root]; reflexivity.
    - exact (HstepI s ps HI).
    - exists s; split; [|right; right; auto].
      unfold ubaleaves_next; eapply (conv_bind _ _ (fun _ => _)); [apply loop_done, conv_eq; intros f; unfold ubaleaves_body; rewrite Hq; reflexivity|].
      apply conv_eq; intros f; destruct s; cbn in *; subst; reflexivity.
  Qed.

  Lemma ubfsa_reach k : forall s l, ubfsa_R s l -> k <= S (length l) ->
    exists os s', calls (ubfsa_next gvc) k s ⇓ Ok (os, s') /\ (ubfsa_R s' (skipn k l) \/ skipn k l = [] /\ ubfsa_end s').
  Proof.
    induction k as [|k IH]; intros s l H Hk.
    - exists [], s; split; [apply calls_0|left; exact H].
    - destruct (ubfsa_step s l H) as (s1 & Hc & H1); destruct l as [|p l].
      + assert (k = 0) by (cbn in Hk; lia); subst k; eexists; exists s1; split; [eapply calls_S; [exact Hc|apply calls_0]|right; split; [reflexivity|exact H1]].
      + destruct (IH s1 l H1) as (os & s' & Hc' & H'); [cbn in Hk; lia|]; eexists; exists s'; split; [eapply calls_S; [exact Hc|exact Hc']|exact H'].
  Qed.
  Lemma ubal_yields k s : k <= S (length (bfs (positions (nt n0)))) -> after (ubfsa_next gvc) k (mkBfsa true [v0] cn_default [] [c0]) s ->
    yields (ubaleaves_next gvc) s (map (seen_ancestors gvc) (filter (fun p => leaf_or_panic gvc (pos_here p)) (skipn k (bfs (positions (nt n0)))))).
  Proof.
    intros Hk (os & Ha).
    destruct (ubfsa_reach k _ _ (or_introl (conj eq_refl eq_refl)) Hk) as (os' & s' & Hc & HR).
    pose proof (conv_fun _ _ _ Ha Hc) as E; injection E as _ <-.
    apply (step_inv_yields _ ubal_R ubal_step); destruct HR as [[(-> & E)|HI]|(E & Hi & Hq & _)].
    - left; rewrite E; auto.
    - right; left; exists (skipn k (bfs (positions (nt n0)))); auto.
    - right; right; rewrite E; auto.
  Qed.
End UBfsAnc.
