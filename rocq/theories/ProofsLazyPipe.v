(** * ProofsLazyPipe: pipelines over trees that are made as they are traversed.

    The nodes that a pass visits form a finite tree.  Where the pass does not go on below a node, that tree has one more
    node, the bomb, which stands for whatever is there; a walk that never meets a bomb is followed by the pipeline. *)
From Verif Require Import Prelim PrelimFacts Spec SpecFacts SpecPipe SpecExplore ModelNode NodeFacts ModelPre ModelPipe ModelMapPath ModelLazyPipe
  ProofsPlain Slots PipeCore PipeBase PipeChain PipeEnd ProofsPipe PipeFinal PipeSpecFacts ProofsMapPathChain ProofsMapPathBehind PipeGood.
From Verif Require SpecLazy.

Section LazyBase.
  Context {Nd V C It : Type} (gv : Nd -> V * C) (into_iter : C -> It).
  Variable body : nat -> list It * list N -> Res (list It * list N + option Nd * (list It * list N)).
  (** What a children iterator gives in the end. *)
  Variable gives : It -> list (option Nd) -> Prop.
  Hypothesis body_nil : forall f path, body f ([], path) = Ok (inr (None, ([], path))).
  Hypothesis body_scan : forall top l, gives top l ->
    match first_some l with
    | None => forall f rest j path, body f (top :: rest, seg_before j :: path) = Ok (inl (rest, path))
    | Some (k, n, l') => exists top', gives top' l' /\
        forall f rest j path, body f (top :: rest, seg_before j :: path) = Ok (inr (Some n, (top' :: rest, seg_before (S (j + k)) :: path)))
    end.

  Notation X := (pos (option Nd)).
  (** The path the iterator starts with: nothing for one tree, the index of the tree in a collection. *)
  Variable base : list nat.
  Notation bvec := (rev (map wrap base)).
  Definition bomb : tree X := TNode (mkPos [] [] None) [].

  Inductive pres : list nat -> Nd -> tree X -> Prop :=
  | pres_all p n l ts : gives (into_iter (snd (gv n))) l -> pres_kids p 0 l ts -> pres p n (TNode (mkPos p [] (Some n)) ts)
  | pres_bomb p n : pres p n (TNode (mkPos p [] (Some n)) [bomb])
  with pres_kids : list nat -> nat -> list (option Nd) -> list (tree X) -> Prop :=
  | pk_nil p j : pres_kids p j [] []
  | pk_none p j l ts : pres_kids p (S j) l ts -> pres_kids p j (None :: l) ts
  | pk_some p j n l t ts : pres (p ++ [j]) n t -> pres_kids p (S j) l ts -> pres_kids p j (Some n :: l) (t :: ts).

  Lemma pres_first p l : forall j ts, pres_kids p j l ts ->
    match first_some l with
    | None => ts = []
    | Some (k, n, l') => exists t ts', ts = t :: ts' /\ pres (p ++ [j + k]) n t /\ pres_kids p (S (j + k)) l' ts'
    end.
  Proof.
    induction l as [|[n|] l IH]; intros j ts H; inversion H as [|? ? ? ? H1|? ? ? ? t ts' H1 H2]; subst; cbn [first_some]; [reflexivity| |].
    - exists t, ts'; rewrite Nat.add_0_r; auto.
    - specialize (IH _ _ H1); destruct (first_some l) as [[[k m] l']|]; [|exact IH].
      rewrite Nat.add_succ_r; exact IH.
  Qed.

  Record lframe := mkLf { lf_it : It; lf_next : nat; lf_path : list nat; lf_forest : list (tree X) }.
  Definition frame_ok (f : lframe) : Prop :=
    (exists l, gives (lf_it f) l /\ pres_kids (lf_path f) (lf_next f) l (lf_forest f)) \/ lf_forest f = [bomb].
  Definition lrest (fs : list lframe) : list (tree X) := flat_map lf_forest fs.
  Definition lvec (fs : list lframe) : list N := map (fun f => seg_before (lf_next f)) fs.
  Definition lcur (fs : list lframe) : list nat := match fs with [] => base | f :: _ => lf_path f ++ [pred (lf_next f)] end.
  Definition lentered (fs : list lframe) : Prop := match fs with [] => True | f :: _ => 0 < lf_next f end.
  Fixpoint lok (fs : list lframe) : Prop :=
    match fs with [] => True | f :: fs' => lf_path f = lcur fs' /\ lentered fs' /\ frame_ok f /\ lok fs' end.

  Lemma lvec_cur fs : lok fs -> lentered fs -> lvec fs ++ bvec = rev (map wrap (lcur fs)).
  Proof.
    induction fs as [|f fs IH]; intros Hok He; [reflexivity|].
    destruct Hok as (Ep & He' & _ & Hok); cbn in He |- *; fold (lvec fs).
    rewrite map_app, rev_app_distr; cbn; rewrite <- Ep in IH; rewrite IH by assumption.
    destruct (lf_next f); [lia|reflexivity].
  Qed.

  Lemma lbase_loop fs : lok fs ->
    match lrest fs with
    | [] => (fun f => loop body f (map lf_it fs, lvec fs ++ bvec)) ⇓ Ok (None, ([], bvec))
    | TNode x ts :: r => pos_here x = None \/ exists n fs', pos_here x = Some n /\
        (fun f => loop body f (map lf_it fs, lvec fs ++ bvec)) ⇓ Ok (Some n, (map lf_it fs', lvec fs' ++ bvec)) /\
        lok fs' /\ lentered fs' /\ lcur fs' = pos_path x /\ lrest fs' = r /\ pres (pos_path x) n (TNode x ts)
    end.
  Proof.
    induction fs as [|f fs IH]; intros Hok.
    - cbn; apply loop_done, conv_eq; intros g; apply body_nil.
    - destruct Hok as (Ep & He & Hf & Hok); specialize (IH Hok).
      destruct f as [it j p ts0]; unfold frame_ok in Hf; cbn [lf_it lf_next lf_path lf_forest lrest flat_map] in *; fold (lrest fs).
      destruct Hf as [(l & Hg & Hk)| ->]; [|left; reflexivity].
      pose proof (body_scan it l Hg) as Hs; pose proof (pres_first p l j ts0 Hk) as Hp.
      destruct (first_some l) as [[[k n] l']|].
      + destruct Hp as (t & ts' & -> & Ht & Hk'), Hs as (top' & Hg' & Hs); cbn [app].
        destruct t as [x ts]; right; exists n, (mkLf top' (S (j + k)) p ts' :: fs).
        assert (Ex : x = mkPos (p ++ [j + k]) [] (Some n)) by (inversion Ht; reflexivity).
        rewrite Ex; cbn [pos_here pos_path map lf_it lvec lok lentered lcur lf_next lf_path lrest flat_map lf_forest].
        split; [reflexivity|]; split; [apply loop_done, conv_eq; intros g; apply Hs|].
        split; [|split; [lia|split; [reflexivity|split; [reflexivity|rewrite <- Ex; exact Ht]]]].
        split; [exact Ep|]; split; [exact He|]; split; [|exact Hok]; left; exists l'; auto.
      + subst ts0; cbn [app].
        destruct (lrest fs) as [|[x ts] r].
        * eapply loop_step; [|exact IH]; apply conv_eq; intros g; apply Hs.
        * destruct IH as [IH|(n & fs' & En & Hl & IH)]; [left; exact IH|right; exists n, fs'; split; [exact En|]; split; [|exact IH]].
          eapply loop_step; [|exact Hl]; apply conv_eq; intros g; apply Hs.
  Qed.

  Definition lvis (g : option (list Nd)) (x : X) : option (list Nd) * outcome V :=
    match g, pos_here x with
    | Some log, Some n => (Some (n :: log), Keep (fst (gv n)) true)
    | _, _ => (None, Drop)
    end.
  Definition lgood (g : option (list Nd)) : Prop := g <> None.

  Definition lbase_R (s : lptrack Nd C It) (g : option (list Nd)) (d r : list (tree X)) : Prop :=
    g = Some (lpt_log s) /\
    ((exists n t, lpt_root s = Some n /\ lpt_path s = bvec /\ lpt_deck s = None /\ lpt_stack s = [] /\ d = [] /\ r = [t] /\ pres base n t) \/
     (exists fs, lpt_root s = None /\ lpt_stack s = map lf_it fs /\ lpt_path s = lvec fs ++ bvec /\ lok fs /\ lentered fs /\ r = lrest fs /\
       match lpt_deck s with
       | None => d = []
       | Some c => d = [bomb] \/ exists l, gives (into_iter c) l /\ pres_kids (lcur fs) 0 l d
       end)).

  Lemma pres_deck p n x ts : pres p n (TNode x ts) ->
    x = mkPos p [] (Some n) /\ (ts = [bomb] \/ exists l, gives (into_iter (snd (gv n))) l /\ pres_kids p 0 l ts).
  Proof. intros H; inversion H; subst; split; auto; right; eauto. Qed.

  Lemma lvis_back g x : lgood (fst (lvis g x)) -> lgood g.
  Proof. destruct g; [discriminate|]; unfold lvis; cbn; auto. Qed.

  Lemma lbase_next s g d r : lbase_R s g d r -> forall o d' r' g', vstep lvis g (d ++ r) = (o, d', r', g') -> lgood g' ->
    exists s', (fun f => lpt_next_with gv into_iter body f s) ⇓ Ok (option_map fst o, s') /\ lbase_R s' g' d' r' /\
      (forall a x, o = Some (a, x) -> pok_exact (lpt_current_path s') x).
  Proof.
      intros (-> & HR) o d' r' g' E Hgood.

      destruct s as [log sr sp sd st]; cbn [lpt_log lpt_root lpt_path lpt_deck lpt_stack] in *.
      destruct HR as [(n & [x ts] & -> & -> & -> & -> & -> & -> & Hp)|(fs & -> & -> & -> & Hok & He & -> & Hd)].
      + cbn [app vstep] in E; destruct (pres_deck _ _ _ _ Hp) as (Ex & Hts); subst x; unfold lvis in E; cbn [pos_here] in E; injection E as <- <- <- <-.
        exists (mkLpt (n :: log) None bvec (Some (snd (gv n))) []); split; [|split].
        * unfold lpt_next_with; cbn; rewrite (gv_eq gv); now_conv.
        * split; [reflexivity|]; right; exists []; cbn; repeat split; auto.
        * intros a x E; injection E as <- <-; unfold pok_exact, lpt_current_path; cbn; rewrite rev_involutive; reflexivity.
      + assert (Hfs : exists fs2, lok fs2 /\ lrest fs2 = d ++ lrest fs /\ (map lf_it fs2, lvec fs2 ++ bvec) =
                   match sd with Some c => (into_iter c :: map lf_it fs, usize_max :: lvec fs ++ bvec) | None => (map lf_it fs, lvec fs ++ bvec) end).
        { destruct sd as [c|].
          - exists (mkLf (into_iter c) 0 (lcur fs) d :: fs); split; [|split; reflexivity].
            split; [reflexivity|]; split; [exact He|]; split; [|exact Hok].
            unfold frame_ok; cbn [lf_it lf_next lf_path lf_forest]; destruct Hd as [Hd|Hd]; [right; exact Hd|left; exact Hd].
          - subst d; exists fs; repeat split; auto. }
        destruct Hfs as (fs2 & Hok2 & Er2 & E2).
        unfold lpt_next_with; cbn [lpt_root lpt_deck lpt_stack lpt_path lpt_log].
        pose proof (lbase_loop fs2 Hok2) as Hl; rewrite Er2 in Hl; rewrite E2 in Hl.
        destruct (d ++ lrest fs) as [|[x ts] r].
        * cbn in E; injection E as <- <- <- <-.
          exists (mkLpt log None bvec None []); split; [|split].
          -- destruct sd; (eapply conv_bind; [exact Hl|now_conv]).
          -- split; [reflexivity|]; right; exists []; cbn; repeat split; auto.
          -- intros; discriminate.
        * cbn [vstep] in E; destruct Hl as [Hb|(n & fs' & Hn & Hl & Hok' & He' & Ec & <- & Hp)].
          { unfold lvis in E at 1; rewrite Hb in E; apply (vstep_back lvis lgood lvis_back) in E; [elim E; reflexivity|exact Hgood]. }
          unfold lvis in E; rewrite Hn in E; injection E as <- <- <- <-.
          destruct (pres_deck _ _ _ _ Hp) as (_ & Hts).
          exists (mkLpt (n :: log) None (lvec fs' ++ bvec) (Some (snd (gv n))) (map lf_it fs')); split; [|split].
          -- destruct sd; (eapply conv_bind; [exact Hl|]; cbn; rewrite (gv_eq gv); now_conv).
          -- split; [reflexivity|]; right; exists fs'; cbn; rewrite Ec; repeat split; auto.
          -- intros a y E; injection E as <- <-; unfold pok_exact, lpt_current_path; cbn.
             rewrite (lvec_cur fs' Hok' He'), rev_involutive, Ec; reflexivity.
  Qed.

  Lemma lbase_sim n0 : simg (lpt_pipe gv into_iter body n0) lvis lgood pok_exact lbase_R.
  Proof.
    split.
    - intros s g d r HR; exact (lbase_next s g d r HR).
    - intros [log sr sp sd st] g d r (-> & HR); cbn [p_prune lpt_pipe] in *; split; [reflexivity|].
      destruct HR as [(n & t & Er & Ep & Ed & Es & -> & -> & Hp)|(fs & Er & Es & Ep & Hok & He & -> & Hd)]; cbn in *.
      + left; exists n, t; cbn; auto 8.
      + right; exists fs; cbn; repeat split; auto.
    - reflexivity.
    - exact lvis_back.
  Qed.

  Lemma lbase_init log n t : pres base n t -> lbase_R (mkLpt log (Some n) bvec None []) (Some log) [] [t].
  Proof. intros H; split; [reflexivity|]; left; exists n, t; cbn; auto 8. Qed.
End LazyBase.

(** [dp]: the depth of a node with this path. *)
Definition visit_of {Nd V C A} (dp : list nat -> N) (gv : Nd -> V * C) (c : chain V A) (gs : clos c) (p : list nat) (n : Nd) : clos c * outcome A :=
  visit_node c gs (map N.of_nat p) (dp p) (fst (gv n)).

Lemma chain_visG_at {Nd V C A} dp (gv : Nd -> V * C) (c : chain V A) log gs p n g1 o :
  (has_prune c = true -> Forall (fun i => (N.of_nat i <= usize_max)%N) p) -> visit_of dp gv c gs p n = (g1, o) ->
  chain_visG (lvis gv) xpath (fun x => dp (pos_path x)) c (Some log, gs) (mkPos p [] (Some n)) = ((Some (n :: log), g1), o).
Proof.
  intros Hp E; unfold chain_visG, lvis, xpath; cbn [fst snd pos_here pos_path].
  replace (visit_node c gs (map wrap p) (dp p) (fst (gv n))) with (g1, o); [destruct o as [|a [|]]; reflexivity|].
  rewrite <- E; unfold visit_of; destruct (has_prune c) eqn:Hn; [|apply visit_no_path; exact Hn].
  f_equal; apply map_ext_Forall; eapply Forall_impl; [|exact (Hp eq_refl)]; intros i Hi; symmetry; apply wrap_small; exact Hi.
Qed.

Scheme explored_mut := Minimality for explored Sort Prop
  with explored_kids_mut := Minimality for explored_kids Sort Prop.
Combined Scheme explored_both from explored_mut, explored_kids_mut.

Section NaryLazy.
  Context {Nd V C It : Type} (gv : Nd -> V * C) (into_iter : C -> It) (poll : It -> option Nd * It).

  Definition poll_gives (it : It) (l : list (option Nd)) : Prop := exists ns, polled poll it ns /\ l = map Some ns.

  Lemma poll_scan top l : poll_gives top l ->
    match first_some l with
    | None => forall f rest j path, lpt_body poll f (top :: rest, seg_before j :: path) = Ok (inl (rest, path))
    | Some (k, n, l') => exists top', poll_gives top' l' /\
        forall f rest j path, lpt_body poll f (top :: rest, seg_before j :: path) = Ok (inr (Some n, (top' :: rest, seg_before (S (j + k)) :: path)))
    end.
  Proof.
    intros (ns & H & ->); inversion H as [? it' E|? n it' ns' E H']; subst; cbn [map first_some].
    - intros f rest j path; unfold lpt_body; rewrite E; reflexivity.
    - exists it'; split; [exists ns'; auto|]; intros f rest j path; unfold lpt_body; rewrite E; cbn.
      rewrite seg_succ, Nat.add_0_r; reflexivity.
  Qed.

  Context {A : Type} (c : chain V A) (dp : list nat -> N).
  Notation vis := (chain_visG (lvis gv) xpath (fun x => dp (pos_path x)) c).
  Notation pres' := (pres gv into_iter poll_gives).
  Notation pres_kids' := (pres_kids gv into_iter poll_gives).
  Notation small := (Forall (fun i => (N.of_nat i <= usize_max)%N)).

  Definition with_pos {B} (bx : B * pos (option Nd)) : B * list nat := (fst bx, pos_path (snd bx)).
  Definition kept_small (w : tree (A * pos (option Nd))) : Prop := Forall (fun ax => small (pos_path (snd ax))) (preorder w).

  Lemma with_path_inv g p n g1 o : with_path (visit_of dp gv c) g p n = (g1, o) ->
    exists o', visit_of dp gv c g p n = (g1, o') /\ o = match o' with Drop => Drop | Keep a dn => Keep (a, p) dn end.
  Proof.
    unfold with_path; destruct (visit_of dp gv c g p n) as [g2 [|a dn]]; intros E; injection E as <- <-; eexists; split; reflexivity.
  Qed.

  (** [need]: paths must not wrap around. *)
  Variable need : bool.
  Hypothesis Hneed : has_prune c = true -> need = true.

  Lemma explored_walk :
    (forall g p n g' seen o, explored gv into_iter poll (with_path (visit_of dp gv c)) g p n g' seen o ->
      (need = true -> (N.of_nat (length seen) <= usize_max)%N /\ small p) ->
      exists t tw, pres' p n t /\ tsize t <= 2 * length seen /\ 1 <= length seen /\ option_map (tree_map with_pos) tw = o /\
        match tw with Some w => below p w /\ (need = true -> kept_small w) | None => True end /\
        forall log, walk (with_node vis) (Some log, g) t = ((Some (rev seen ++ log), g'), tw)) /\
    (forall g p i ns g' seen ts, explored_kids gv into_iter poll (with_path (visit_of dp gv c)) g p i ns g' seen ts ->
      (need = true -> (N.of_nat (i + length seen) <= usize_max)%N /\ small p) ->
      exists fs tws, pres_kids' p i (map Some ns) fs /\ fsize fs <= 2 * length seen /\ map (tree_map with_pos) tws = ts /\
        Forall (fun w => (exists j, below (p ++ [j]) w) /\ (need = true -> kept_small w)) tws /\
        forall log, walk_list (walk (with_node vis)) (Some log, g) fs = ((Some (rev seen ++ log), g'), tws)).
  Proof.
    apply explored_both.
    - intros g p n g1 Hv Hs; apply with_path_inv in Hv as ([|? ?] & Hv & Eo); try discriminate Eo; exists (TNode (mkPos p [] (Some n)) [bomb]), None.
      split; [constructor|]; split; [cbn; lia|]; split; [cbn; lia|]; split; [reflexivity|]; split; [exact I|].
      intros log; rewrite walk_node; unfold with_node at 1; rewrite (chain_visG_at dp gv c log _ _ _ _ _ (fun H => proj2 (Hs (Hneed H))) Hv); reflexivity.
    - intros g p n g1 b Hv Hs; apply with_path_inv in Hv as ([|a dn] & Hv & Eo); try discriminate Eo; injection Eo as -> <-.
      exists (TNode (mkPos p [] (Some n)) [bomb]), (Some (TNode (a, mkPos p [] (Some n)) [])).
      split; [constructor|]; split; [cbn; lia|]; split; [cbn; lia|]; split; [reflexivity|]; split.
      { split; [cbn; auto|]; intros H; constructor; [apply (Hs H)|constructor]. }
      intros log; rewrite walk_node; unfold with_node at 1; rewrite (chain_visG_at dp gv c log _ _ _ _ _ (fun H => proj2 (Hs (Hneed H))) Hv); reflexivity.
    - intros g p n g1 b ns g2 seen ts Hv Hpl _ IH Hs; apply with_path_inv in Hv as ([|a dn] & Hv & Eo); try discriminate Eo; injection Eo as -> <-.
      destruct IH as (fs & tws & Hk & Hsz & Em & Hb & Hw).
      { intros H; specialize (Hs H); cbn [length] in Hs; split; [lia|tauto]. }
      exists (TNode (mkPos p [] (Some n)) fs), (Some (TNode (a, mkPos p [] (Some n)) tws)).
      split; [eapply pres_all; [exists ns; split; [exact Hpl|reflexivity]|exact Hk]|].
      split; [rewrite tsize_node; cbn [length]; lia|]; split; [cbn; lia|]; split; [cbn; rewrite Em; reflexivity|]; split; [split|].
      + apply below_node; split; [reflexivity|]; eapply Forall_impl; [|exact Hb]; intros w H; apply H.
      + intros H; constructor; [apply (Hs H)|]; apply Forall_flat_map; eapply Forall_impl; [|exact Hb]; intros w Hw'; apply (proj2 Hw' H).
      + intros log; rewrite walk_node; unfold with_node at 1; rewrite (chain_visG_at dp gv c log _ _ _ _ _ (fun H => proj2 (Hs (Hneed H))) Hv).
        rewrite Hw; cbn [rev]; rewrite <- app_assoc; reflexivity.
    - intros g p i _; exists [], []; repeat split; [constructor|cbn; lia|constructor].
    - intros g p i n ns g1 s1 o g2 s2 ts _ IH1 _ IH2 Hs; rewrite app_length in Hs.
      destruct IH1 as (t & tw & Hp & Hsz & H1 & Em & Hb & Hw).
      { intros H; specialize (Hs H); split; [lia|]; apply Forall_app; split; [tauto|]; constructor; [lia|constructor]. }
      destruct IH2 as (fs & tws & Hk & Hsz' & Em' & Hb' & Hw').
      { intros H; specialize (Hs H); split; [lia|tauto]. }
      exists (t :: fs), (opt_list tw ++ tws); split; [constructor; assumption|].
      split; [rewrite fsize_cons, app_length; lia|].
      split; [rewrite map_app, <- Em, <- Em'; destruct tw; reflexivity|].
      split; [apply Forall_app; split; [|exact Hb']; destruct tw; cbn; [constructor; [split; [exists i; apply Hb|apply Hb]|constructor]|constructor]|].
      intros log; rewrite walk_list_cons, Hw, Hw', rev_app_distr, <- app_assoc; reflexivity.
  Qed.

End NaryLazy.

Definition tdp (p : list nat) : N := N.of_nat (length p).

Section NaryItems.
  Context {Nd V C It : Type} (gv : Nd -> V * C) (into_iter : C -> It) (poll : It -> option Nd * It).
  Context {A : Type} (c : chain V A).
  Notation vis := (chain_visG (lvis gv) xpath (fun x => tdp (pos_path x)) c).
  Variable need : bool.
  Hypothesis Hneed : has_prune c = true -> need = true.

  (** What the pipeline emits. *)
  Lemma lazy_items n g' seen o : true_paths c = true -> explored gv into_iter poll (with_path (visit_at gv c)) (clos_init c) [] n g' seen o ->
    (need = true -> (2 * N.of_nat (length seen) <= usize_max)%N) ->
    let P := tree_chain (lazy_pipeline gv into_iter poll n) c in
    exists (tw : option (tree (A * pos (option Nd)))) s, items P (if has_prune c then pok_len else pok_exact) (p_init P) (flat_map preorder (opt_list tw)) s /\
      match tw with Some w => below [] w /\ (need = true -> kept_small w) | None => True end /\ option_map (tree_map with_pos) tw = o /\
      closures tree_depth [] _ c s = g' /\ rev (lpt_log (chain_first tree_depth [] _ c s)) = seen.
  Proof.
    intros Ht He Hb P.
    destruct (proj1 (explored_walk gv into_iter poll c tdp need Hneed) _ _ _ _ _ _ He) as (t & tw & Hp & Hsz & _ & Eo & Hbel & Hw).
    { intros H; specialize (Hb H); split; [lia|constructor]. }
    destruct (chain_simg (lazy_pipeline gv into_iter poll n) tree_depth [] (lvis gv) xpath (fun x => tdp (pos_path x)) pok_exact pok_len pok_exact_facts pok_len_facts
      (lbase_R gv into_iter (poll_gives poll) []) lgood (lbase_sim gv into_iter (lpt_body poll) (poll_gives poll) (fun _ _ => eq_refl) (poll_scan poll) [] n)
      (Some []) [] [t] (lbase_init gv into_iter (poll_gives poll) [] [] n t Hp) c Ht) as (R & HR & Hcl & Hi).
    { intros H; specialize (Hb (Hneed H)); split; [|constructor]; cbn [app]; unfold fsize; cbn [map list_sum fold_right]; lia. }
    assert (Ew : walk_all (with_node vis) (Some [], clos_init c) [t] = ((Some (rev seen), g'), opt_list tw)).
    { unfold walk_all; rewrite walk_list_cons, Hw, walk_list_nil, !app_nil_r; reflexivity. }
    destruct (simg_items _ _ _ _ _ HR _ _ _ _ Hi) as (s & Hit & HR'); cbn [app] in *.
    { rewrite Ew; cbn; discriminate. }
    rewrite Ew in Hit, HR'; cbn [fst snd] in Hit, HR'.
    destruct (Hcl _ _ _ _ HR') as (E1 & E2 & _); cbn [fst snd] in E1, E2; injection E2 as E2.
    exists tw, s; split; [exact Hit|]; split; [exact Hbel|]; split; [exact Eo|]; split; [exact E1|].
    rewrite <- E2; apply rev_involutive.
  Qed.
End NaryItems.

Lemma explored_path {Nd V C It G B} (gv : Nd -> V * C) (into_iter : C -> It) (poll : It -> option Nd * It) (visit : G -> list nat -> Nd -> G * outcome B) :
  (forall g p n g' seen o, explored gv into_iter poll visit g p n g' seen o ->
    exists o', explored gv into_iter poll (with_path visit) g p n g' seen o' /\ option_map (tree_map fst) o' = o) /\
  (forall g p i ns g' seen ts, explored_kids gv into_iter poll visit g p i ns g' seen ts ->
    exists ts', explored_kids gv into_iter poll (with_path visit) g p i ns g' seen ts' /\ map (tree_map fst) ts' = ts).
Proof.
  apply explored_both.
  - intros g p n g1 Hv; exists None; split; [|reflexivity]; apply ex_drop; unfold with_path; rewrite Hv; reflexivity.
  - intros g p n g1 b Hv; exists (Some (TNode (b, p) [])); split; [|reflexivity]; apply ex_cut; unfold with_path; rewrite Hv; reflexivity.
  - intros g p n g1 b ns g2 seen ts Hv Hp _ (ts' & IH & <-); exists (Some (TNode (b, p) ts')); split; [|reflexivity].
    eapply ex_down; [unfold with_path; rewrite Hv; reflexivity|exact Hp|exact IH].
  - intros g p i; exists []; split; [constructor|reflexivity].
  - intros g p i n ns g1 s1 o g2 s2 ts _ (o' & IH1 & <-) _ (ts' & IH2 & <-); exists (opt_list o' ++ ts'); split; [econstructor; eassumption|].
    rewrite map_app; destruct o'; reflexivity.
Qed.

Section NaryEnds.
  Context {Nd V C It : Type} (gv : Nd -> V * C) (into_iter : C -> It) (poll : It -> option Nd * It).
  Context {A : Type} (c : chain V A).
  Notation P n := (tree_chain (lazy_pipeline gv into_iter poll n) c).
  Notation log n s := (rev (lpt_log (chain_first tree_depth [] (lazy_pipeline gv into_iter poll n) c s))).
  Notation clo n s := (closures tree_depth [] (lazy_pipeline gv into_iter poll n) c s).

  Lemma tree_map_fst_pos (w : tree (A * pos (option Nd))) : tree_map fst (tree_map with_pos w) = tree_map fst w.
  Proof. rewrite tree_map_map; reflexivity. Qed.

  Lemma lazy_collect n g' seen o : explored gv into_iter poll (visit_at gv c) (clos_init c) [] n g' seen o -> true_paths c = true ->
    (has_prune c = true -> (2 * N.of_nat (length seen) <= usize_max)%N) ->
    exists s, collect_tree (P n) ⇓ Ok (o, s) /\ clo n s = g' /\ log n s = seen.
  Proof.
    intros He Ht Hb; destruct (proj1 (explored_path gv into_iter poll _) _ _ _ _ _ _ He) as (o' & He' & <-).
    destruct (lazy_items gv into_iter poll c (has_prune c) (fun H => H) n g' seen o' Ht He' Hb) as (tw & s & Hit & Hbel & <- & E1 & E2).
    exists s; split; [|auto]; replace (option_map (tree_map fst) (option_map (tree_map with_pos) tw)) with (option_map (tree_map fst) tw)
      by (destruct tw; cbn; [rewrite tree_map_fst_pos|]; reflexivity).
    eapply collect_ok; [|destruct tw; [apply Hbel|exact I]|exact Hit].
    intros p x Hp; destruct (has_prune c); [exact Hp|]; apply pok_exact_facts in Hp; tauto.
  Qed.

  Lemma lazy_fold {G O} (f : G -> list O -> A -> G * O) (g : G) n g' seen o : explored gv into_iter poll (visit_at gv c) (clos_init c) [] n g' seen o -> true_paths c = true ->
    (has_prune c = true -> (2 * N.of_nat (length seen) <= usize_max)%N) ->
    exists s, fold_tree (P n) f g ⇓ Ok (option_map (fun t => snd (fold_up f g t)) o, match o with Some t => fst (fold_up f g t) | None => g end, s) /\
      clo n s = g' /\ log n s = seen.
  Proof.
    intros He Ht Hb; destruct (proj1 (explored_path gv into_iter poll _) _ _ _ _ _ _ He) as (o' & He' & <-).
    destruct (lazy_items gv into_iter poll c (has_prune c) (fun H => H) n g' seen o' Ht He' Hb) as (tw & s & Hit & Hbel & <- & E1 & E2).
    exists s; split; [|auto].
    assert (Hdep : forall p x, (if has_prune c then pok_len else pok_exact) p x -> length p = length (@pos_path (option Nd) x)).
    { intros p x Hp; destruct (has_prune c); [exact Hp|]; apply pok_exact_facts in Hp; tauto. }
    assert (Hbel' : match tw with Some w => below [] w | None => True end) by (destruct tw; [apply Hbel|exact I]).
    assert (Hf := fold_tree_ok (P n) _ Hdep f tw g s Hbel' Hit).
    destruct tw as [w|]; cbn [option_map] in *; [rewrite tree_map_fst_pos, fold_up_map|]; exact Hf.
  Qed.

  Lemma lazy_fold_path {G O} (f : G -> list O -> list N -> A -> G * O) (g : G) n g' seen o :
    explored gv into_iter poll (with_path (visit_at gv c)) (clos_init c) [] n g' seen o -> has_prune c = false -> (2 * N.of_nat (length seen) <= usize_max)%N ->
    let f' := fun g os (ap : A * list nat) => f g os (map N.of_nat (snd ap)) (fst ap) in
    exists s, fold_path (P n) f g ⇓ Ok (option_map (fun t => snd (fold_up f' g t)) o, match o with Some t => fst (fold_up f' g t) | None => g end, s) /\
      clo n s = g' /\ log n s = seen.
  Proof.
    intros He Hn Hb f'.
    assert (Ht : true_paths c = true).
    { clear -Hn; induction c; cbn in *; try reflexivity; try discriminate; auto. }
    destruct (lazy_items gv into_iter poll c true (fun _ => eq_refl) n g' seen o Ht He (fun _ => Hb)) as (tw & s & Hit & Hbel & <- & E1 & E2).
    rewrite Hn in Hit; exists s; split; [|auto].
    assert (Hbel' : match tw with Some w => below [] w | None => True end) by (destruct tw; [apply Hbel|exact I]).
    assert (Hf := fold_path_ok (P n) pok_exact (fun p x Hx => proj2 (pok_exact_facts p x Hx)) (fun p x Hx => proj1 (pok_exact_facts p x Hx)) f tw g s Hbel' Hit).
    destruct tw as [w|]; cbn [option_map] in *; [|exact Hf].
    destruct Hbel as (_ & Hk); specialize (Hk eq_refl); unfold kept_small in Hk; rewrite Forall_forall in Hk.
    rewrite fold_up_map, (fold_up_ext_in _ (fun (g : G) (os : list O) ax => f g os (xpath (snd ax)) (fst ax))); [exact Hf|].
    intros h os x Hx; unfold f', with_pos, xpath; cbn [fst snd]; f_equal; apply map_ext_Forall; eapply Forall_impl; [|exact (Hk x Hx)].
    intros i Hi; symmetry; apply wrap_small; exact Hi.
  Qed.
End NaryEnds.

(** ** Binary *)
Scheme bexplored_mut := Minimality for bexplored Sort Prop
  with bexplored_side_mut := Minimality for bexplored_side Sort Prop.
Combined Scheme bexplored_both from bexplored_mut, bexplored_side_mut.

Lemma bexplored_path {Nd V G B} (gvcb : Nd -> V * (option Nd * option Nd)) (visit : G -> list nat -> Nd -> G * outcome B) :
  (forall g p n g' seen o, bexplored gvcb visit g p n g' seen o ->
    exists o', bexplored gvcb (with_path visit) g p n g' seen o' /\ option_map (btree_map fst) o' = o) /\
  (forall g p n g' seen o, bexplored_side gvcb visit g p n g' seen o ->
    exists o', bexplored_side gvcb (with_path visit) g p n g' seen o' /\ option_map (btree_map fst) o' = o).
Proof.
  apply bexplored_both.
  - intros g p n g1 Hv; exists None; split; [|reflexivity]; apply bex_drop; unfold with_path; rewrite Hv; reflexivity.
  - intros g p n g1 b Hv; exists (Some (BNode (b, p) None None)); split; [|reflexivity]; apply bex_cut; unfold with_path; rewrite Hv; reflexivity.
  - intros g p n g1 b g2 s1 l g3 s2 r Hv _ (l' & IHl & <-) _ (r' & IHr & <-); exists (Some (BNode (b, p) l' r')); split; [|reflexivity].
    eapply bex_down; [unfold with_path; rewrite Hv; reflexivity|exact IHl|exact IHr].
  - intros g p; exists None; split; [constructor|reflexivity].
  - intros g p n g1 s o _ (o' & IH & <-); exists o'; split; [constructor; exact IH|reflexivity].
Qed.

Section BinaryLazy.
  Context {Nd V : Type} (gvcb : Nd -> V * (option Nd * option Nd)) {A : Type} (c : chain V A) (dp : list nat -> N).
  Notation gives := (@eq (list (option Nd))).
  Notation vis := (chain_visG (lvis gvcb) xpath (fun x => dp (pos_path x)) c).
  Notation pres' := (pres gvcb pair_iter gives).
  Notation small := (Forall (fun i => (N.of_nat i <= usize_max)%N)).
  Definition bkept_small (w : btree (A * pos (option Nd))) : Prop := Forall (fun ax => small (pos_path (snd ax))) (preorder (flat w)).

  Lemma small_side p i : i <= 1 -> small p -> small (p ++ [i]).
  Proof. intros Hi Hp; apply Forall_app; split; [exact Hp|]; constructor; [unfold usize_max; lia|constructor]. Qed.

  Lemma bexplored_walk :
    (forall g p n g' seen o, bexplored gvcb (with_path (visit_of dp gvcb c)) g p n g' seen o -> small p ->
      exists t tw, pres' p n t /\ option_map (btree_map with_pos) tw = o /\ match tw with Some w => bbelow p w /\ bkept_small w | None => True end /\
        forall log, walk (with_node vis) (Some log, g) t = ((Some (rev seen ++ log), g'), option_map flat tw)) /\
    (forall g p on g' seen o, bexplored_side gvcb (with_path (visit_of dp gvcb c)) g p on g' seen o -> small p ->
      exists ts tw, match on with None => ts = [] | Some n => exists t, ts = [t] /\ pres' p n t end /\
        option_map (btree_map with_pos) tw = o /\ match tw with Some w => bbelow p w /\ bkept_small w | None => True end /\
        forall log, walk_list (walk (with_node vis)) (Some log, g) ts = ((Some (rev seen ++ log), g'), opt_list (option_map flat tw))).
  Proof.
    apply bexplored_both.
    - intros g p n g1 Hv Hs; apply with_path_inv in Hv as ([|? ?] & Hv & Eo); try discriminate Eo; exists (TNode (mkPos p [] (Some n)) [bomb]), None.
      split; [constructor|]; split; [reflexivity|]; split; [exact I|].
      intros log; rewrite walk_node; unfold with_node at 1; rewrite (chain_visG_at dp gvcb c log _ _ _ _ _ (fun _ => Hs) Hv); reflexivity.
    - intros g p n g1 b Hv Hs; apply with_path_inv in Hv as ([|a dn] & Hv & Eo); try discriminate Eo; injection Eo as -> <-.
      exists (TNode (mkPos p [] (Some n)) [bomb]), (Some (BNode (a, mkPos p [] (Some n)) None None)).
      split; [constructor|]; split; [reflexivity|]; split; [split; [cbn; auto|constructor; [exact Hs|constructor]]|].
      intros log; rewrite walk_node; unfold with_node at 1; rewrite (chain_visG_at dp gvcb c log _ _ _ _ _ (fun _ => Hs) Hv); reflexivity.
    - intros g p n g1 b g2 s1 l g3 s2 r Hv _ IHl _ IHr Hs; apply with_path_inv in Hv as ([|a dn] & Hv & Eo); try discriminate Eo; injection Eo as -> <-.
      destruct (IHl (small_side p 0 ltac:(lia) Hs)) as (tl & wl & Hl & <- & Hbl & Hwl), (IHr (small_side p 1 ltac:(lia) Hs)) as (tr & wr & Hr & <- & Hbr & Hwr).
      exists (TNode (mkPos p [] (Some n)) (tl ++ tr)), (Some (BNode (a, mkPos p [] (Some n)) wl wr)).
      split; [|split; [reflexivity|split]].
      + eapply pres_all; [reflexivity|]; unfold pair_iter; destruct (snd (gvcb n)) as [nl nr]; cbn [fst snd] in Hl, Hr |- *.
        assert (Hkr : pres_kids gvcb pair_iter gives p 1 [nr] tr).
        { destruct nr as [nr|]; [destruct Hr as (t & -> & Hr)|subst tr]; repeat constructor; exact Hr. }
        destruct nl as [nl|]; [destruct Hl as (t & -> & Hl); apply pk_some; [exact Hl|exact Hkr]|subst tl; apply pk_none; exact Hkr].
      + split; [cbn; split; [reflexivity|]; split; [destruct wl; [apply Hbl|exact I]|destruct wr; [apply Hbr|exact I]]|].
        unfold bkept_small; cbn [flat preorder]; constructor; [exact Hs|]; rewrite flat_map_app; apply Forall_app; split.
        * destruct wl; cbn; [rewrite app_nil_r; apply Hbl|constructor].
        * destruct wr; cbn; [rewrite app_nil_r; apply Hbr|constructor].
      + intros log; rewrite walk_node; unfold with_node at 1; rewrite (chain_visG_at dp gvcb c log _ _ _ _ _ (fun _ => Hs) Hv).
        rewrite walk_list_app, Hwl, Hwr; cbn [rev]; rewrite rev_app_distr, <- !app_assoc; cbn [option_map flat app].
        destruct wl, wr; reflexivity.
    - intros g p _; exists [], None; auto.
    - intros g p n g1 s o _ IH Hs; destruct (IH Hs) as (t & tw & Hp & Eo & Hb & Hw).
      exists [t], tw; split; [exists t; auto|]; split; [exact Eo|]; split; [exact Hb|].
      intros log; rewrite walk_list_cons, Hw, walk_list_nil, app_nil_r; reflexivity.
  Qed.

  Lemma eq_scan (top l : list (option Nd)) : top = l ->
    match first_some l with
    | None => forall f rest j path, ptb_body f (top :: rest, seg_before j :: path) = Ok (inl (rest, path))
    | Some (k, n, l') => exists top', top' = l' /\
        forall f rest j path, ptb_body f (top :: rest, seg_before j :: path) = Ok (inr (Some n, (top' :: rest, seg_before (S (j + k)) :: path)))
    end.
  Proof. intros ->; apply binary_scan. Qed.

End BinaryLazy.

Section BinaryItems.
  Context {Nd V : Type} (gvcb : Nd -> V * (option Nd * option Nd)) {A : Type} (c : chain V A).
  Notation gives := (@eq (list (option Nd))).
  Notation vis := (chain_visG (lvis gvcb) xpath (fun x => tdp (pos_path x)) c).

  Lemma blazy_items n g' seen o : bexplored gvcb (with_path (visit_at gvcb c)) (clos_init c) [] n g' seen o ->
    let P := btree_chain (lazy_pipeline_binary gvcb n) c in
    exists (tw : option (btree (A * pos (option Nd)))) s, items P pok_exact (p_init P) (flat_map preorder (opt_list (option_map flat tw))) s /\
      match tw with Some w => bbelow [] w /\ bkept_small w | None => True end /\ option_map (btree_map with_pos) tw = o /\
      closures_binary tree_depth _ c s = g' /\ rev (lpt_log (chain_first_binary tree_depth _ c s)) = seen.
  Proof.
    intros He P.
    destruct (proj1 (bexplored_walk gvcb c tdp) _ _ _ _ _ _ He) as (t & tw & Hp & Eo & Hbel & Hw); [constructor|].
    destruct (bchain_simg (lazy_pipeline_binary gvcb n) tree_depth (lvis gvcb) xpath (fun x => tdp (pos_path x)) pok_exact pok_len pok_exact_facts pok_len_facts
      (lbase_R gvcb pair_iter gives []) lgood (lbase_sim gvcb pair_iter ptb_body gives (fun _ _ => eq_refl) eq_scan [] n)
      (Some []) [] [t] (lbase_init gvcb pair_iter gives [] [] n t Hp) c) as (R & HR & Hcl & Hi).
    assert (Ew : walk_all (with_node vis) (Some [], clos_init c) [t] = ((Some (rev seen), g'), opt_list (option_map flat tw))).
    { unfold walk_all; rewrite walk_list_cons, Hw, walk_list_nil, !app_nil_r; reflexivity. }
    destruct (simg_items _ _ _ _ _ HR _ _ _ _ Hi) as (s & Hit & HR'); cbn [app] in *.
    { rewrite Ew; cbn; discriminate. }
    rewrite Ew in Hit, HR'; cbn [fst snd] in Hit, HR'.
    destruct (Hcl _ _ _ _ HR') as (E1 & E2 & _); cbn [fst snd] in E1, E2; injection E2 as E2.
    exists tw, s; split; [exact Hit|]; split; [exact Hbel|]; split; [exact Eo|]; split; [exact E1|].
    rewrite <- E2; apply rev_involutive.
  Qed.
End BinaryItems.

Section BinaryEnds.
  Context {Nd V : Type} (gvcb : Nd -> V * (option Nd * option Nd)) {A : Type} (c : chain V A).
  Notation P n := (btree_chain (lazy_pipeline_binary gvcb n) c).
  Notation log n s := (rev (lpt_log (chain_first_binary tree_depth (lazy_pipeline_binary gvcb n) c s))).
  Notation clo n s := (closures_binary tree_depth (lazy_pipeline_binary gvcb n) c s).

  Lemma blazy_collect n g' seen o : bexplored gvcb (visit_at gvcb c) (clos_init c) [] n g' seen o ->
    exists s, bcollect_tree (P n) ⇓ Ok (o, s) /\ clo n s = g' /\ log n s = seen.
  Proof.
    intros He; destruct (proj1 (bexplored_path gvcb _) _ _ _ _ _ _ He) as (o' & He' & <-).
    destruct (blazy_items gvcb c n g' seen o' He') as (tw & s & Hit & Hbel & <- & E1 & E2).
    exists s; split; [|auto]; replace (option_map (btree_map fst) (option_map (btree_map with_pos) tw)) with (option_map (btree_map fst) tw)
      by (destruct tw; cbn; [rewrite btree_map_map|]; reflexivity).
    eapply bcollect_ok; [exact (fun p x Hx => proj2 (pok_exact_facts p x Hx))|exact (fun p x Hx => proj1 (pok_exact_facts p x Hx))|destruct tw; [apply Hbel|exact I]|exact Hit].
  Qed.

  Lemma blazy_fold_path {G O} (f : G -> option O * option O -> list N -> A -> G * O) (g : G) n g' seen o :
    bexplored gvcb (with_path (visit_at gvcb c)) (clos_init c) [] n g' seen o ->
    let f' := fun g os (ap : A * list nat) => f g os (map N.of_nat (snd ap)) (fst ap) in
    exists s, bfold_path (P n) f g ⇓ Ok (option_map (fun t => snd (bfold_up f' g t)) o, match o with Some t => fst (bfold_up f' g t) | None => g end, s) /\
      clo n s = g' /\ log n s = seen.
  Proof.
    intros He f'.
    destruct (blazy_items gvcb c n g' seen o He) as (tw & s & Hit & Hbel & <- & E1 & E2).
    exists s; split; [|auto].
    assert (Hbel' : match tw with Some w => bbelow [] w | None => True end) by (destruct tw; [apply Hbel|exact I]).
    assert (Hf := bfold_path_ok (P n) pok_exact (fun p x Hx => proj2 (pok_exact_facts p x Hx)) (fun p x Hx => proj1 (pok_exact_facts p x Hx)) f tw g s Hbel' Hit).
    destruct tw as [w|]; cbn [option_map] in *; [|exact Hf].
    destruct Hbel as (_ & Hk); unfold bkept_small in Hk; rewrite Forall_forall in Hk.
    rewrite bfold_up_map, (bfold_up_ext_in _ (fun (g : G) (os : option O * option O) ax => f g os (xpath (snd ax)) (fst ax))); [exact Hf|].
    intros h os x Hx; unfold f', with_pos, xpath; cbn [fst snd]; f_equal; apply map_ext_Forall; eapply Forall_impl; [|exact (Hk x Hx)].
    intros i Hi; symmetry; apply wrap_small; exact Hi.
  Qed.

  Lemma blazy_fold {G O} (f : G -> option O * option O -> A -> G * O) (g : G) n g' seen o : bexplored gvcb (visit_at gvcb c) (clos_init c) [] n g' seen o ->
    exists s, bfold_tree (P n) f g ⇓ Ok (option_map (fun t => snd (bfold_up f g t)) o, match o with Some t => fst (bfold_up f g t) | None => g end, s) /\
      clo n s = g' /\ log n s = seen.
  Proof.
    intros He; destruct (proj1 (bexplored_path gvcb _) _ _ _ _ _ _ He) as (o' & He' & <-).
    destruct (blazy_fold_path (fun g os _ a => f g os a) g n g' seen o' He') as (s & Hf & Hc).
    exists s; split; [|exact Hc]; unfold bfold_tree.
    destruct o' as [w|]; cbn [option_map] in *; [rewrite bfold_up_map|]; exact Hf.
  Qed.
End BinaryEnds.

(** ** What the specification says *)
Scheme sl_whole_mut := Minimality for SpecLazy.whole Sort Prop
  with sl_wholes_mut := Minimality for SpecLazy.wholes Sort Prop.
Combined Scheme sl_whole_both from sl_whole_mut, sl_wholes_mut.
Scheme sl_bwhole_mut := Minimality for SpecLazy.bwhole Sort Prop
  with sl_bwhole_opt_mut := Minimality for SpecLazy.bwhole_opt Sort Prop.
Combined Scheme sl_bwhole_both from sl_bwhole_mut, sl_bwhole_opt_mut.

Section ExploreFacts.
  Context {Nd V C It : Type} (gv : Nd -> V * C) (into_iter : C -> It) (poll : It -> option Nd * It).
  Context {G B : Type} (visit : G -> list nat -> Nd -> G * outcome B).

  Lemma polled_det it ns : polled poll it ns -> forall ns', polled poll it ns' -> ns' = ns.
  Proof.
    induction 1 as [it it' H|it n it' ns H _ IH]; intros ns' H'; inversion H'; subst; try congruence.
    rewrite H in *; match goal with E : (Some _, _) = (Some _, _) |- _ => injection E as <- <- end; f_equal; auto.
  Qed.

  Lemma explored_det :
    (forall g p n g' seen o, explored gv into_iter poll visit g p n g' seen o ->
      forall g1 seen1 o1, explored gv into_iter poll visit g p n g1 seen1 o1 -> (g1, seen1, o1) = (g', seen, o)) /\
    (forall g p i ns g' seen ts, explored_kids gv into_iter poll visit g p i ns g' seen ts ->
      forall g1 seen1 ts1, explored_kids gv into_iter poll visit g p i ns g1 seen1 ts1 -> (g1, seen1, ts1) = (g', seen, ts)).
  Proof.
    apply explored_both.
    - intros g p n g1 Hv g1' seen1 o1 H'; inversion H'; subst; congruence.
    - intros g p n g1 b Hv g1' seen1 o1 H'; inversion H'; subst; congruence.
    - intros g p n g1 b ns g2 seen ts Hv Hp _ IH g1' seen1 o1 H'; inversion H'; subst; try congruence.
      match goal with E : visit g p n = (_, Keep _ true), Hq : polled _ _ ?ns', Hk : explored_kids _ _ _ _ _ _ _ ?ns' _ _ _ |- _ =>
        rewrite Hv in E; injection E as <- <-; apply (polled_det _ _ Hp) in Hq; subst ns'; apply IH in Hk; congruence end.
    - intros g p i g1 seen1 ts1 H'; inversion H'; reflexivity.
    - intros g p i n ns g1 s1 o g2 s2 ts _ IH1 _ IH2 g1' seen1 ts1 H'; inversion H'; subst.
      match goal with H1 : explored _ _ _ _ _ _ _ _ _ _ |- _ => apply IH1 in H1; injection H1 as -> -> -> end.
      match goal with H1 : explored_kids _ _ _ _ _ _ _ _ _ _ _ |- _ => apply IH2 in H1; injection H1 as -> -> -> end; reflexivity.
  Qed.
End ExploreFacts.

Section WholeFacts.
  Context {Nd V C It : Type} (gv : Nd -> V * C) (into_iter : C -> It) (poll : It -> option Nd * It).
  Context {A : Type} (c : chain V A).

  Lemma whole_explored :
    (forall n t, SpecLazy.whole gv into_iter poll n t -> forall g p ab, exists seen,
      explored gv into_iter poll (visit_at gv c) g p n (fst (walk (at_node (nval gv) c) g (annotate p ab t))) seen (snd (walk (at_node (nval gv) c) g (annotate p ab t))) /\
      length seen <= length (preorder t)) /\
    (forall it ts, SpecLazy.wholes gv into_iter poll it ts -> exists ns, polled poll it ns /\ forall g p ab i, exists seen,
      let w := walk_list (walk (at_node (nval gv) c)) g (mapi (fun i t => annotate (p ++ [i]) ab t) i ts) in
      explored_kids gv into_iter poll (visit_at gv c) g p i ns (fst w) seen (snd w) /\ length seen <= length (flat_map preorder ts)).
  Proof.
    apply sl_whole_both.
    - intros n ts _ (ns & Hp & IH) g p ab; cbn [annotate]; rewrite walk_node.
      change (at_node (nval gv) c g (mkPos p ab n)) with (visit_at gv c g p n).
      destruct (visit_at gv c g p n) as [g1 [|b [|]]] eqn:Hv.
      + exists [n]; split; [constructor; exact Hv|cbn; lia].
      + destruct (IH g1 p (ab ++ [n]) 0) as (seen & He & Hl); cbv zeta in He.
        destruct (walk_list _ g1 _) as [g2 ts']; cbn [fst snd] in *; exists (n :: seen); split; [eapply ex_down; eassumption|cbn [preorder length]; lia].
      + exists [n]; split; [constructor; exact Hv|cbn; lia].
    - intros it it' H; exists []; split; [eapply polled_end; exact H|]; intros g p ab i; exists []; split; [constructor|reflexivity].
    - intros it n it' t ts H _ IHt _ (ns & Hp & IHs); exists (n :: ns); split; [eapply polled_more; eassumption|]; intros g p ab i.
      cbn [mapi]; rewrite walk_list_cons; destruct (IHt g (p ++ [i]) ab) as (s1 & H1 & L1).
      destruct (walk _ g _) as [g1 o]; cbn [fst snd] in *; destruct (IHs g1 p ab (S i)) as (s2 & H2 & L2); cbv zeta in H2.
      destruct (walk_list _ g1 _) as [g2 ts']; cbn [fst snd] in *; exists (s1 ++ s2); cbv zeta; split; [econstructor; eassumption|].
      cbn [flat_map]; rewrite !app_length; lia.
  Qed.

  Lemma upto_explored (d : nat) (lim : N) :
    forall n t, up_to gv into_iter poll d n t -> forall p, lim = N.of_nat (length p + d) ->
      explored gv into_iter poll (visit_at gv (c_prune_depth c_start lim)) tt p n tt (preorder t) (Some (tree_map (nval gv) t)).
  Proof.
    induction d as [|d IH]; intros n t H p El; inversion H; subst.
    - apply ex_cut; unfold visit_at; cbn; rewrite Nat.add_0_r, N.eqb_refl; reflexivity.
    - cbn [preorder tree_map]; eapply ex_down; [unfold visit_at; cbn|eassumption|].
      + rewrite (proj2 (N.eqb_neq _ _)) by lia; reflexivity.
      + match goal with Hf : Forall2 _ ns ts |- _ => revert Hf end; generalize 0; clear -IH; revert ts; induction ns as [|m ns IHn]; intros ts i Hf; inversion Hf; subst; [constructor|].
        cbn [flat_map map]; match goal with |- context [tree_map ?h ?y :: ?z] => change (tree_map h y :: z) with (opt_list (Some (tree_map h y)) ++ z) end.
        econstructor; [eapply IH; [eassumption|rewrite app_length; cbn; lia]|apply IHn; assumption].
  Qed.
End WholeFacts.

Section BinaryExploreFacts.
  Context {Nd V : Type} (gvcb : Nd -> V * (option Nd * option Nd)).

  Lemma bexplored_det {G B} (visit : G -> list nat -> Nd -> G * outcome B) :
    (forall g p n g' seen o, bexplored gvcb visit g p n g' seen o ->
      forall g1 seen1 o1, bexplored gvcb visit g p n g1 seen1 o1 -> (g1, seen1, o1) = (g', seen, o)) /\
    (forall g p n g' seen o, bexplored_side gvcb visit g p n g' seen o ->
      forall g1 seen1 o1, bexplored_side gvcb visit g p n g1 seen1 o1 -> (g1, seen1, o1) = (g', seen, o)).
  Proof.
    apply bexplored_both.
    - intros g p n g1 Hv g1' seen1 o1 H'; inversion H'; subst; congruence.
    - intros g p n g1 b Hv g1' seen1 o1 H'; inversion H'; subst; congruence.
    - intros g p n g1 b g2 s1 l g3 s2 r Hv _ IHl _ IHr g1' seen1 o1 H'; inversion H'; subst; try congruence.
      match goal with E : visit g p n = (_, Keep _ true) |- _ => rewrite Hv in E; injection E as <- <- end.
      match goal with H1 : bexplored_side _ _ _ (p ++ [0]) _ _ _ _ |- _ => apply IHl in H1; injection H1 as -> -> -> end.
      match goal with H1 : bexplored_side _ _ _ (p ++ [1]) _ _ _ _ |- _ => apply IHr in H1; injection H1 as -> -> -> end; reflexivity.
    - intros g p g1 seen1 ts1 H'; inversion H'; reflexivity.
    - intros g p n g1 s o _ IH g1' seen1 o1 H'; inversion H'; subst; auto.
  Qed.

  Lemma bwhole_explored {A} (c : chain V A) :
    (forall n t, SpecLazy.bwhole gvcb n t -> forall g p ab, exists seen,
      bexplored gvcb (visit_at gvcb c) g p n (fst (bwalk (at_node (nval gvcb) c) g (bannotate p ab t))) seen (snd (bwalk (at_node (nval gvcb) c) g (bannotate p ab t)))) /\
    (forall on o, SpecLazy.bwhole_opt gvcb on o -> forall g p ab, exists seen,
      let w := walk_side (bwalk (at_node (nval gvcb) c)) g (option_map (bannotate p ab) o) in
      bexplored_side gvcb (visit_at gvcb c) g p on (fst w) seen (snd w)).
  Proof.
    apply sl_bwhole_both.
    - intros n l r _ IHl _ IHr g p ab; cbn [bannotate]; rewrite bwalk_node.
      change (at_node (nval gvcb) c g (mkPos p ab n)) with (visit_at gvcb c g p n).
      destruct (visit_at gvcb c g p n) as [g1 [|b [|]]] eqn:Hv.
      + exists [n]; constructor; exact Hv.
      + destruct (IHl g1 (p ++ [0]) (ab ++ [n])) as (s1 & H1); cbv zeta in H1; destruct (walk_side _ g1 _) as [g2 l']; cbn [fst snd] in *.
        destruct (IHr g2 (p ++ [1]) (ab ++ [n])) as (s2 & H2); cbv zeta in H2; destruct (walk_side _ g2 _) as [g3 r']; cbn [fst snd] in *.
        exists (n :: s1 ++ s2); eapply bex_down; eassumption.
      + exists [n]; constructor; exact Hv.
    - intros g p ab; exists []; constructor.
    - intros n t _ IH g p ab; destruct (IH g p ab) as (s & H); exists s; cbv zeta; cbn [option_map walk_side]; constructor; exact H.
  Qed.

  Lemma bcut_explored (lim : N) (d : nat) :
    forall n p, lim = N.of_nat (length p + d) ->
      bexplored gvcb (visit_at gvcb (c_prune_depth c_start lim)) tt p n tt (preorder (flat (SpecLazy.bcut gvcb d n)))
        (Some (btree_map (nval gvcb) (SpecLazy.bcut gvcb d n))).
  Proof.
    induction d as [|d IH]; intros n p El; cbn [SpecLazy.bcut].
    - apply bex_cut; unfold visit_at; cbn; rewrite El, Nat.add_0_r, N.eqb_refl; reflexivity.
    - cbn [btree_map flat preorder]; rewrite flat_map_app; eapply bex_down; [unfold visit_at; cbn; rewrite (proj2 (N.eqb_neq _ _)) by lia; reflexivity| |].
      + destruct (fst (snd (gvcb n))) as [m|]; cbn; [rewrite app_nil_r|]; constructor; apply IH; rewrite app_length; cbn; lia.
      + destruct (snd (snd (gvcb n))) as [m|]; cbn; [rewrite app_nil_r|]; constructor; apply IH; rewrite app_length; cbn; lia.
  Qed.
End BinaryExploreFacts.
