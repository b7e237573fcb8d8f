(** * ProofsMapPathPruneUb: pipelines that may read freed memory on the way. *)
From Verif Require Import Prelim PrelimFacts Spec SpecFacts SpecPipe SpecDrift SpecMapPathPrune SpecObs ModelNode NodeFacts ModelPre ModelPipe ModelMapPath
  ModelMapPathPrune ProofsPlain Slots PipeCore PipeBase PipeChain PipeEnd ProofsPipe PipeFinal PipeExact ProofsExact ProofsMapPath ProofsMapPathEnd ProofsMapPathChain
  ProofsMapPathPrune ProofsMapPathPruneSim.

Lemma loop_ub {S T} (body : nat -> S -> Res (S + T)) s : (fun f => body f s) ⇓ UB -> (fun f => loop body f s) ⇓ UB.
Proof. intros [F HF]; exists (Datatypes.S F); intros [|f] Hf; [lia|]; cbn [loop]; rewrite HF by lia; reflexivity. Qed.

(** As [simx], but a visit after which [ub] holds reads freed memory. *)
Record simu {A G X : Type} (P : pipe A) (vis : G -> X -> G * outcome A) (pth : G -> X -> list N) (len : X -> nat) (ub : G -> bool)
    (R : p_state P -> G -> list (tree X) -> list (tree X) -> Prop) : Prop := mkSimu {
  su_mono : forall g x, ub g = true -> ub (fst (vis g x)) = true;
  su_good : forall s g d r, R s g d r -> ub g = false;
  su_next : forall s g d r, R s g d r ->
    forall o d' r' g', vstep vis g (d ++ r) = (o, d', r', g') ->
    if ub g' then (fun f => p_next P f s) ⇓ UB
    else exists s', (fun f => p_next P f s) ⇓ Ok (option_map fst o, s') /\ R s' g' d' r' /\
      (forall a x, o = Some (a, x) -> p_path P s' = pth g' x /\ length (p_path P s') = len x /\ segs_ok (p_path P s'));
  su_prune : forall s g d r, R s g d r -> R (p_prune P s) g [] r;
  su_path : forall s, p_path P (p_prune P s) = p_path P s
}.

Lemma simu_iso {A G G' X} (P : pipe A) (to : G -> G') (from : G' -> G) (vis : G -> X -> G * outcome A) (vis' : G' -> X -> G' * outcome A) pth pth' len ub ub' R :
  (forall g, from (to g) = g) -> (forall g, to (from g) = g) ->
  (forall g x, vis' g x = let '(g1, o) := vis (from g) x in (to g1, o)) -> (forall g x, pth' g x = pth (from g) x) -> (forall g, ub' g = ub (from g)) ->
  simu P vis pth len ub R -> simu P vis' pth' len ub' (fun s g d r => R s (from g) d r).
Proof.
  intros Hft Htf Hv H4 H5 [H0 H0' H1 H2 H3]; split; [| | |intros s g d r; apply H2|exact H3].
  - intros g x Hu; rewrite H5 in Hu |- *; rewrite Hv; specialize (H0 (from g) x Hu); destruct (vis (from g) x) as [g1 o]; cbn [fst] in *; rewrite Hft; exact H0.
  - intros s g d r HR; rewrite H5; apply (H0' _ _ _ _ HR).
  - intros s g d r HR o d' r' g' E; rewrite H5; destruct (d ++ r) as [|t l] eqn:Edr.
    + cbn in E; injection E as <- <- <- <-.
      specialize (H1 s (from g) d r HR None [] [] (from g)); rewrite Edr in H1; specialize (H1 eq_refl); destruct (ub (from g)); [exact H1|].
      destruct H1 as (s' & Hc & HR' & _); exists s'; split; [exact Hc|split; [exact HR'|intros; discriminate]].
    + rewrite (vstep_iso to from vis vis' Hft Hv) in E by discriminate.
      destruct (vstep vis (from g) (t :: l)) as [[[o1 d1] r1] g1] eqn:E1; injection E as <- <- <- <-.
      rewrite <- Edr in E1; specialize (H1 _ _ _ _ HR _ _ _ _ E1); rewrite Hft; destruct (ub g1); [exact H1|].
      destruct H1 as (s' & Hc & HR' & Hp); exists s'; split; [exact Hc|split; [exact HR'|]].
      intros a x Eo; rewrite H4, Hft; eauto.
Qed.

Section UMap.
  Context {A B G H X : Type} (inner : pipe A) (f : H -> A -> H * B) (h0 : H).
  Context (vis : G -> X -> G * outcome A) (pth : G -> X -> list N) (len : X -> nat) (ub : G -> bool)
    (R : p_state inner -> G -> list (tree X) -> list (tree X) -> Prop).
  Hypothesis Hsim : simu inner vis pth len ub R.

  Lemma umap_sim : simu (map_tree inner f h0) (vthen vis (map_stage f)) (fun gh x => pth (fst gh) x) len (fun gh => ub (fst gh)) (map_R inner f h0 R).
  Proof.
    destruct Hsim as [H0 H0' H1 H2 H3]; split.
    - intros [g h] x Hu; cbn [fst] in Hu; unfold vthen, map_stage; cbn [fst snd]; specialize (H0 g x Hu).
      destruct (vis g x) as [g1 [|a dn]]; [exact H0|]; destruct (f h a); exact H0.
    - intros [s h'] [g h] d r [HR _]; apply (H0' _ _ _ _ HR).
    - intros [s h'] [g h] d r [HR Eh] o d' r' g' E; cbn in HR, Eh; subst h'.
      rewrite vstep_then in E.
      destruct (vstep vis g (d ++ r)) as [[[o1 d1] r1] g1] eqn:E1.
      specialize (H1 s g d r HR _ _ _ _ E1).
      assert (Eg : ub (fst g') = ub g1).
      { destruct o1 as [[a x]|]; [|injection E as _ _ _ <-; reflexivity]; unfold map_stage in E; destruct (f h a); injection E as _ _ _ <-; reflexivity. }
      rewrite Eg; destruct (ub g1); [cbn; unfold map_next; apply bind_ub; exact H1|].
      destruct H1 as (s1 & Hc & HR1 & Hp).
      destruct o1 as [[a x]|].
      + unfold map_stage in E; destruct (f h a) as [h1 b] eqn:Ef; injection E as <- <- <- <-.
        exists (s1, h1); split; [|split].
        * cbn; unfold map_next; eapply conv_bind; [exact Hc|]; cbn; rewrite Ef; now_conv.
        * split; [exact HR1|reflexivity].
        * intros b' x' E; injection E as <- <-; apply (Hp a x eq_refl).
      + injection E as <- <- <- <-; exists (s1, h); split; [|split].
        * cbn; unfold map_next; eapply conv_bind; [exact Hc|]; now_conv.
        * destruct (vstep_size vis g (d ++ r) _ _ _ _ E1) as [-> ->]; split; [exact HR1|reflexivity].
        * intros; discriminate.
    - intros [s h'] [g h] d r [HR Eh]; split; [apply (H2 _ _ _ _ HR)|exact Eh].
    - intros [s h]; apply H3.
  Qed.
End UMap.

Section UDepth.
  Context {A G X : Type} (inner : pipe A) (depth_of : list N -> Res N) (lim : N) (depth : X -> N).
  Context (vis : G -> X -> G * outcome A) (pth : G -> X -> list N) (len : X -> nat) (ub : G -> bool)
    (R : p_state inner -> G -> list (tree X) -> list (tree X) -> Prop).
  Hypothesis Hsim : simu inner vis pth len ub R.
  Hypothesis Hdepth : forall p x, length p = len x -> depth_of p = Ok (depth x).

  Lemma udepth_sim : simu (prune_depth inner depth_of lim) (vdepth lim depth vis) pth len ub R.
  Proof.
    destruct Hsim as [H0 H0' H1 H2 H3]; split; [|exact H0'| |exact H2|exact H3].
    - intros g x Hu; unfold vdepth; specialize (H0 g x Hu); destruct (vis g x) as [g1 [|a dn]]; exact H0.
    - intros s g d r HR o d' r' g' E; rewrite vstep_depth in E.
      destruct (vstep vis g (d ++ r)) as [[[o1 d1] r1] g1] eqn:E1.
      specialize (H1 s g d r HR _ _ _ _ E1).
      assert (Eg : g' = g1) by (destruct o1 as [[a x]|]; injection E as _ _ _ <-; reflexivity).
      subst g'; destruct (ub g1); [cbn [p_next prune_depth]; unfold prune_depth_next; apply bind_ub; exact H1|].
      destruct H1 as (s1 & Hc & HR1 & Hp).
      destruct o1 as [[a x]|]; injection E as <- <- <-.
      + specialize (Hp a x eq_refl).
        exists (if (depth x =? lim)%N then p_prune inner s1 else s1); split; [|split].
        * cbn; unfold prune_depth_next; eapply conv_bind; [exact Hc|]; cbn.
          rewrite (Hdepth _ _ (proj1 (proj2 Hp))); now_conv.
        * destruct (depth x =? lim)%N; [apply (H2 _ _ _ _ HR1)|exact HR1].
        * intros a' x' E; injection E as <- <-; cbn; destruct (depth x =? lim)%N; [rewrite H3|]; exact Hp.
      + exists s1; split; [|split].
        * cbn; unfold prune_depth_next; eapply conv_bind; [exact Hc|]; now_conv.
        * exact HR1.
        * intros; discriminate.
  Qed.
End UDepth.

Section UPrune.
  Context {A G H X : Type} (inner : pipe A) (f : H -> list N -> A -> H * bool).
  Context (vis : G -> X -> G * outcome A) (pth : G -> X -> list N) (len : X -> nat) (ub : G -> bool)
    (R : p_state inner -> G -> list (tree X) -> list (tree X) -> Prop).
  Hypothesis Hsim : simu inner vis pth len ub R.
  Variables (h0 : H) (start : list N).

  Lemma vstep_mono {A' G' X'} (v : G' -> X' -> G' * outcome A') (u : G' -> bool) : (forall g x, u g = true -> u (fst (v g x)) = true) ->
    forall todo g, u g = true -> u (snd (vstep v g todo)) = true.
  Proof.
    intros Hm todo; induction todo as [|[x ts] todo IH]; intros g Hu; cbn; [exact Hu|]; specialize (Hm g x Hu).
    destruct (v g x) as [g1 [|a dn]]; [apply IH|]; exact Hm.
  Qed.

  Lemma xprune_mono gh x : ub (fst gh) = true -> ub (fst (fst (xprune_vis f vis pth len gh x))) = true.
  Proof.
    intros Hu; unfold xprune_vis; pose proof (su_mono _ _ _ _ _ _ Hsim (fst gh) x Hu) as Hm.
    destruct (vis (fst gh) x) as [g1 [|a dn]]; [exact Hm|]; destruct (f (fst (snd gh)) (pth g1 x) a); exact Hm.
  Qed.

  Lemma uprune_sim : simu (prune_from inner f start h0) (xprune_vis f vis pth len) (fun gh _ => snd (snd gh)) len (fun gh => ub (fst gh)) (xprune_R inner f R h0 start).
  Proof.
    pose proof Hsim as [H0 H0' H1 H2 H3]; split.
    - apply xprune_mono.
    - intros s gh d r (HR & _); apply (H0' _ _ _ _ HR).
    - intros [s h' pruned path] [g [h v]] d r (HR & Eh & El & Hs & Hv1 & Hv2 & Hpv) o d' r' g' E; cbn in HR, Eh, El, Hs, Hv1, Hv2, Hpv; subst h'.
      cbn [p_next prune_from p_path].
      remember (length (d ++ r)) as n eqn:En.
      revert s g h v d r pruned path HR El Hs Hv1 Hv2 Hpv En E.
      induction n as [n IH] using lt_wf_ind; intros s g h v d r pruned path HR El Hs Hv1 Hv2 Hpv En E.
      rewrite vstep_xprune in E.
      destruct (vstep vis g (d ++ r)) as [[[o1 d1] r1] g1] eqn:E1.
      pose proof (H1 s g d r HR _ _ _ _ E1) as Hn.
      destruct (ub g1) eqn:Eu.
      { assert (Hu : ub (fst g') = true).
        { destruct o1 as [[a x]|]; [|injection E as _ _ _ <-; exact Eu].
          destruct (f h (pth g1 x) a) as [h1 [|]]; [|injection E as _ _ _ <-; exact Eu].
          pose proof (vstep_mono _ (fun gh => ub (fst gh)) xprune_mono r1 (g1, (h1, drift (len x) v)) Eu) as Hm; rewrite E in Hm; exact Hm. }
        rewrite Hu; apply loop_ub; unfold prune_body; cbn [pr_inner]; apply bind_ub; exact Hn. }
      destruct Hn as (s1 & Hc & HR1 & Hp).
      pose proof (vstep_size vis g (d ++ r) _ _ _ _ E1) as Hsz.
      destruct o1 as [[a x]|].
      + destruct (Hp a x eq_refl) as (Hp1 & Hp2 & _).
        destruct Hpv as [->|Hpv]; [|rewrite Hpv in E1; discriminate].
        destruct (fsize (d ++ r)) as [|k] eqn:Ek; [lia|].
        destruct (prune_resize_drift k (len x) pruned v) as (pruned1 & Er & Hl1 & Hv1' & Hv2');
          [lia|exact El|exact Hv1|exact Hv2|].
        pose proof (drift_length (len x) v) as Hdl.
        assert (Hr1 : fsize r1 <= k) by (rewrite fsize_app in Hsz; lia).
        destruct (f h (pth g1 x) a) as [h1 [|]] eqn:Ef.
        * pose proof (vstep_len vis g (d ++ r) _ _ _ _ E1) as Hlen; cbn in Hlen.
          assert (Hbump : exists pruned2, (if 0 <? len x then succ_at (len x - 1) pruned1 else Ok pruned1) = Ok pruned2 /\
                    length pruned2 = len x /\ vec_ok k pruned2).
          { destruct (Nat.ltb_spec 0 (len x)).
            - destruct (succ_at_ok k pruned1 (len x - 1)) as (v' & Ev & Elv & Hv'); [lia|exact Hv1'|].
              exists v'; repeat split; [exact Ev|lia|exact Hv'].
            - exists pruned1; repeat split; [lia|]; eapply vec_ok_le; [|exact Hv1']; lia. }
          destruct Hbump as (pruned2 & Eb & Elb & Hvb).
          assert (Hrest : if ub (fst g') then (fun f0 => loop (prune_body inner f) f0 (mkPrune (p_prune inner s1) h1 pruned2 (drift (len x) v))) ⇓ UB else
            exists s', (fun f0 => loop (prune_body inner f) f0 (mkPrune (p_prune inner s1) h1 pruned2 (drift (len x) v))) ⇓ Ok (option_map fst o, s') /\ xprune_R inner f R h0 start s' g' d' r' /\
              (forall a x, o = Some (a, x) -> p_path (prune_from inner f start h0) s' = snd (snd g') /\ length (p_path (prune_from inner f start h0) s') = len x /\ segs_ok (p_path (prune_from inner f start h0) s'))).
          { apply (IH (length r1) ltac:(lia) (p_prune inner s1) g1 h1 (drift (len x) v) [] r1 pruned2 (drift (len x) v)); auto.
            - apply (H2 _ _ _ _ HR1).
            - lia.
            - cbn [app]; lia.
            - cbn [app]; eapply vec_ok_le; [exact Hr1|exact Hvb].
            - cbn [app]; eapply vec_ok_le; [exact Hr1|exact Hv2']. }
          assert (Hstep : (fun f0 => prune_body inner f f0 (mkPrune s h pruned v)) ⇓ Ok (inl (mkPrune (p_prune inner s1) h1 pruned2 (drift (len x) v)))).
          { unfold prune_body; cbn [pr_inner pr_clos pr_pruned pr_path]; eapply conv_bind; [exact Hc|]; cbn [option_map fst].
            rewrite Hp2, Er; cbn [bindR]; rewrite Hp1, Ef, Hdl, Eb; now_conv. }
          destruct (ub (fst g')); [eapply loop_step; [exact Hstep|exact Hrest]|].
          destruct Hrest as (s' & Hs' & HR' & Hp'); exists s'; split; [|split; [exact HR'|exact Hp']].
          eapply loop_step; [exact Hstep|exact Hs'].
        * injection E as <- <- <- <-; cbn [fst]; rewrite Eu; exists (mkPrune s1 h1 pruned1 (drift (len x) v)); split; [|split].
          -- apply loop_done; unfold prune_body; cbn [pr_inner pr_clos pr_pruned pr_path]; eapply conv_bind; [exact Hc|]; cbn [option_map fst].
             rewrite Hp2, Er; cbn [bindR]; rewrite Hp1, Ef; now_conv.
          -- unfold xprune_R; cbn [pr_inner pr_clos pr_pruned pr_path fst snd]; split; [exact HR1|].
             split; [reflexivity|]; split; [lia|]; split; [lia|]; split; [eapply vec_ok_le; [|exact Hv1']; lia|].
             split; [eapply vec_ok_le; [|exact Hv2']; lia|left; reflexivity].
          -- intros a' x' E; injection E as <- <-; cbn; split; [reflexivity|]; split; [exact Hdl|].
             eapply Forall_impl; [|exact Hv2']; intros y Hy; cbv beta in Hy |- *; lia.
      + injection E as <- <- <- <-; cbn [fst]; rewrite Eu; destruct Hsz as [-> ->]; exists (mkPrune s1 h [] []); split; [|split].
        * apply loop_done; unfold prune_body; cbn [pr_inner pr_clos pr_pruned pr_path]; eapply conv_bind; [exact Hc|]; now_conv.
        * unfold xprune_R; cbn; split; [exact HR1|]; split; [reflexivity|]; split; [reflexivity|].
          split; [unfold usize_max; lia|]; split; [constructor|]; split; [constructor|]; right; reflexivity.
        * intros; discriminate.
    - intros [s h' pruned path] [g [h v]] d r (HR & Eh & El & Hs & Hv1 & Hv2 & Hpv); unfold xprune_R; cbn [pr_inner pr_clos pr_pruned pr_path fst snd app p_prune prune_from] in *.
      assert (fsize r <= fsize (d ++ r)) by (rewrite fsize_app; lia).
      split; [apply (H2 _ _ _ _ HR)|]; split; [exact Eh|]; split; [exact El|]; split; [lia|].
      split; [eapply vec_ok_le; [|exact Hv1]; assumption|]; split; [eapply vec_ok_le; [|exact Hv2]; assumption|].
      destruct Hpv as [Hpv|Hpv]; [left; exact Hpv|right]; destruct d; [exact Hpv|discriminate].
    - reflexivity.
  Qed.
End UPrune.
