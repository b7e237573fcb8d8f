(** * PipeGood: a pipeline object performs a walk for as long as the walk stays good.

    As [simulates] of PipeCore, but the object need only follow the walk while the visitor's state satisfies [good]; a state that is
    not good stays so. *)
From Verif Require Import Prelim PrelimFacts Spec SpecFacts SpecPipe ModelNode NodeFacts ModelPre ModelPipe ModelMapPath ProofsPlain PipeCore PipeEnd ProofsMapPathChain ProofsMapPathBehind.

Record simg {A G X : Type} (P : pipe A) (vis : G -> X -> G * outcome A) (good : G -> Prop) (pok : list N -> X -> Prop)
    (R : p_state P -> G -> list (tree X) -> list (tree X) -> Prop) : Prop := mkSimg {
  sg_next : forall s g d r, R s g d r ->
    forall o d' r' g', vstep vis g (d ++ r) = (o, d', r', g') -> good g' ->
    exists s', (fun f => p_next P f s) ⇓ Ok (option_map fst o, s') /\ R s' g' d' r' /\
      (forall a x, o = Some (a, x) -> pok (p_path P s') x);
  sg_prune : forall s g d r, R s g d r -> R (p_prune P s) g [] r;
  sg_path : forall s, p_path P (p_prune P s) = p_path P s;
  sg_back : forall g x, good (fst (vis g x)) -> good g
}.

Lemma vstep_back {A G X} (vis : G -> X -> G * outcome A) (good : G -> Prop) : (forall g x, good (fst (vis g x)) -> good g) ->
  forall todo g o d r g', vstep vis g todo = (o, d, r, g') -> good g' -> good g.
Proof.
  intros H; induction todo as [|[x ts] todo IH]; intros g o d r g' E Hg; cbn in E.
  - injection E as _ _ _ <-; exact Hg.
  - destruct (vis g x) as [g1 [|a down]] eqn:Ev; apply (H g x); rewrite Ev; cbn [fst].
    + eapply IH; eassumption.
    + injection E as _ _ _ <-; exact Hg.
Qed.

Lemma walk_back {A G X} (vis : G -> X -> G * outcome A) (good : G -> Prop) : (forall g x, good (fst (vis g x)) -> good g) ->
  forall t g, good (fst (walk vis g t)) -> good g.
Proof.
  intros H t; induction t as [x ts IH] using tree_ind'; intros g Hg; rewrite walk_node in Hg.
  destruct (vis g x) as [g1 [|a [|]]] eqn:Ev; apply (H g x); rewrite Ev; cbn [fst]; try exact Hg.
  destruct (walk_list (walk vis) g1 ts) as [g2 ts'] eqn:E; cbn in Hg.
  clear Ev; revert g1 g2 ts' E Hg; induction IH as [|t ts Ht _ IHl]; intros g1 g2 ts' E Hg.
  - rewrite walk_list_nil in E; injection E as -> _; exact Hg.
  - rewrite walk_list_cons in E; destruct (walk vis g1 t) as [g3 o] eqn:Et.
    destruct (walk_list (walk vis) g3 ts) as [g4 os] eqn:El; injection E as <- _.
    apply Ht; rewrite Et; cbn [fst]; eapply IHl; eassumption.
Qed.

Lemma walk_all_back {A G X} (vis : G -> X -> G * outcome A) (good : G -> Prop) : (forall g x, good (fst (vis g x)) -> good g) ->
  forall ts g, good (fst (walk_all vis g ts)) -> good g.
Proof.
  intros H ts; unfold walk_all; induction ts as [|t ts IH]; intros g Hg; [exact Hg|].
  rewrite walk_list_cons in Hg; destruct (walk vis g t) as [g1 o] eqn:Et.
  specialize (IH g1); destruct (walk_list (walk vis) g1 ts) as [g2 os]; cbn in Hg, IH.
  apply (walk_back vis good H t); rewrite Et; auto.
Qed.

Lemma with_node_back {A G X} (vis : G -> X -> G * outcome A) (good : G -> Prop) : (forall g x, good (fst (vis g x)) -> good g) ->
  forall g x, good (fst (with_node vis g x)) -> good g.
Proof. intros H g x Hg; apply (H g x); unfold with_node in Hg; destruct (vis g x) as [g1 [|a dn]]; exact Hg. Qed.

Lemma simg_iso {A G G' X} (P : pipe A) (to : G -> G') (from : G' -> G) (vis : G -> X -> G * outcome A) (vis' : G' -> X -> G' * outcome A) good pok R :
  (forall g, from (to g) = g) -> (forall g, to (from g) = g) -> (forall g' x, vis' g' x = let '(g, o) := vis (from g') x in (to g, o)) ->
  simg P vis good pok R -> simg P vis' (fun g' => good (from g')) pok (fun s g' d r => R s (from g') d r).
Proof.
  intros Hft Htf Hv [H1 H2 H3 H4]; split; [|intros s g d r; apply H2|exact H3|].
  - intros s g d r HR o d' r' g' E Hg; destruct (d ++ r) as [|t l] eqn:Edr.
    + cbn in E; injection E as <- <- <- <-.
      destruct (H1 s (from g) d r HR None [] [] (from g)) as (s' & Hc & HR' & Hp); [rewrite Edr; reflexivity|exact Hg|]; exists s'; auto.
    + rewrite (vstep_iso to from vis vis' Hft Hv) in E by discriminate.
      destruct (vstep vis (from g) (t :: l)) as [[[o1 d1] r1] g1] eqn:E1; injection E as <- <- <- <-; rewrite Hft in Hg.
      rewrite <- Edr in E1; destruct (H1 _ _ _ _ HR _ _ _ _ E1 Hg) as (s' & Hc & HR' & Hp); exists s'; rewrite Hft; auto.
  - intros g x Hg; rewrite Hv in Hg; apply (H4 (from g) x); destruct (vis (from g) x) as [g1 o]; cbn in Hg |- *; rewrite Hft in Hg; exact Hg.
Qed.

Lemma simg_ext {A G X} (P : pipe A) (v v' : G -> X -> G * outcome A) good (pok : list N -> X -> Prop) R :
  (forall g x, v g x = v' g x) -> simg P v good pok R -> simg P v' good pok R.
Proof.
  intros H [H1 H2 H3 H4]; split; auto.
  - intros s g d r HR o d' r' g' E; rewrite <- (vstep_ext v v') in E by exact H; eauto.
  - intros g x Hg; rewrite <- H in Hg; eauto.
Qed.

Lemma vthen_back {G H X A B} (vis : G -> X -> G * outcome A) (stage : H -> X -> A -> H * outcome B) (good : G -> Prop) :
  (forall g x, good (fst (vis g x)) -> good g) -> forall gh x, good (fst (fst (vthen vis stage gh x))) -> good (fst gh).
Proof.
  intros Hb [g h] x Hg; apply (Hb g x); unfold vthen in Hg; cbn [fst snd] in Hg; destruct (vis g x) as [g1 [|a dn]]; [exact Hg|].
  destruct (stage h x a) as [h1 [|b dn']]; exact Hg.
Qed.

Section Stages.
  Context {A G X : Type} (inner : pipe A).
  Context (vis : G -> X -> G * outcome A) (good : G -> Prop) (pok : list N -> X -> Prop) (R : p_state inner -> G -> list (tree X) -> list (tree X) -> Prop).
  Hypothesis Hsim : simg inner vis good pok R.

  Lemma map_simg {B H} (f : H -> A -> H * B) (h0 : H) :
    simg (map_tree inner f h0) (vthen vis (map_stage f)) (fun gh => good (fst gh)) pok (map_R inner f h0 R).
  Proof.
    destruct Hsim as [H1 H2 H3 H4]; split.
    - intros [s h'] [g h] d r [HR Eh] o d' r' g' E Hg; cbn in HR, Eh; subst h'.
      rewrite vstep_then in E.
      destruct (vstep vis g (d ++ r)) as [[[o1 d1] r1] g1] eqn:E1.
      assert (Hg1 : good g1).
      { destruct o1 as [[a x]|]; [unfold map_stage in E; destruct (f h a)|]; injection E as _ _ _ <-; exact Hg. }
      destruct (H1 s g d r HR _ _ _ _ E1 Hg1) as (s1 & Hc & HR1 & Hp).
      destruct o1 as [[a x]|].
      + unfold map_stage in E; destruct (f h a) as [h1 b] eqn:Ef; injection E as <- <- <- <-.
        exists (s1, h1); split; [|split].
        * cbn; unfold map_next; eapply conv_bind; [exact Hc|]; cbn; rewrite Ef; now_conv.
        * split; [exact HR1|reflexivity].
        * intros b' x' E; injection E as <- <-; apply (Hp a x eq_refl).
      + injection E as <- <- <- <-; exists (s1, h); split; [|split].
        * cbn; unfold map_next; eapply conv_bind; [exact Hc|]; now_conv.
        * destruct (vstep_size vis g (d ++ r) _ _ _ _ E1) as [-> ->]; split; [exact HR1|reflexivity].
        * intros; discriminate.
    - intros [s h'] [g h] d r [HR Eh]; split; [apply (H2 _ _ _ _ HR)|exact Eh].
    - intros [s h]; apply H3.
    - apply (vthen_back vis _ good H4).
  Qed.

  Lemma depth_simg (depth_of : list N -> Res N) (lim : N) (depth : X -> N) : (forall p x, pok p x -> depth_of p = Ok (depth x)) ->
    simg (prune_depth inner depth_of lim) (vdepth lim depth vis) good pok R.
  Proof.
    intros Hdepth; destruct Hsim as [H1 H2 H3 H4]; split; [|exact H2|exact H3|].
    - intros s g d r HR o d' r' g' E Hg; rewrite vstep_depth in E.
      destruct (vstep vis g (d ++ r)) as [[[o1 d1] r1] g1] eqn:E1.
      assert (Hg1 : good g1) by (destruct o1 as [[a x]|]; injection E as _ _ _ <-; exact Hg).
      destruct (H1 s g d r HR _ _ _ _ E1 Hg1) as (s1 & Hc & HR1 & Hp).
      destruct o1 as [[a x]|]; injection E as <- <- <- <-.
      + specialize (Hp a x eq_refl).
        exists (if (depth x =? lim)%N then p_prune inner s1 else s1); split; [|split].
        * cbn; unfold prune_depth_next; eapply conv_bind; [exact Hc|]; cbn.
          rewrite (Hdepth _ _ Hp); now_conv.
        * destruct (depth x =? lim)%N; [apply (H2 _ _ _ _ HR1)|exact HR1].
        * intros a' x' E; injection E as <- <-; cbn; destruct (depth x =? lim)%N; [rewrite H3|]; exact Hp.
      + exists s1; split; [|split].
        * cbn; unfold prune_depth_next; eapply conv_bind; [exact Hc|]; now_conv.
        * exact HR1.
        * intros; discriminate.
    - intros g x Hg; apply (H4 g x); unfold vdepth in Hg; destruct (vis g x) as [g1 [|a dn]]; exact Hg.
  Qed.

  Section Prune.
    Context {H : Type} (f : H -> list N -> A -> H * bool) (fx : H -> X -> A -> H * bool).
    Hypothesis Hf : forall p x, pok p x -> forall h a, f h p a = fx h x a.
    Variable h0 : H.

    Lemma bprune_simg : simg (bprune inner f h0) (vthen vis (prune_stage fx)) (fun gh => good (fst gh)) pok (bprune_R inner f R h0).
    Proof.
      destruct Hsim as [H1 H2 H3 H4]; split.
      - intros [s h'] [g h] d r [HR Eh] o d' r' g' E Hg; cbn in HR, Eh; subst h'; cbn [p_next bprune p_path].
        remember (length (d ++ r)) as n eqn:En.
        revert s g h d r HR En E; induction n as [n IH] using lt_wf_ind; intros s g h d r HR En E.
        rewrite vstep_then in E.
        destruct (vstep vis g (d ++ r)) as [[[o1 d1] r1] g1] eqn:E1.
        assert (Hg1 : good g1).
        { destruct o1 as [[a x]|]; [unfold prune_stage in E; destruct (fx h x a) as [h1 [|]]|].
          - apply (vstep_back _ (fun gh => good (fst gh)) (vthen_back vis _ good H4) _ _ _ _ _ _ E Hg).
          - injection E as _ _ _ <-; exact Hg.
          - injection E as _ _ _ <-; exact Hg. }
        destruct (H1 s g d r HR _ _ _ _ E1 Hg1) as (s1 & Hc & HR1 & Hp).
        destruct o1 as [[a x]|].
        + specialize (Hp a x eq_refl); specialize (Hf _ _ Hp h a).
          unfold prune_stage in E; destruct (fx h x a) as [h1 [|]] eqn:Ef.
          * pose proof (vstep_len vis g (d ++ r) _ _ _ _ E1) as Hlen; cbn in Hlen.
            destruct (IH (length r1) ltac:(lia) (p_prune inner s1) g1 h1 [] r1) as (s' & Hs' & HR' & Hp'); auto.
            { apply (H2 _ _ _ _ HR1). }
            exists s'; split; [|split; [exact HR'|exact Hp']].
            eapply loop_step; [|exact Hs'].
            unfold bprune_body; eapply conv_bind; [exact Hc|]; cbn; rewrite Hf; now_conv.
          * injection E as <- <- <- <-; exists (s1, h1); split; [|split].
            -- apply loop_done; unfold bprune_body; eapply conv_bind; [exact Hc|]; cbn; rewrite Hf; now_conv.
            -- split; [exact HR1|reflexivity].
            -- intros a' x' E; injection E as <- <-; exact Hp.
        + injection E as <- <- <- <-; exists (s1, h); split; [|split].
          * apply loop_done; unfold bprune_body; eapply conv_bind; [exact Hc|]; now_conv.
          * destruct (vstep_size vis g (d ++ r) _ _ _ _ E1) as [-> ->]; split; [exact HR1|reflexivity].
          * intros; discriminate.
      - intros [s h'] [g h] d r [HR Eh]; split; [apply (H2 _ _ _ _ HR)|exact Eh].
      - intros [s h]; apply H3.
      - apply (vthen_back vis _ good H4).
    Qed.

    Variable start : list N.
    Context (pok' : list N -> X -> Prop).
    Hypothesis Hpok' : forall p q x, pok p x -> length q = length p -> pok' q x.

    Lemma prune_simg : simg (prune_from inner f start h0) (vthen vis (prune_stage fx)) (fun gh => good (fst gh)) pok' (prune_R inner f R h0 start).
    Proof.
      destruct Hsim as [H1 H2 H3 H4]; split.
      - intros [s h' pruned path] [g h] d r (HR & Eh & El & Hs & Hv1 & Hv2) o d' r' g' E Hg; cbn in HR, Eh, El, Hs, Hv1, Hv2; subst h'.
        cbn [p_next prune_from p_path].
        remember (length (d ++ r)) as n eqn:En.
        revert s g h d r pruned path HR El Hs Hv1 Hv2 En E.
        induction n as [n IH] using lt_wf_ind; intros s g h d r pruned path HR El Hs Hv1 Hv2 En E.
        rewrite vstep_then in E.
        destruct (vstep vis g (d ++ r)) as [[[o1 d1] r1] g1] eqn:E1.
        assert (Hg1 : good g1).
        { destruct o1 as [[a x]|]; [unfold prune_stage in E; destruct (fx h x a) as [h1 [|]]|].
          - apply (vstep_back _ (fun gh => good (fst gh)) (vthen_back vis _ good H4) _ _ _ _ _ _ E Hg).
          - injection E as _ _ _ <-; exact Hg.
          - injection E as _ _ _ <-; exact Hg. }
        destruct (H1 s g d r HR _ _ _ _ E1 Hg1) as (s1 & Hc & HR1 & Hp).
        pose proof (vstep_size vis g (d ++ r) _ _ _ _ E1) as Hsz.
        destruct o1 as [[a x]|].
        + specialize (Hp a x eq_refl); specialize (Hf _ _ Hp h a).
          destruct (fsize (d ++ r)) as [|k] eqn:Ek; [lia|].
          destruct (prune_resize_ok k (length (p_path inner s1)) pruned path) as (pruned1 & path1 & [(Er & Hl1 & Hl2 & Hv1' & Hv2')|Hbad]);
            [lia|exact El|exact Hv1|exact Hv2| |lia].
          unfold prune_stage in E; destruct (fx h x a) as [h1 [|]] eqn:Ef.
          * pose proof (vstep_len vis g (d ++ r) _ _ _ _ E1) as Hlen; cbn in Hlen.
            assert (Hbump : exists pruned2, (if 0 <? length path1 then succ_at (length path1 - 1) pruned1 else Ok pruned1) = Ok pruned2 /\
                      length pruned2 = length path1 /\ vec_ok k pruned2).
            { destruct (Nat.ltb_spec 0 (length path1)).
              - destruct (succ_at_ok k pruned1 (length path1 - 1)) as (v' & Ev & Elv & Hv'); [lia|exact Hv1'|].
                exists v'; repeat split; [exact Ev|lia|exact Hv'].
              - exists pruned1; repeat split; [lia|]; eapply vec_ok_le; [|exact Hv1']; lia. }
            destruct Hbump as (pruned2 & Eb & Elb & Hvb).
            assert (Hr1 : fsize r1 <= k) by (rewrite fsize_app in Hsz; lia).
            destruct (IH (length r1) ltac:(lia) (p_prune inner s1) g1 h1 [] r1 pruned2 path1) as (s' & Hs' & HR' & Hp'); auto.
            { apply (H2 _ _ _ _ HR1). }
            { cbn [app]; lia. }
            { cbn [app]; eapply vec_ok_le; [exact Hr1|exact Hvb]. }
            { cbn [app]; eapply vec_ok_le; [exact Hr1|exact Hv2']. }
            exists s'; split; [|split; [exact HR'|exact Hp']].
            eapply loop_step; [|exact Hs'].
            unfold prune_body; cbn [pr_inner pr_clos pr_pruned pr_path]; eapply conv_bind; [exact Hc|]; cbn [option_map fst].
            rewrite Er; cbn [bindR]; rewrite Hf, Eb; now_conv.
          * injection E as <- <- <- <-; exists (mkPrune s1 h1 pruned1 path1); split; [|split].
            -- apply loop_done; unfold prune_body; cbn [pr_inner pr_clos pr_pruned pr_path]; eapply conv_bind; [exact Hc|]; cbn [option_map fst].
               rewrite Er; cbn [bindR]; rewrite Hf; now_conv.
            -- repeat split; cbn [pr_inner pr_clos pr_pruned pr_path fst snd]; [exact HR1|lia|lia| |]; (eapply vec_ok_le; [|eassumption]); lia.
            -- intros a' x' E; injection E as <- <-; eapply Hpok'; [exact Hp|exact Hl2].
        + injection E as <- <- <- <-; destruct Hsz as [-> ->]; exists (mkPrune s1 h [] []); split; [|split].
          * apply loop_done; unfold prune_body; cbn [pr_inner pr_clos pr_pruned pr_path]; eapply conv_bind; [exact Hc|]; now_conv.
          * repeat split; cbn; [exact HR1|unfold usize_max; lia| |]; constructor.
          * intros; discriminate.
      - intros [s h' pruned path] [g h] d r (HR & Eh & El & Hs & Hv1 & Hv2); cbn in *.
        assert (fsize r <= fsize (d ++ r)) by (rewrite fsize_app; lia).
        split; [apply (H2 _ _ _ _ HR)|]; split; [exact Eh|]; split; [exact El|]; split; [cbn [app]; lia|].
        split; cbn [app]; (eapply vec_ok_le; [|eassumption]); assumption.
      - reflexivity.
      - apply (vthen_back vis _ good H4).
    Qed.
  End Prune.
End Stages.

Section ChainGood.
  Context {V X G0 : Type} (P : pipe V) (depth_of : list N -> Res N) (start : list N).
  Context (bvis : G0 -> X -> G0 * outcome V) (path : X -> list N) (depth : X -> N) (pokE pokL : list N -> X -> Prop).
  Hypothesis HE : forall p x, pokE p x -> p = path x /\ pokL p x.
  Hypothesis HL : forall p x, pokL p x -> depth_of p = Ok (depth x) /\ forall q, length q = length p -> pokL q x.

  Context (R0 : p_state P -> G0 -> list (tree X) -> list (tree X) -> Prop).
  Variable good : G0 -> Prop.
  Hypothesis Hsim : simg P bvis good pokE R0.
  Context (g00 : G0) (d0 r0 : list (tree X)).
  Hypothesis Hinit : R0 (p_init P) g00 d0 r0.

  Notation visG c := (chain_visG bvis path depth c).

  Ltac same h x := destruct (bvis h x) as [? [|? ?]]; [reflexivity|]; cbn [visit_node fst snd].

  Lemma chain_simg {A} (c : chain V A) : true_paths c = true ->
    (has_prune c = true -> (N.of_nat (fsize (d0 ++ r0)) <= usize_max)%N /\ vec_ok (fsize (d0 ++ r0)) start) ->
    exists R : p_state (run_chain depth_of start P c) -> G0 * clos c -> list (tree X) -> list (tree X) -> Prop,
      simg (run_chain depth_of start P c) (visG c) (fun g => good (fst g)) (if has_prune c then pokL else pokE) R /\
      on_first P R0 c (chain_first depth_of start P c) (closures depth_of start P c) R /\
      R (p_init (run_chain depth_of start P c)) (g00, clos_init c) d0 r0.
  Proof.
    intros Ht Hb; induction c as [|A B G c IH g f|A G c IH g f|A G c IH g f|A c IH lim].
    - exists (fun s g d r => R0 s (fst g) d r); split; [|split; [intros s [g []] d r HR; auto|exact Hinit]].
      eapply (simg_iso P (fun g => (g, tt)) fst _ _ good); [reflexivity|intros [g []]; reflexivity| |exact Hsim].
      intros [g []] x; unfold chain_visG; cbn; destruct (bvis g x) as [g1 [|v down]]; rewrite ?andb_true_r; reflexivity.
    - destruct (IH Ht Hb) as (R & HR & Hcl & Hi).
      exists (fun s g' d r => map_R (run_chain depth_of start P c) f g R s (unpack g') d r); split; [|split].
      + eapply (simg_iso _ pack unpack _ _ (fun gh => good (fst (fst gh)))); [apply unpack_pack|apply pack_unpack| |exact (map_simg _ _ _ _ _ HR f g)].
        intros [h [gs h']] x; unfold vthen, map_stage, chain_visG, unpack; cbn [fst snd]; same h x.
        destruct (visit_node c gs (path x) (depth x) _) as [g1 [|a down']]; [reflexivity|].
        destruct (f h' a); rewrite andb_true_r; reflexivity.
      + intros s [h [gs h']] d r [H1 H2]; cbn in H1, H2; destruct (Hcl _ _ _ _ H1) as (E & H3); cbn in E, H3 |- *; subst; split; [reflexivity|exact H3].
      + split; [exact Hi|reflexivity].
    - destruct (IH Ht) as (R & HR & Hcl & Hi); [intros _; apply Hb; reflexivity|].
      destruct (Hb eq_refl) as (Hb1 & Hb2).
      exists (fun s g' d r => prune_R (run_chain depth_of start P c) (fun g _ a => f g a) R g [] s (unpack g') d r); split; [|split].
      + eapply (simg_iso _ pack unpack _ _ (fun gh => good (fst (fst gh)))); [apply unpack_pack|apply pack_unpack| |eapply prune_simg with (good := fun g0 => good (fst g0)) (vis := visG c) (fx := fun h _ a => f h a)].
        * intros [h [gs h']] x; unfold vthen, prune_stage, chain_visG, unpack; cbn [fst snd]; same h x.
          destruct (visit_node c gs (path x) (depth x) _) as [g1 [|a down']]; [reflexivity|].
          destruct (f h' a) as [h2 [|]]; rewrite ?andb_true_r; reflexivity.
        * exact HR.
        * reflexivity.
        * intros p q x Hp Hl; cbn; destruct (has_prune c); [apply (proj2 (HL _ _ Hp)); exact Hl|].
          apply HE in Hp as [_ Hp]; apply (proj2 (HL _ _ Hp)); exact Hl.
      + intros s [h [gs h']] d r (H1 & H2 & H6); cbn in H1, H2; destruct (Hcl _ _ _ _ H1) as (E & H3); cbn in E, H3 |- *; subst; split; [reflexivity|exact H3].
      + split; [exact Hi|]; repeat split; [exact Hb1| |]; constructor.
    - cbn in Ht; apply andb_true_iff in Ht as [Ht Hn]; apply negb_true_iff in Hn.
      destruct (IH Ht) as (R & HR & Hcl & Hi); [intros _; apply Hb; reflexivity|].
      destruct (Hb eq_refl) as (Hb1 & Hb2).
      exists (fun s g' d r => prune_R (run_chain depth_of start P c) f R g start s (unpack g') d r); split; [|split].
      + eapply (simg_iso _ pack unpack _ _ (fun gh => good (fst (fst gh)))); [apply unpack_pack|apply pack_unpack| |eapply prune_simg with (good := fun g0 => good (fst g0)) (vis := visG c) (fx := fun h x a => f h (path x) a)].
        * intros [h [gs h']] x; unfold vthen, prune_stage, chain_visG, unpack; cbn [fst snd]; same h x.
          destruct (visit_node c gs (path x) (depth x) _) as [g1 [|a down']]; [reflexivity|].
          destruct (f h' (path x) a) as [h2 [|]]; rewrite ?andb_true_r; reflexivity.
        * exact HR.
        * intros p x Hp h a; rewrite Hn in Hp; apply HE in Hp as [-> _]; reflexivity.
        * intros p q x Hp Hl; cbn; rewrite Hn in Hp; apply HE in Hp as [_ Hp]; apply (proj2 (HL _ _ Hp)); exact Hl.
      + intros s [h [gs h']] d r (H1 & H2 & H6); cbn in H1, H2; destruct (Hcl _ _ _ _ H1) as (E & H3); cbn in E, H3 |- *; subst; split; [reflexivity|exact H3].
      + split; [exact Hi|]; repeat split; [exact Hb1|exact Hb2|exact Hb2].
    - destruct (IH Ht Hb) as (R & HR & Hcl & Hi).
      exists R; split; [|split; [exact Hcl|exact Hi]].
      eapply simg_ext; [|apply depth_simg with (good := fun g0 => good (fst g0)) (vis := visG c) (depth := depth)].
      + intros [h gs] x; unfold vdepth, chain_visG; cbn [fst snd]; same h x.
        destruct (visit_node c gs (path x) (depth x) _) as [g1 [|a down']]; rewrite ?andb_assoc; reflexivity.
      + exact HR.
      + intros p x Hp; cbn [has_prune] in Hp; destruct (has_prune c); [apply (HL _ _ Hp)|].
        apply HE in Hp as [_ Hp]; apply (HL _ _ Hp).
  Qed.

  Lemma bchain_simg {A} (c : chain V A) :
    exists R : p_state (run_chain_binary depth_of P c) -> G0 * clos c -> list (tree X) -> list (tree X) -> Prop,
      simg (run_chain_binary depth_of P c) (visG c) (fun g => good (fst g)) pokE R /\
      on_first P R0 c (chain_first_binary depth_of P c) (closures_binary depth_of P c) R /\
      R (p_init (run_chain_binary depth_of P c)) (g00, clos_init c) d0 r0.
  Proof.
    induction c as [|A B G c (R & HR & Hcl & Hi) g f|A G c (R & HR & Hcl & Hi) g f|A G c (R & HR & Hcl & Hi) g f|A c (R & HR & Hcl & Hi) lim].
    - exists (fun s g d r => R0 s (fst g) d r); split; [|split; [intros s [g []] d r HR; auto|exact Hinit]].
      eapply (simg_iso P (fun g => (g, tt)) fst _ _ good); [reflexivity|intros [g []]; reflexivity| |exact Hsim].
      intros [g []] x; unfold chain_visG; cbn; destruct (bvis g x) as [g1 [|v down]]; rewrite ?andb_true_r; reflexivity.
    - exists (fun s g' d r => map_R (run_chain_binary depth_of P c) f g R s (unpack g') d r); split; [|split].
      + eapply (simg_iso _ pack unpack _ _ (fun gh => good (fst (fst gh)))); [apply unpack_pack|apply pack_unpack| |exact (map_simg _ _ _ _ _ HR f g)].
        intros [h [gs h']] x; unfold vthen, map_stage, chain_visG, unpack; cbn [fst snd]; same h x.
        destruct (visit_node c gs (path x) (depth x) _) as [g1 [|a down']]; [reflexivity|].
        destruct (f h' a); rewrite andb_true_r; reflexivity.
      + intros s [h [gs h']] d r [H1 H2]; cbn in H1, H2; destruct (Hcl _ _ _ _ H1) as (E & H3); cbn in E, H3 |- *; subst; split; [reflexivity|exact H3].
      + split; [exact Hi|reflexivity].
    - exists (fun s g' d r => bprune_R (run_chain_binary depth_of P c) (fun g _ a => f g a) R g s (unpack g') d r); split; [|split].
      + eapply (simg_iso _ pack unpack _ _ (fun gh => good (fst (fst gh)))); [apply unpack_pack|apply pack_unpack| |apply bprune_simg with (good := fun g0 => good (fst g0)) (vis := visG c) (fx := fun h _ a => f h a); [exact HR|reflexivity]].
        intros [h [gs h']] x; unfold vthen, prune_stage, chain_visG, unpack; cbn [fst snd]; same h x.
        destruct (visit_node c gs (path x) (depth x) _) as [g1 [|a down']]; [reflexivity|].
        destruct (f h' a) as [h2 [|]]; rewrite ?andb_true_r; reflexivity.
      + intros s [h [gs h']] d r [H1 H2]; cbn in H1, H2; destruct (Hcl _ _ _ _ H1) as (E & H3); cbn in E, H3 |- *; subst; split; [reflexivity|exact H3].
      + split; [exact Hi|reflexivity].
    - exists (fun s g' d r => bprune_R (run_chain_binary depth_of P c) f R g s (unpack g') d r); split; [|split].
      + eapply (simg_iso _ pack unpack _ _ (fun gh => good (fst (fst gh)))); [apply unpack_pack|apply pack_unpack| |apply bprune_simg with (good := fun g0 => good (fst g0)) (vis := visG c) (fx := fun h x a => f h (path x) a); [exact HR|]].
        * intros [h [gs h']] x; unfold vthen, prune_stage, chain_visG, unpack; cbn [fst snd]; same h x.
          destruct (visit_node c gs (path x) (depth x) _) as [g1 [|a down']]; [reflexivity|].
          destruct (f h' (path x) a) as [h2 [|]]; rewrite ?andb_true_r; reflexivity.
        * intros p x Hp h a; apply HE in Hp as [-> _]; reflexivity.
      + intros s [h [gs h']] d r [H1 H2]; cbn in H1, H2; destruct (Hcl _ _ _ _ H1) as (E & H3); cbn in E, H3 |- *; subst; split; [reflexivity|exact H3].
      + split; [exact Hi|reflexivity].
    - exists R; split; [|split; [exact Hcl|exact Hi]].
      eapply simg_ext; [|apply depth_simg with (good := fun g0 => good (fst g0)) (vis := visG c) (depth := depth)].
      + intros [h gs] x; unfold vdepth, chain_visG; cbn [fst snd]; same h x.
        destruct (visit_node c gs (path x) (depth x) _) as [g1 [|a down']]; rewrite ?andb_assoc; reflexivity.
      + exact HR.
      + intros p x Hp; apply HE in Hp as [_ Hp]; apply (HL _ _ Hp).
  Qed.
End ChainGood.

(** What the object emits until it ends. *)
Lemma simg_items {A X G} (P : pipe A) (vis : G -> X -> G * outcome A) good pok R : simg P vis good pok R ->
  forall s g d r, R s g d r -> good (fst (walk_all (with_node vis) g (d ++ r))) ->
  exists s', items P pok s (flat_map preorder (snd (walk_all (with_node vis) g (d ++ r)))) s' /\
             R s' (fst (walk_all (with_node vis) g (d ++ r))) [] [].
Proof.
  intros Hsim s g d r HR Hg; remember (fsize (d ++ r)) as n eqn:En.
  revert s g d r HR En Hg; induction n as [n IH] using lt_wf_ind; intros s g d r HR En Hg.
  pose proof (walk_vstep vis g (d ++ r)) as Hw.
  destruct (vstep vis g (d ++ r)) as [[[o d1] r1] g1] eqn:E.
  pose proof (vstep_size vis g (d ++ r) _ _ _ _ E) as Hsz.
  assert (Hg1 : good (fst (walk_all (with_node vis) g1 (d1 ++ r1)))).
  { destruct o as [[a x]|].
    - unfold walk_all in Hw, Hg |- *; rewrite walk_list_app.
      destruct (walk_list (walk (with_node vis)) g1 d1) as [g2 o1], (walk_list (walk (with_node vis)) g2 r1) as [g3 o2].
      rewrite Hw in Hg; exact Hg.
    - destruct Hsz as [-> ->]; rewrite Hw in Hg; exact Hg. }
  destruct (sg_next _ _ _ _ _ Hsim _ _ _ _ HR _ _ _ _ E) as (s1 & Hc & HR1 & Hp).
  { apply (walk_all_back _ good (with_node_back vis good (sg_back _ _ _ _ _ Hsim)) _ _ Hg1). }
  destruct o as [[a x]|].
  - destruct (IH (fsize (d1 ++ r1)) ltac:(lia) s1 g1 d1 r1 HR1 eq_refl Hg1) as (s' & Hit & HR').
    unfold walk_all in Hit, HR', Hw |- *; rewrite walk_list_app in Hit, HR'.
    destruct (walk_list (walk (with_node vis)) g1 d1) as [g2 o1].
    destruct (walk_list (walk (with_node vis)) g2 r1) as [g3 o2].
    rewrite Hw; cbn in Hit, HR' |- *.
    exists s'; split; [|exact HR'].
    eapply it_cons; [exact Hc|eapply Hp; reflexivity|].
    rewrite <- flat_map_app; exact Hit.
  - rewrite Hw; cbn; exists s1; split; [apply it_nil; exact Hc|].
    destruct Hsz as [-> ->]; exact HR1.
Qed.
