(** * ProofsUnwindPipe: pipelines whose user code panics perform the walk of [uvisit_node]. *)
From Verif Require Import Prelim PrelimFacts Spec SpecFacts ModelUnwind SpecUnwind SpecPipe SpecUnwindPipe SpecObs ModelNode NodeFacts ModelPre ModelPipe
  ModelUnwindPipe ProofsPlain ProofsUnwind ProofsUnwindIn Slots PipeCore PipeBase PipeChain PipeEnd ProofsPipe PipeFinal.
Local Notation outcome := SpecPipe.outcome.

(** As [simulates]: [pok] about the path after an item, [pokU] after a panic. *)
Record usim {A G X : Type} (P : pipe (result A)) (vis : G -> X -> G * outcome (result A)) (pok pokU : list N -> X -> Prop)
    (R : p_state P -> G -> list (tree X) -> list (tree X) -> Prop) : Prop := mkUsim {
  us_next : forall s g d r, R s g d r ->
    forall o d' r' g', vstep vis g (d ++ r) = (o, d', r', g') ->
    exists s', (fun f => p_next P f s) ⇓ Ok (option_map fst o, s') /\ R s' g' d' r' /\
      (forall a x, o = Some (Got a, x) -> pok (p_path P s') x) /\ (forall x, o = Some (Unwound, x) -> pokU (p_path P s') x);
  us_prune : forall s g d r, R s g d r -> R (p_prune P s) g [] r;
  us_path : forall s, p_path P (p_prune P s) = p_path P s
}.

Lemma usim_ext {A G X} (P : pipe (result A)) (v v' : G -> X -> G * outcome (result A)) (pok pokU : list N -> X -> Prop) R :
  (forall g x, v g x = v' g x) -> usim P v pok pokU R -> usim P v' pok pokU R.
Proof.
  intros H [H1 H2 H3]; split; auto.
  intros s g d r HR o d' r' g' E; rewrite <- (vstep_ext v v') in E by exact H; eauto.
Qed.

Section UMapStage.
  Context {A B G H X : Type} (inner : pipe (result A)) (f : H -> A -> H * option B) (h0 : H).
  Context (vis : G -> X -> G * outcome (result A)) (pok pokU : list N -> X -> Prop) (R : p_state inner -> G -> list (tree X) -> list (tree X) -> Prop).
  Hypothesis Hsim : usim inner vis pok pokU R.
  Hypothesis HU : forall p x, pok p x -> pokU p x.

  Definition umap_stage (h : H) (_ : X) (o : result A) : H * outcome (result B) :=
    match o with
    | Got a => match f h a with (h1, Some b) => (h1, Keep (Got b) true) | (h1, None) => (h1, Keep Unwound true) end
    | Unwound => (h, Keep Unwound true)
    end.
  Definition umap_R (s : p_state (umap_tree inner f h0)) (gh : G * H) (d r : list (tree X)) : Prop :=
    R (fst s) (fst gh) d r /\ snd s = snd gh.

  Lemma umap_sim : usim (umap_tree inner f h0) (vthen vis umap_stage) pok pokU umap_R.
  Proof.
    destruct Hsim as [H1 H2 H3]; split.
    - intros [s h'] [g h] d r [HR Eh] o d' r' g' E; cbn in HR, Eh; subst h'.
      rewrite vstep_then in E.
      destruct (vstep vis g (d ++ r)) as [[[o1 d1] r1] g1] eqn:E1.
      destruct (H1 s g d r HR _ _ _ _ E1) as (s1 & Hc & HR1 & Hp & Hu).
      destruct o1 as [[[a|] x]|].
      + unfold umap_stage in E; destruct (f h a) as [h1 [b|]] eqn:Ef; injection E as <- <- <- <-;
          (exists (s1, h1); split; [|split; [|split]]).
        * cbn; unfold umap_next; eapply conv_bind; [exact Hc|]; cbn; rewrite Ef; now_conv.
        * split; [exact HR1|reflexivity].
        * intros b' x' E; injection E as <- <-; apply (Hp a x eq_refl).
        * intros; discriminate.
        * cbn; unfold umap_next; eapply conv_bind; [exact Hc|]; cbn; rewrite Ef; now_conv.
        * split; [exact HR1|reflexivity].
        * intros; discriminate.
        * intros x' E; injection E as <-; apply HU, (Hp a x eq_refl).
      + cbn in E; injection E as <- <- <- <-; exists (s1, h); split; [|split; [|split]].
        * cbn; unfold umap_next; eapply conv_bind; [exact Hc|]; now_conv.
        * split; [exact HR1|reflexivity].
        * intros; discriminate.
        * intros x' E; injection E as <-; apply (Hu x eq_refl).
      + injection E as <- <- <- <-; exists (s1, h); split; [|split; [|split]].
        * cbn; unfold umap_next; eapply conv_bind; [exact Hc|]; now_conv.
        * destruct (vstep_size vis g (d ++ r) _ _ _ _ E1) as [-> ->]; split; [exact HR1|reflexivity].
        * intros; discriminate.
        * intros; discriminate.
    - intros [s h'] [g h] d r [HR Eh]; split; [apply (H2 _ _ _ _ HR)|exact Eh].
    - intros [s h]; apply H3.
  Qed.
End UMapStage.

Section UDepthStage.
  Context {A G X : Type} (inner : pipe (result A)) (depth_of : list N -> Res N) (lim : N) (depth : X -> N).
  Context (vis : G -> X -> G * outcome (result A)) (pok pokU : list N -> X -> Prop) (R : p_state inner -> G -> list (tree X) -> list (tree X) -> Prop).
  Hypothesis Hsim : usim inner vis pok pokU R.
  Hypothesis Hdepth : forall p x, pok p x -> depth_of p = Ok (depth x).

  Definition uvdepth (g : G) (x : X) : G * outcome (result A) :=
    match vis g x with
    | (g1, Drop) => (g1, Drop)
    | (g1, Keep (Got a) down) => (g1, Keep (Got a) (down && negb (depth x =? lim)%N))
    | (g1, Keep Unwound down) => (g1, Keep Unwound down)
    end.

  Lemma vstep_udepth todo : forall g,
    vstep uvdepth g todo =
    match vstep vis g todo with
    | (None, d, r, g1) => (None, d, r, g1)
    | (Some (Got a, x), d, r, g1) => (Some (Got a, x), if (depth x =? lim)%N then [] else d, r, g1)
    | (Some (Unwound, x), d, r, g1) => (Some (Unwound, x), d, r, g1)
    end.
  Proof.
    induction todo as [|[x ts] todo IH]; intros g; cbn; [reflexivity|].
    unfold uvdepth at 1.
    destruct (vis g x) as [g1 [|[a|] down]]; [apply IH| |reflexivity].
    destruct down, (depth x =? lim)%N; reflexivity.
  Qed.

  Lemma udepth_sim : usim (uprune_depth inner depth_of lim) uvdepth pok pokU R.
  Proof.
    destruct Hsim as [H1 H2 H3]; split; [|exact H2|exact H3].
    intros s g d r HR o d' r' g' E; rewrite vstep_udepth in E.
    destruct (vstep vis g (d ++ r)) as [[[o1 d1] r1] g1] eqn:E1.
    destruct (H1 s g d r HR _ _ _ _ E1) as (s1 & Hc & HR1 & Hp & Hu).
    destruct o1 as [[[a|] x]|]; injection E as <- <- <- <-.
    - specialize (Hp a x eq_refl).
      exists (if (depth x =? lim)%N then p_prune inner s1 else s1); split; [|split; [|split]].
      + cbn; unfold uprune_depth_next; eapply conv_bind; [exact Hc|]; cbn.
        rewrite (Hdepth _ _ Hp); now_conv.
      + destruct (depth x =? lim)%N; [apply (H2 _ _ _ _ HR1)|exact HR1].
      + intros a' x' E; injection E as <- <-; cbn; destruct (depth x =? lim)%N; [rewrite H3|]; exact Hp.
      + intros; discriminate.
    - exists s1; split; [|split; [exact HR1|split]].
      + cbn; unfold uprune_depth_next; eapply conv_bind; [exact Hc|]; now_conv.
      + intros; discriminate.
      + intros x' E; injection E as <-; apply (Hu x eq_refl).
    - exists s1; split; [|split; [exact HR1|split]].
      + cbn; unfold uprune_depth_next; eapply conv_bind; [exact Hc|]; now_conv.
      + intros; discriminate.
      + intros; discriminate.
  Qed.
End UDepthStage.

Section UPruneStages.
  Context {A G H X : Type} (inner : pipe (result A)) (f : H -> list N -> A -> H * option bool).
  Context (vis : G -> X -> G * outcome (result A)) (pok pokU : list N -> X -> Prop) (R : p_state inner -> G -> list (tree X) -> list (tree X) -> Prop).
  Hypothesis Hsim : usim inner vis pok pokU R.
  Context (fx : H -> X -> A -> H * option bool).
  Hypothesis Hf : forall p x, pok p x -> forall h a, f h p a = fx h x a.

  Definition uprune_stage (h : H) (x : X) (o : result A) : H * outcome (result A) :=
    match o with
    | Got a =>
        match fx h x a with
        | (h1, Some true) => (h1, Drop)
        | (h1, Some false) => (h1, Keep (Got a) true)
        | (h1, None) => (h1, Keep Unwound true)
        end
    | Unwound => (h, Keep Unwound true)
    end.

  Variable h0 : H.
  Definition ubprune_R (s : p_state (ubprune inner f h0)) (gh : G * H) (d r : list (tree X)) : Prop :=
    R (fst s) (fst gh) d r /\ snd s = snd gh.

  Lemma ubprune_sim : (forall p x, pok p x -> pokU p x) -> usim (ubprune inner f h0) (vthen vis uprune_stage) pok pokU ubprune_R.
  Proof.
    intros HU; destruct Hsim as [H1 H2 H3]; split.
    - intros [s h'] [g h] d r [HR Eh] o d' r' g' E; cbn in HR, Eh; subst h'; cbn [p_next ubprune p_path].
      remember (length (d ++ r)) as n eqn:En.
      revert s g h d r HR En E; induction n as [n IH] using lt_wf_ind; intros s g h d r HR En E.
      rewrite vstep_then in E.
      destruct (vstep vis g (d ++ r)) as [[[o1 d1] r1] g1] eqn:E1.
      destruct (H1 s g d r HR _ _ _ _ E1) as (s1 & Hc & HR1 & Hp & Hu).
      destruct o1 as [[[a|] x]|].
      + specialize (Hp a x eq_refl); specialize (Hf _ _ Hp h a).
        unfold uprune_stage in E; destruct (fx h x a) as [h1 [[|]|]] eqn:Ef.
        * pose proof (vstep_len vis g (d ++ r) _ _ _ _ E1) as Hlen; cbn in Hlen.
          destruct (IH (length r1) ltac:(lia) (p_prune inner s1) g1 h1 [] r1) as (s' & Hs' & HR' & Hp'); auto.
          { apply (H2 _ _ _ _ HR1). }
          exists s'; split; [|split; [exact HR'|exact Hp']].
          eapply loop_step; [|exact Hs'].
          unfold ubprune_body; eapply conv_bind; [exact Hc|]; cbn; rewrite Hf; now_conv.
        * injection E as <- <- <- <-; exists (s1, h1); split; [|split; [|split]].
          -- apply loop_done; unfold ubprune_body; eapply conv_bind; [exact Hc|]; cbn; rewrite Hf; now_conv.
          -- split; [exact HR1|reflexivity].
          -- intros a' x' E; injection E as <- <-; exact Hp.
          -- intros; discriminate.
        * injection E as <- <- <- <-; exists (s1, h1); split; [|split; [|split]].
          -- apply loop_done; unfold ubprune_body; eapply conv_bind; [exact Hc|]; cbn; rewrite Hf; now_conv.
          -- split; [exact HR1|reflexivity].
          -- intros; discriminate.
          -- intros x' E; injection E as <-; apply HU; exact Hp.
      + cbn in E; injection E as <- <- <- <-; exists (s1, h); split; [|split; [|split]].
        * apply loop_done; unfold ubprune_body; eapply conv_bind; [exact Hc|]; now_conv.
        * split; [exact HR1|reflexivity].
        * intros; discriminate.
        * intros x' E; injection E as <-; apply (Hu x eq_refl).
      + injection E as <- <- <- <-; exists (s1, h); split; [|split; [|split]].
        * apply loop_done; unfold ubprune_body; eapply conv_bind; [exact Hc|]; now_conv.
        * destruct (vstep_size vis g (d ++ r) _ _ _ _ E1) as [-> ->]; split; [exact HR1|reflexivity].
        * intros; discriminate.
        * intros; discriminate.
    - intros [s h'] [g h] d r [HR Eh]; split; [apply (H2 _ _ _ _ HR)|exact Eh].
    - intros [s h]; apply H3.
  Qed.

  Variable start : list N.
  Definition uprune_R (s : p_state (uprune_from inner f start h0)) (gh : G * H) (d r : list (tree X)) : Prop :=
    R (pr_inner s) (fst gh) d r /\ pr_clos s = snd gh /\ length (pr_pruned s) = length (pr_path s) /\
    (N.of_nat (fsize (d ++ r)) <= usize_max)%N /\ vec_ok (fsize (d ++ r)) (pr_pruned s) /\ vec_ok (fsize (d ++ r)) (pr_path s).

  Context (pok' : list N -> X -> Prop).
  Hypothesis Hpok' : forall p q x, pok p x -> length q = length p -> pok' q x.

  Lemma uprune_sim : usim (uprune_from inner f start h0) (vthen vis uprune_stage) pok' (fun _ _ => True) uprune_R.
  Proof.
    destruct Hsim as [H1 H2 H3]; split.
    - intros [s h' pruned path] [g h] d r (HR & Eh & El & Hs & Hv1 & Hv2) o d' r' g' E; cbn in HR, Eh, El, Hs, Hv1, Hv2; subst h'.
      cbn [p_next uprune_from p_path].
      remember (length (d ++ r)) as n eqn:En.
      revert s g h d r pruned path HR El Hs Hv1 Hv2 En E.
      induction n as [n IH] using lt_wf_ind; intros s g h d r pruned path HR El Hs Hv1 Hv2 En E.
      rewrite vstep_then in E.
      destruct (vstep vis g (d ++ r)) as [[[o1 d1] r1] g1] eqn:E1.
      destruct (H1 s g d r HR _ _ _ _ E1) as (s1 & Hc & HR1 & Hp & _).
      pose proof (vstep_size vis g (d ++ r) _ _ _ _ E1) as Hsz.
      destruct o1 as [[[a|] x]|].
      + specialize (Hp a x eq_refl); specialize (Hf _ _ Hp h a).
        destruct (fsize (d ++ r)) as [|k] eqn:Ek; [lia|].
        destruct (prune_resize_ok k (length (p_path inner s1)) pruned path) as (pruned1 & path1 & [(Er & Hl1 & Hl2 & Hv1' & Hv2')|Hbad]);
          [lia|exact El|exact Hv1|exact Hv2| |lia].
        unfold uprune_stage in E; destruct (fx h x a) as [h1 [[|]|]] eqn:Ef.
        * pose proof (vstep_len vis g (d ++ r) _ _ _ _ E1) as Hlen; cbn in Hlen.
          assert (Hbump : exists pruned2, (if 0 <? length path1 then succ_at (length path1 - 1) pruned1 else Ok pruned1) = Ok pruned2 /\
                    length pruned2 = length path1 /\ vec_ok k pruned2).
          { destruct (Nat.ltb_spec 0 (length path1)).
            - destruct (succ_at_ok k pruned1 (length path1 - 1)) as (v' & Ev & Elv & Hv'); [lia|exact Hv1'|].
              exists v'; repeat split; [exact Ev|lia|exact Hv'].
            - exists pruned1; repeat split; [lia|]; eapply vec_ok_le; [|exact Hv1']; lia. }
          destruct Hbump as (pruned2 & Eb & Elb & Hvb).
          assert (Hr1 : fsize r1 <= k) by (rewrite fsize_app in Hsz; lia).
          destruct (IH (length r1) ltac:(lia) (p_prune inner s1) g1 h1 [] r1 pruned2 path1) as (s' & Hs' & HR' & Hp'); auto.
          { apply (H2 _ _ _ _ HR1). }
          { cbn [app]; lia. }
          { cbn [app]; eapply vec_ok_le; [exact Hr1|exact Hvb]. }
          { cbn [app]; eapply vec_ok_le; [exact Hr1|exact Hv2']. }
          exists s'; split; [|split; [exact HR'|exact Hp']].
          eapply loop_step; [|exact Hs'].
          unfold uprune_body; cbn [pr_inner pr_clos pr_pruned pr_path]; eapply conv_bind; [exact Hc|]; cbn [option_map fst].
          rewrite Er; cbn [bindR]; rewrite Hf, Eb; now_conv.
        * injection E as <- <- <- <-; exists (mkPrune s1 h1 pruned1 path1); split; [|split; [|split]].
          -- apply loop_done; unfold uprune_body; cbn [pr_inner pr_clos pr_pruned pr_path]; eapply conv_bind; [exact Hc|]; cbn [option_map fst].
             rewrite Er; cbn [bindR]; rewrite Hf; now_conv.
          -- repeat split; cbn [pr_inner pr_clos pr_pruned pr_path fst snd]; [exact HR1|lia|lia| |]; (eapply vec_ok_le; [|eassumption]); lia.
          -- intros a' x' E; injection E as <- <-; eapply Hpok'; [exact Hp|exact Hl2].
          -- intros; exact I.
        * injection E as <- <- <- <-; exists (mkPrune s1 h1 pruned1 path1); split; [|split; [|split]].
          -- apply loop_done; unfold uprune_body; cbn [pr_inner pr_clos pr_pruned pr_path]; eapply conv_bind; [exact Hc|]; cbn [option_map fst].
             rewrite Er; cbn [bindR]; rewrite Hf; now_conv.
          -- repeat split; cbn [pr_inner pr_clos pr_pruned pr_path fst snd]; [exact HR1|lia|lia| |]; (eapply vec_ok_le; [|eassumption]); lia.
          -- intros; discriminate.
          -- intros; exact I.
      + cbn in E; injection E as <- <- <- <-; exists (mkPrune s1 h pruned path); split; [|split; [|split]].
        * apply loop_done; unfold uprune_body; cbn [pr_inner pr_clos pr_pruned pr_path]; eapply conv_bind; [exact Hc|]; now_conv.
        * repeat split; cbn [pr_inner pr_clos pr_pruned pr_path fst snd]; [exact HR1|exact El|lia| |]; (eapply vec_ok_le; [|eassumption]); lia.
        * intros; discriminate.
        * intros; exact I.
      + injection E as <- <- <- <-; destruct Hsz as [-> ->]; exists (mkPrune s1 h [] []); split; [|split; [|split]].
        * apply loop_done; unfold uprune_body; cbn [pr_inner pr_clos pr_pruned pr_path]; eapply conv_bind; [exact Hc|]; now_conv.
        * repeat split; cbn; [exact HR1|unfold usize_max; lia| |]; constructor.
        * intros; discriminate.
        * intros; discriminate.
    - intros [s h' pruned path] [g h] d r (HR & Eh & El & Hs & Hv1 & Hv2); cbn in *.
      assert (fsize r <= fsize (d ++ r)) by (rewrite fsize_app; lia).
      split; [apply (H2 _ _ _ _ HR)|]; split; [exact Eh|]; split; [exact El|]; split; [cbn [app]; lia|].
      split; cbn [app]; (eapply vec_ok_le; [|eassumption]); assumption.
    - reflexivity.
  Qed.
End UPruneStages.

(** ** Chains *)
Section UChainSim.
  Context {V X : Type} (P : pipe (result V)) (depth_of : list N -> Res N) (start : list N).
  Context (val : X -> result V) (path : X -> list N) (depth : X -> N) (pokE pokL : list N -> X -> Prop).
  Hypothesis HE : forall p x, pokE p x -> p = path x /\ pokL p x.
  Hypothesis HL : forall p x, pokL p x -> depth_of p = Ok (depth x) /\ forall q, length q = length p -> pokL q x.

  Context (R0 : p_state P -> unit -> list (tree X) -> list (tree X) -> Prop).
  Hypothesis Hsim : usim P (fun g x => (g, Keep (val x) true)) pokE pokE R0.
  Context (d0 r0 : list (tree X)).
  Hypothesis Hinit : R0 (p_init P) tt d0 r0.

  Definition uchain_vis {A} (c : uchain V A) (g : uclos c) (x : X) : uclos c * outcome (result A) :=
    uvisit_node c g (path x) (depth x) (val x).

  Lemma umap_vis {A B G} (c : uchain V A) (g : G) (f : G -> A -> G * option B) gh x :
    vthen (uchain_vis c) (umap_stage f) gh x = uchain_vis (u_map c g f) gh x.
  Proof.
    destruct gh as [gs h]; unfold vthen, umap_stage, uchain_vis; cbn.
    destruct (uvisit_node c gs (path x) (depth x) (val x)) as [g1 [|[a|] down]]; try reflexivity.
    - destruct (f h a) as [h1 [b|]]; rewrite andb_true_r; reflexivity.
    - rewrite andb_true_r; reflexivity.
  Qed.
  Lemma uprune_vis {A G} (c : uchain V A) (g : G) f gh x :
    vthen (uchain_vis c) (uprune_stage (fun h _ a => f h a)) gh x = uchain_vis (u_prune c g f) gh x.
  Proof.
    destruct gh as [gs h]; unfold vthen, uprune_stage, uchain_vis; cbn.
    destruct (uvisit_node c gs (path x) (depth x) (val x)) as [g1 [|[a|] down]]; try reflexivity.
    - destruct (f h a) as [h1 [[|]|]]; rewrite ?andb_true_r; reflexivity.
    - rewrite andb_true_r; reflexivity.
  Qed.
  Lemma uprune_path_vis {A G} (c : uchain V A) (g : G) f gh x :
    vthen (uchain_vis c) (uprune_stage (fun h x a => f h (path x) a)) gh x = uchain_vis (u_prune_path c g f) gh x.
  Proof.
    destruct gh as [gs h]; unfold vthen, uprune_stage, uchain_vis; cbn.
    destruct (uvisit_node c gs (path x) (depth x) (val x)) as [g1 [|[a|] down]]; try reflexivity.
    - destruct (f h (path x) a) as [h1 [[|]|]]; rewrite ?andb_true_r; reflexivity.
    - rewrite andb_true_r; reflexivity.
  Qed.

  Lemma uchain_sim {A} (c : uchain V A) : utrue_paths c = true ->
    (uhas_prune c = true -> (N.of_nat (fsize (d0 ++ r0)) <= usize_max)%N /\ vec_ok (fsize (d0 ++ r0)) start) ->
    exists R : p_state (urun_chain depth_of start P c) -> uclos c -> list (tree X) -> list (tree X) -> Prop,
      usim (urun_chain depth_of start P c) (uchain_vis c) (if uhas_prune c then pokL else pokE) (if uhas_prune c then fun _ _ => True else pokE) R /\
      (forall s g d r, R s g d r -> uclosures depth_of start P c s = g) /\
      R (p_init (urun_chain depth_of start P c)) (uclos_init c) d0 r0.
  Proof.
    intros Ht Hb; induction c as [|A B G c IH g f|A G c IH g f|A G c IH g f|A c IH lim].
    - exists R0; split; [exact Hsim|]; split; [intros s [] d r _; reflexivity|exact Hinit].
    - destruct (IH Ht Hb) as (R & HR & Hcl & Hi).
      exists (umap_R (urun_chain depth_of start P c) f g R); split; [|split].
      + eapply usim_ext; [intros gh x; apply (umap_vis c g f)|apply umap_sim; [exact HR|]].
        intros p x; cbn [uhas_prune]; destruct (uhas_prune c); auto.
      + intros s [gs h] d r [H1 H2]; cbn in H1, H2; apply Hcl in H1; subst; reflexivity.
      + split; [exact Hi|reflexivity].
    - destruct (IH Ht) as (R & HR & Hcl & Hi); [intros _; apply Hb; reflexivity|].
      destruct (Hb eq_refl) as (Hb1 & Hb2).
      exists (uprune_R (urun_chain depth_of start P c) (fun g _ a => f g a) R g []); split; [|split].
      + eapply usim_ext; [intros gh x; apply (uprune_vis c g f)|eapply uprune_sim with (vis := uchain_vis c) (fx := fun h _ a => f h a)].
        * exact HR.
        * reflexivity.
        * intros p q x Hp Hl; cbn; destruct (uhas_prune c); [apply (proj2 (HL _ _ Hp)); exact Hl|].
          apply HE in Hp as [_ Hp]; apply (proj2 (HL _ _ Hp)); exact Hl.
      + intros s [gs h] d r (H1 & H2 & _); cbn in H1, H2; apply Hcl in H1; subst; reflexivity.
      + split; [exact Hi|]; repeat split; [exact Hb1| |]; constructor.
    - cbn in Ht; apply andb_true_iff in Ht as [Ht Hn]; apply negb_true_iff in Hn.
      destruct (IH Ht) as (R & HR & Hcl & Hi); [intros _; apply Hb; reflexivity|].
      destruct (Hb eq_refl) as (Hb1 & Hb2).
      exists (uprune_R (urun_chain depth_of start P c) f R g start); split; [|split].
      + eapply usim_ext; [intros gh x; apply (uprune_path_vis c g f)|eapply uprune_sim with (vis := uchain_vis c) (fx := fun h x a => f h (path x) a)].
        * exact HR.
        * intros p x Hp h a; rewrite Hn in Hp; apply HE in Hp as [-> _]; reflexivity.
        * intros p q x Hp Hl; cbn; rewrite Hn in Hp; apply HE in Hp as [_ Hp]; apply (proj2 (HL _ _ Hp)); exact Hl.
      + intros s [gs h] d r (H1 & H2 & _); cbn in H1, H2; apply Hcl in H1; subst; reflexivity.
      + split; [exact Hi|]; repeat split; [exact Hb1|exact Hb2|exact Hb2].
    - destruct (IH Ht Hb) as (R & HR & Hcl & Hi).
      exists R; split; [|split; [exact Hcl|exact Hi]].
      eapply usim_ext; [|apply udepth_sim with (vis := uchain_vis c) (depth := depth)].
      + intros gs x; unfold uvdepth, uchain_vis; cbn.
        destruct (uvisit_node c gs (path x) (depth x) (val x)) as [g1 [|[a|] down]]; reflexivity.
      + exact HR.
      + intros p x Hp; cbn [uhas_prune] in Hp; destruct (uhas_prune c); [apply (HL _ _ Hp)|].
        apply HE in Hp as [_ Hp]; apply (HL _ _ Hp).
  Qed.

  Lemma ubchain_sim {A} (c : uchain V A) :
    exists R : p_state (urun_chain_binary depth_of P c) -> uclos c -> list (tree X) -> list (tree X) -> Prop,
      usim (urun_chain_binary depth_of P c) (uchain_vis c) pokE pokE R /\
      (forall s g d r, R s g d r -> uclosures_binary depth_of P c s = g) /\
      R (p_init (urun_chain_binary depth_of P c)) (uclos_init c) d0 r0.
  Proof.
    induction c as [|A B G c (R & HR & Hcl & Hi) g f|A G c (R & HR & Hcl & Hi) g f|A G c (R & HR & Hcl & Hi) g f|A c (R & HR & Hcl & Hi) lim].
    - exists R0; split; [exact Hsim|]; split; [intros s [] d r _; reflexivity|exact Hinit].
    - exists (umap_R (urun_chain_binary depth_of P c) f g R); split; [|split].
      + eapply usim_ext; [intros gh x; apply (umap_vis c g f)|apply umap_sim; [exact HR|auto]].
      + intros s [gs h] d r [H1 H2]; cbn in H1, H2; apply Hcl in H1; subst; reflexivity.
      + split; [exact Hi|reflexivity].
    - exists (ubprune_R (urun_chain_binary depth_of P c) (fun g _ a => f g a) R g); split; [|split].
      + eapply usim_ext; [intros gh x; apply (uprune_vis c g f)|apply ubprune_sim with (vis := uchain_vis c) (fx := fun h _ a => f h a); [exact HR|reflexivity|auto]].
      + intros s [gs h] d r [H1 H2]; cbn in H1, H2; apply Hcl in H1; subst; reflexivity.
      + split; [exact Hi|reflexivity].
    - exists (ubprune_R (urun_chain_binary depth_of P c) f R g); split; [|split].
      + eapply usim_ext; [intros gh x; apply (uprune_path_vis c g f)|apply ubprune_sim with (vis := uchain_vis c) (fx := fun h x a => f h (path x) a); [exact HR| |auto]].
        intros p x Hp h a; apply HE in Hp as [-> _]; reflexivity.
      + intros s [gs h] d r [H1 H2]; cbn in H1, H2; apply Hcl in H1; subst; reflexivity.
      + split; [exact Hi|reflexivity].
    - exists R; split; [|split; [exact Hcl|exact Hi]].
      eapply usim_ext; [|apply udepth_sim with (vis := uchain_vis c) (depth := depth)].
      + intros gs x; unfold uvdepth, uchain_vis; cbn.
        destruct (uvisit_node c gs (path x) (depth x) (val x)) as [g1 [|[a|] down]]; reflexivity.
      + exact HR.
      + intros p x Hp; apply HE in Hp as [_ Hp]; apply (HL _ _ Hp).
  Qed.
End UChainSim.

(** ** The first iterator *)
Section UBase.
  Context {Nd V I C : Type} (gv : Nd -> option (V * C)) (gvt : Nd -> option V * C) (into_iter : C -> list I) (sl : list I -> list (option Nd)).
  Hypothesis Hgot : forall n v c, gv n = Some (v, c) -> snd (gvt n) = c.
  Hypothesis Hun : forall n, gv n = None -> first_some (sl (into_iter (snd (gvt n)))) = None.
  Variable body : nat -> list (list I) * list N -> Res (list (list I) * list N + option Nd * (list (list I) * list N)).
  Let slots (n : Nd) := sl (into_iter (snd (gvt n))).
  Variable T : list nat -> list Nd -> Nd -> tree (pos Nd).
  Hypothesis HT : slot_law slots T.
  Hypothesis body_nil : forall f path, body f ([], path) = Ok (inr (None, ([], path))).
  Hypothesis body_scan : forall top,
    match first_some (sl top) with
    | None => forall f rest j path, body f (top :: rest, seg_before j :: path) = Ok (inl (rest, path))
    | Some (k, n, l') => exists top', sl top' = l' /\
        forall f rest j path, body f (top :: rest, seg_before j :: path) = Ok (inr (Some n, (top' :: rest, seg_before (S (j + k)) :: path)))
    end.
  Variable P0 : list nat.

  Definition ubase_vis (g : unit) (x : pos Nd) : unit * outcome (result V) := (g, Keep (seen gv (pos_here x)) true).
  Definition ubase_pipe (s0 : ptrack Nd I C) : pipe (result V) :=
    mkPipe (ptrack Nd I C) s0 (upt_next_with gv into_iter body) pt_current_path pt_prune.

  Lemma ubase_sim s0 : usim (ubase_pipe s0) ubase_vis pok_exact pok_exact (base_R into_iter sl T P0).
  Proof.
    split.
    - intros s [] d r HR o d' r' g' E; cbn [p_next ubase_pipe p_path p_state] in *.
      destruct HR as [(n & -> & -> & ->)|(fs & Er & Es & Ep & Hok & He & -> & Hd)].
      + cbn [app] in E; rewrite HT in E; cbn in E; injection E as <- <- <- <-; unfold seen.
        assert (Hex : pok_exact (rev (rev (map wrap P0))) (mkPos P0 [] n)) by (unfold pok_exact; rewrite rev_involutive; reflexivity).
        destruct (gv n) as [[v c]|] eqn:En.
        * exists (mkPt None (rev (map wrap P0)) (Some c) []); split; [|split; [|split]].
          -- unfold upt_next_with; cbn; rewrite En; now_conv.
          -- right; exists []; cbn; repeat split; auto.
             exists [n]; unfold slots; rewrite (Hgot _ _ _ En); reflexivity.
          -- intros a x E; injection E as <- <-; exact Hex.
          -- intros; discriminate.
        * exists (mkPt None (rev (map wrap P0)) None []); split; [|split; [|split]].
          -- unfold upt_next_with; cbn; rewrite En; now_conv.
          -- right; exists []; cbn; repeat split; auto.
             unfold slots; rewrite sforest_first, (Hun _ En); reflexivity.
          -- intros; discriminate.
          -- intros x E; injection E as <-; exact Hex.
      + destruct s as [sr sp sd st]; cbn in Er, Es, Ep, Hd; subst sr st sp.
        assert (Hfs : exists fs2, fok P0 fs2 /\ frest sl T fs2 = d ++ frest sl T fs /\ (map pf_items fs2, fvec P0 fs2) =
                   match sd with Some c => (into_iter c :: map pf_items fs, usize_max :: fvec P0 fs) | None => (map pf_items fs, fvec P0 fs) end).
        { destruct sd as [c|].
          - destruct Hd as (ab & ->); exists (mkPf (into_iter c) 0 (fcur P0 fs) ab :: fs); repeat split; auto.
          - subst d; exists fs; repeat split; auto. }
        destruct Hfs as (fs2 & Hok2 & Er2 & E2).
        unfold upt_next_with; cbn [pt_root pt_deck pt_stack pt_path].
        pose proof (base_loop gvt into_iter sl body T HT body_nil body_scan P0 fs2 Hok2) as Hl; rewrite Er2 in Hl; rewrite E2 in Hl.
        destruct (d ++ frest sl T fs) as [|[x ts] r].
        * cbn in E; injection E as <- <- <- <-.
          exists (mkPt None (rev (map wrap P0)) None []); split; [|split; [|split]].
          -- destruct sd; (eapply conv_bind; [exact Hl|now_conv]).
          -- right; exists []; cbn; repeat split; auto.
          -- intros; discriminate.
          -- intros; discriminate.
        * destruct Hl as (fs' & Hl & Hok' & He' & Ec & <- & ->).
          assert (Hex : pok_exact (rev (fvec P0 fs')) x)
            by (unfold pok_exact; rewrite (fvec_cur P0 fs' Hok' He'), rev_involutive, Ec; reflexivity).
          cbn in E; injection E as <- <- <- <-; unfold seen.
          destruct (gv (pos_here x)) as [[v c]|] eqn:En.
          -- exists (mkPt None (fvec P0 fs') (Some c) (map pf_items fs')); split; [|split; [|split]].
             ++ destruct sd; (eapply conv_bind; [exact Hl|]; cbn; rewrite En; now_conv).
             ++ right; exists fs'; cbn; repeat split; auto.
                eexists; rewrite Ec; unfold slots; rewrite (Hgot _ _ _ En); reflexivity.
             ++ intros a y E; injection E as <- <-; exact Hex.
             ++ intros; discriminate.
          -- exists (mkPt None (fvec P0 fs') None (map pf_items fs')); split; [|split; [|split]].
             ++ destruct sd; (eapply conv_bind; [exact Hl|]; cbn; rewrite En; now_conv).
             ++ right; exists fs'; cbn; repeat split; auto.
                unfold slots; rewrite sforest_first, (Hun _ En); reflexivity.
             ++ intros; discriminate.
             ++ intros y E; injection E as <-; exact Hex.
    - intros s [] d r HR; cbn [p_prune ubase_pipe].
      destruct HR as [(n & -> & -> & ->)|(fs & Er & Es & Ep & Hok & He & -> & Hd)].
      + left; exists n; auto.
      + right; exists fs; destruct s; cbn in *; repeat split; auto.
    - intros s; reflexivity.
  Qed.
End UBase.

(** ** From the walk to the calls *)
Section UGives.
  Context {A G X : Type} (P : pipe (result A)) (vis : G -> X -> G * outcome (result A)) (pok pokU : list N -> X -> Prop).
  Context (R : p_state P -> G -> list (tree X) -> list (tree X) -> Prop).
  Hypothesis Hsim : usim P vis pok pokU R.

  Definition pok_of (p : list N) (bx : result A * X) : Prop :=
    match fst bx with Got _ => pok p (snd bx) | Unwound => pokU p (snd bx) end.

  Lemma usim_gives s g d r : R s g d r ->
    forall k, exists s' g' d' r',
      calls (p_next P) k s ⇓ Ok (map (nth_error (map fst (flat_map preorder (snd (walk_all (with_node vis) g (d ++ r)))))) (seq 0 k), s') /\
      (forall i x, k = Datatypes.S i -> nth_error (flat_map preorder (snd (walk_all (with_node vis) g (d ++ r)))) i = Some x -> pok_of (p_path P s') x) /\
      (length (flat_map preorder (snd (walk_all (with_node vis) g (d ++ r)))) < k ->
         g' = fst (walk_all (with_node vis) g (d ++ r))) /\ R s' g' d' r'.
  Proof.
    intros HR k; revert s g d r HR; induction k as [|k IH]; intros s g d r HR.
    - exists s, g, d, r; split; [apply calls_0|]; split; [intros; discriminate|]; split; [lia|exact HR].
    - pose proof (walk_vstep vis g (d ++ r)) as Hw.
      destruct (vstep vis g (d ++ r)) as [[[o d1] r1] g1] eqn:E.
      pose proof (vstep_size vis g (d ++ r) _ _ _ _ E) as Hsz.
      destruct (us_next _ _ _ _ _ Hsim _ _ _ _ HR _ _ _ _ E) as (s1 & Hc & HR1 & Hp & Hu).
      destruct (IH s1 g1 d1 r1 HR1) as (s' & g' & d' & r' & Hcs & Hpk & Hg & HR').
      destruct o as [[b x]|].
      + unfold walk_all in Hcs, Hpk, Hg, Hw |- *; rewrite walk_list_app in Hcs, Hpk, Hg.
        destruct (walk_list (walk (with_node vis)) g1 d1) as [g2 o1].
        destruct (walk_list (walk (with_node vis)) g2 r1) as [g3 o2].
        rewrite Hw; cbn [fst snd flat_map preorder app map] in Hcs, Hpk, Hg |- *.
        rewrite flat_map_app in Hcs, Hpk, Hg.
        exists s', g', d', r'; split; [|split; [|split; [|exact HR']]].
        * cbn [seq map nth_error]; rewrite <- seq_shift, map_map; eapply calls_S; [exact Hc|exact Hcs].
        * intros i y Ei Hi; injection Ei as <-; destruct k as [|k].
          -- cbn in Hi; injection Hi as <-.
             assert (s' = s1) as ->.
             { destruct Hcs as [F HF]; specialize (HF F (le_n _)); cbn in HF; congruence. }
             destruct b; cbn; [eapply Hp|eapply Hu]; reflexivity.
          -- apply (Hpk k y eq_refl); exact Hi.
        * cbn [length]; intros Hl; apply Hg; lia.
      + destruct Hsz as [-> ->].
        rewrite Hw; cbn [fst snd flat_map map].
        destruct k as [|k].
        { exists s1, g1, [], []; split; [|split; [|split; [|exact HR1]]].
          - eapply calls_S; [exact Hc|apply calls_0].
          - intros i y _ Hi; destruct i; discriminate.
          - reflexivity. }
        unfold walk_all in Hcs, Hpk, Hg; cbn [app] in Hcs, Hpk, Hg; rewrite walk_list_nil in Hcs, Hpk, Hg.
        cbn [fst snd flat_map map length] in Hcs, Hpk, Hg.
        exists s', g', d', r'; split; [|split; [|split; [|exact HR']]].
        * change (map (nth_error []) (seq 0 (Datatypes.S (Datatypes.S k)))) with (@None (result A) :: map (nth_error []) (seq 1 (Datatypes.S k))).
          rewrite <- seq_shift, map_map; eapply calls_S; [exact Hc|]; cbn [option_map].
          erewrite map_ext; [exact Hcs|]; intros [|i]; reflexivity.
        * intros i y _ Hi; destruct i; discriminate.
        * intros _; apply Hg; lia.
  Qed.
End UGives.

(** ** One tree *)
Section UNary.
  Context {Nd V : Type} (gvc : Nd -> option (V * list Nd)) (nt : Nd -> tree Nd).
  Hypothesis H : fnode_tree gvc nt.

  Lemma uvisit_no_path {A} (c : uchain V A) : uhas_prune c = false ->
    forall gs p p' d v, uvisit_node c gs p d v = uvisit_node c gs p' d v.
  Proof.
    induction c as [|A B G c IH g f|A G c IH g f|A G c IH g f|A c IH lim]; intros Hn gs p p' d v; try discriminate; cbn in *.
    - reflexivity.
    - rewrite (IH Hn (fst gs) p p'); reflexivity.
    - rewrite (IH Hn gs p p'); reflexivity.
  Qed.

  Lemma unary_base_sim P0 s0 : usim (ubase_pipe gvc (fun l => l) pt_body s0) (ubase_vis gvc) pok_exact pok_exact
    (base_R (fun l => l) (map Some) (fun p ab n => annotate p ab (nt n)) P0).
  Proof.
    apply ubase_sim with (gvt := tot gvc).
    - intros n v c E; unfold tot; rewrite E; reflexivity.
    - intros n E; unfold tot; rewrite E; reflexivity.
    - apply (slot_law_nary (tot gvc) nt (node_tot gvc nt H)).
    - reflexivity.
    - apply nary_scan.
  Qed.

  Lemma unary_gives {A} (c : uchain V A) n : utrue_paths c = true ->
    (uhas_prune c = true -> (N.of_nat (length (preorder (nt n))) <= usize_max)%N) ->
    let w := walk (with_node (uat_node (seen gvc) c)) (uclos_init c) (positions (nt n)) in
    let P := utree_chain (uinto_pipeline gvc n) c in
    delivers (p_next P) (p_path P) (uclosures _ _ _ c) (p_init P)
      (pok_of (if uhas_prune c then pok_len else pok_exact) (if uhas_prune c then fun _ _ => True else pok_exact))
      (flat_map preorder (opt_list (snd w))) (fst w).
  Proof.
    intros Ht Hb w P.
    destruct (uchain_sim (uinto_pipeline gvc n) tree_depth [] (fun x => seen gvc (pos_here x)) xpath xdepth pok_exact pok_len
      pok_exact_facts pok_len_facts (base_R (fun l => l) (map Some) (fun p ab n => annotate p ab (nt n)) [])
      (unary_base_sim [] (pt_new n [])) [] [positions (nt n)]
      (base_R_init (fun l => l) (map Some) (fun p ab n => annotate p ab (nt n)) [] n) c Ht) as (R & HR & Hcl & Hi).
    { intros Hp; split; [|constructor]; cbn [app]; unfold fsize; cbn [map]; unfold positions; rewrite tsize_annotate; cbn [list_sum fold_right].
      rewrite Nat.add_0_r; auto. }
    assert (Ew : walk_all (with_node (uchain_vis (fun x => seen gvc (pos_here x)) xpath xdepth c)) (uclos_init c) [positions (nt n)] = (fst w, opt_list (snd w))).
    { unfold walk_all; rewrite walk_list_cons.
      rewrite (walk_ext_in _ (with_node (uat_node (seen gvc) c))).
      - fold w; destruct w as [g o]; rewrite walk_list_nil; cbn; rewrite app_nil_r; reflexivity.
      - intros g x Hx; unfold with_node, uchain_vis, uat_node.
        destruct (uhas_prune c) eqn:Hp.
        + rewrite (xpath_small _ _ Hx) by (apply Hb; reflexivity); reflexivity.
        + rewrite (uvisit_no_path c Hp g (xpath x) (map N.of_nat (pos_path x))); reflexivity. }
    intros k; destruct (usim_gives _ _ _ _ _ HR _ _ _ _ Hi k) as (s' & g' & d' & r' & Hc & Hp & Hg & HR').
    cbn [app] in Hc, Hp, Hg; rewrite Ew in Hc, Hp, Hg; cbn [fst snd] in Hc, Hp, Hg.
    exists s'; split; [exact Hc|split; [exact Hp|]].
    intros Hl; rewrite (Hcl _ _ _ _ HR'); apply Hg; exact Hl.
  Qed.
End UNary.

Section UBinary.
  Context {Nd V : Type} (gvcb : Nd -> option (V * (option Nd * option Nd))) (bt : Nd -> btree Nd).
  Hypothesis H : fnode_btree gvcb bt.

  Lemma ubinary_base_sim P0 s0 : usim (ubase_pipe gvcb pair_iter ptb_body s0) (ubase_vis gvcb) pok_exact pok_exact
    (base_R pair_iter (fun l => l) (fun p ab n => flat (bannotate p ab (bt n))) P0).
  Proof.
    apply ubase_sim with (gvt := btot gvcb).
    - intros n v c E; unfold btot; rewrite E; reflexivity.
    - intros n E; unfold btot; rewrite E; reflexivity.
    - apply (slot_law_binary (btot gvcb) bt (node_btot gvcb bt H)).
    - reflexivity.
    - apply binary_scan.
  Qed.

  Lemma ubinary_gives {A} (c : uchain V A) n :
    let w := bwalk (with_node (uat_node (seen gvcb) c)) (uclos_init c) (bpositions (bt n)) in
    let P := ubtree_chain (uinto_pipeline_binary gvcb n) c in
    delivers (p_next P) (p_path P) (uclosures_binary _ _ c) (p_init P) (pok_of pok_exact pok_exact)
      (flat_map preorder (opt_list (option_map flat (snd w)))) (fst w).
  Proof.
    intros w P.
    destruct (ubchain_sim (uinto_pipeline_binary gvcb n) tree_depth (fun x => seen gvcb (pos_here x)) xpath xdepth pok_exact pok_len
      pok_exact_facts pok_len_facts (base_R pair_iter (fun l => l) (fun p ab n => flat (bannotate p ab (bt n))) [])
      (ubinary_base_sim [] (pt_new n [])) [] [flat (bpositions (bt n))]
      (base_R_init pair_iter (fun l => l) (fun p ab n => flat (bannotate p ab (bt n))) [] n) c) as (R & HR & Hcl & Hi).
    assert (Ew : walk_all (with_node (uchain_vis (fun x => seen gvcb (pos_here x)) xpath xdepth c)) (uclos_init c) [flat (bpositions (bt n))] =
                 (fst w, opt_list (option_map flat (snd w)))).
    { unfold walk_all; rewrite walk_list_cons.
      rewrite (walk_ext_in _ (with_node (uat_node (seen gvcb) c))).
      - rewrite walk_flat; fold w; destruct w as [g o]; rewrite walk_list_nil; cbn; rewrite app_nil_r; reflexivity.
      - intros g x Hx; unfold with_node, uchain_vis, uat_node; rewrite (bxpath _ _ Hx); reflexivity. }
    intros k; destruct (usim_gives _ _ _ _ _ HR _ _ _ _ Hi k) as (s' & g' & d' & r' & Hc & Hp & Hg & HR').
    cbn [app] in Hc, Hp, Hg; rewrite Ew in Hc, Hp, Hg; cbn [fst snd] in Hc, Hp, Hg.
    exists s'; split; [exact Hc|split; [exact Hp|]].
    intros Hl; rewrite (Hcl _ _ _ _ HR'); apply Hg; exact Hl.
  Qed.
End UBinary.
