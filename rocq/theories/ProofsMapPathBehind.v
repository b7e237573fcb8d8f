(** * ProofsMapPathBehind: stages before and behind map_path. *)
From Verif Require Import Prelim PrelimFacts Spec SpecFacts SpecPipe SpecPipeColl SpecObs SpecMapPath ModelNode NodeFacts ModelPre ModelPipe ModelPipeColl
  ModelMapPath ProofsPlain Slots PipeCore PipeBase PipeChain PipeEnd ProofsPipe PipeFinal PipePure PipeSpecFacts PipeOps PipeCollEnd ProofsPipeColl PipeCollFinal
  ProofsMapPath ProofsMapPathEnd ProofsMapPathEach ProofsMapPathChain.

(** ** Stages on top of an iterator that itself leaves out nodes and subtrees *)
Section ChainSimG.
  Context {V X G0 : Type} (P : pipe V) (depth_of : list N -> Res N) (start : list N).
  Context (bvis : G0 -> X -> G0 * outcome V) (path : X -> list N) (depth : X -> N) (pokE pokL : list N -> X -> Prop).
  Hypothesis HE : forall p x, pokE p x -> p = path x /\ pokL p x.
  Hypothesis HL : forall p x, pokL p x -> depth_of p = Ok (depth x) /\ forall q, length q = length p -> pokL q x.

  Context (R0 : p_state P -> G0 -> list (tree X) -> list (tree X) -> Prop).
  Hypothesis Hsim : simulates P bvis pokE R0.
  Context (g00 : G0) (d0 r0 : list (tree X)).
  Hypothesis Hinit : R0 (p_init P) g00 d0 r0.

  Definition chain_visG {A} (c : chain V A) (g : G0 * clos c) (x : X) : G0 * clos c * outcome A :=
    match bvis (fst g) x with
    | (g1, Drop) => ((g1, snd g), Drop)
    | (g1, Keep v down) =>
        match visit_node c (snd g) (path x) (depth x) v with
        | (gs, Drop) => ((g1, gs), Drop)
        | (gs, Keep a down') => ((g1, gs), Keep a (down && down'))
        end
    end.

  (** The closures' states, and the iterator inside. *)
  Definition on_first {S A} (c : chain V A) (first : S -> p_state P) (clo : S -> clos c) (R : S -> G0 * clos c -> list (tree X) -> list (tree X) -> Prop) : Prop :=
    forall s g d r, R s g d r -> clo s = snd g /\ R0 (first s) (fst g) d r.

  Ltac same h x := destruct (bvis h x) as [? [|? ?]]; [reflexivity|]; cbn [visit_node fst snd].

  Lemma chain_simG {A} (c : chain V A) : true_paths c = true ->
    (has_prune c = true -> (N.of_nat (fsize (d0 ++ r0)) <= usize_max)%N /\ vec_ok (fsize (d0 ++ r0)) start) ->
    exists R : p_state (run_chain depth_of start P c) -> G0 * clos c -> list (tree X) -> list (tree X) -> Prop,
      simulates (run_chain depth_of start P c) (chain_visG c) (if has_prune c then pokL else pokE) R /\
      on_first c (chain_first depth_of start P c) (closures depth_of start P c) R /\
      R (p_init (run_chain depth_of start P c)) (g00, clos_init c) d0 r0.
  Proof.
    intros Ht Hb; induction c as [|A B G c IH g f|A G c IH g f|A G c IH g f|A c IH lim].
    - exists (fun s g d r => R0 s (fst g) d r); split; [|split; [intros s [g []] d r HR; auto|exact Hinit]].
      eapply (simulates_iso P (fun g => (g, tt)) fst); [reflexivity|intros [g []]; reflexivity| |exact Hsim].
      intros [g []] x; unfold chain_visG; cbn; destruct (bvis g x) as [g1 [|v down]]; rewrite ?andb_true_r; reflexivity.
    - destruct (IH Ht Hb) as (R & HR & Hcl & Hi).
      exists (fun s g' d r => map_R (run_chain depth_of start P c) f g R s (unpack g') d r); split; [|split].
      + eapply (simulates_iso _ pack unpack); [apply unpack_pack|apply pack_unpack| |apply map_sim; exact HR].
        intros [h [gs h']] x; unfold vthen, map_stage, chain_visG, unpack; cbn [fst snd]; same h x.
        destruct (visit_node c gs (path x) (depth x) _) as [g1 [|a down']]; [reflexivity|].
        destruct (f h' a); rewrite andb_true_r; reflexivity.
      + intros s [h [gs h']] d r [H1 H2]; cbn in H1, H2; destruct (Hcl _ _ _ _ H1) as (E & H3); cbn in E, H3 |- *; subst; split; [reflexivity|exact H3].
      + split; [exact Hi|reflexivity].
    - destruct (IH Ht) as (R & HR & Hcl & Hi); [intros _; apply Hb; reflexivity|].
      destruct (Hb eq_refl) as (Hb1 & Hb2).
      exists (fun s g' d r => prune_R (run_chain depth_of start P c) (fun g _ a => f g a) R g [] s (unpack g') d r); split; [|split].
      + eapply (simulates_iso _ pack unpack); [apply unpack_pack|apply pack_unpack| |eapply prune_sim with (vis := chain_visG c) (fx := fun h _ a => f h a)].
        * intros [h [gs h']] x; unfold vthen, prune_stage, chain_visG, unpack; cbn [fst snd]; same h x.
          destruct (visit_node c gs (path x) (depth x) _) as [g1 [|a down']]; [reflexivity|].
          destruct (f h' a) as [h2 [|]]; rewrite ?andb_true_r; reflexivity.
        * exact HR.
        * reflexivity.
        * intros p q x Hp Hl; cbn; destruct (has_prune c); [apply (proj2 (HL _ _ Hp)); exact Hl|].
          apply HE in Hp as [_ Hp]; apply (proj2 (HL _ _ Hp)); exact Hl.
      + intros s [h [gs h']] d r (H1 & H2 & H6); cbn in H1, H2; destruct (Hcl _ _ _ _ H1) as (E & H3); cbn in E, H3 |- *; subst; split; [reflexivity|exact H3].
      + split; [exact Hi|]; repeat split; [exact Hb1| |]; constructor.
    - cbn in Ht; apply andb_true_iff in Ht as [Ht Hn]; apply negb_true_iff in Hn.
      destruct (IH Ht) as (R & HR & Hcl & Hi); [intros _; apply Hb; reflexivity|].
      destruct (Hb eq_refl) as (Hb1 & Hb2).
      exists (fun s g' d r => prune_R (run_chain depth_of start P c) f R g start s (unpack g') d r); split; [|split].
      + eapply (simulates_iso _ pack unpack); [apply unpack_pack|apply pack_unpack| |eapply prune_sim with (vis := chain_visG c) (fx := fun h x a => f h (path x) a)].
        * intros [h [gs h']] x; unfold vthen, prune_stage, chain_visG, unpack; cbn [fst snd]; same h x.
          destruct (visit_node c gs (path x) (depth x) _) as [g1 [|a down']]; [reflexivity|].
          destruct (f h' (path x) a) as [h2 [|]]; rewrite ?andb_true_r; reflexivity.
        * exact HR.
        * intros p x Hp h a; rewrite Hn in Hp; apply HE in Hp as [-> _]; reflexivity.
        * intros p q x Hp Hl; cbn; rewrite Hn in Hp; apply HE in Hp as [_ Hp]; apply (proj2 (HL _ _ Hp)); exact Hl.
      + intros s [h [gs h']] d r (H1 & H2 & H6); cbn in H1, H2; destruct (Hcl _ _ _ _ H1) as (E & H3); cbn in E, H3 |- *; subst; split; [reflexivity|exact H3].
      + split; [exact Hi|]; repeat split; [exact Hb1|exact Hb2|exact Hb2].
    - destruct (IH Ht Hb) as (R & HR & Hcl & Hi).
      exists R; split; [|split; [exact Hcl|exact Hi]].
      eapply simulates_ext; [|apply depth_sim with (vis := chain_visG c) (depth := depth)].
      + intros [h gs] x; unfold vdepth, chain_visG; cbn [fst snd]; same h x.
        destruct (visit_node c gs (path x) (depth x) _) as [g1 [|a down']]; rewrite ?andb_assoc; reflexivity.
      + exact HR.
      + intros p x Hp; cbn [has_prune] in Hp; destruct (has_prune c); [apply (HL _ _ Hp)|].
        apply HE in Hp as [_ Hp]; apply (HL _ _ Hp).
  Qed.

  Lemma bchain_simG {A} (c : chain V A) :
    exists R : p_state (run_chain_binary depth_of P c) -> G0 * clos c -> list (tree X) -> list (tree X) -> Prop,
      simulates (run_chain_binary depth_of P c) (chain_visG c) pokE R /\
      on_first c (chain_first_binary depth_of P c) (closures_binary depth_of P c) R /\
      R (p_init (run_chain_binary depth_of P c)) (g00, clos_init c) d0 r0.
  Proof.
    induction c as [|A B G c (R & HR & Hcl & Hi) g f|A G c (R & HR & Hcl & Hi) g f|A G c (R & HR & Hcl & Hi) g f|A c (R & HR & Hcl & Hi) lim].
    - exists (fun s g d r => R0 s (fst g) d r); split; [|split; [intros s [g []] d r HR; auto|exact Hinit]].
      eapply (simulates_iso P (fun g => (g, tt)) fst); [reflexivity|intros [g []]; reflexivity| |exact Hsim].
      intros [g []] x; unfold chain_visG; cbn; destruct (bvis g x) as [g1 [|v down]]; rewrite ?andb_true_r; reflexivity.
    - exists (fun s g' d r => map_R (run_chain_binary depth_of P c) f g R s (unpack g') d r); split; [|split].
      + eapply (simulates_iso _ pack unpack); [apply unpack_pack|apply pack_unpack| |apply map_sim; exact HR].
        intros [h [gs h']] x; unfold vthen, map_stage, chain_visG, unpack; cbn [fst snd]; same h x.
        destruct (visit_node c gs (path x) (depth x) _) as [g1 [|a down']]; [reflexivity|].
        destruct (f h' a); rewrite andb_true_r; reflexivity.
      + intros s [h [gs h']] d r [H1 H2]; cbn in H1, H2; destruct (Hcl _ _ _ _ H1) as (E & H3); cbn in E, H3 |- *; subst; split; [reflexivity|exact H3].
      + split; [exact Hi|reflexivity].
    - exists (fun s g' d r => bprune_R (run_chain_binary depth_of P c) (fun g _ a => f g a) R g s (unpack g') d r); split; [|split].
      + eapply (simulates_iso _ pack unpack); [apply unpack_pack|apply pack_unpack| |apply bprune_sim with (vis := chain_visG c) (fx := fun h _ a => f h a); [exact HR|reflexivity]].
        intros [h [gs h']] x; unfold vthen, prune_stage, chain_visG, unpack; cbn [fst snd]; same h x.
        destruct (visit_node c gs (path x) (depth x) _) as [g1 [|a down']]; [reflexivity|].
        destruct (f h' a) as [h2 [|]]; rewrite ?andb_true_r; reflexivity.
      + intros s [h [gs h']] d r [H1 H2]; cbn in H1, H2; destruct (Hcl _ _ _ _ H1) as (E & H3); cbn in E, H3 |- *; subst; split; [reflexivity|exact H3].
      + split; [exact Hi|reflexivity].
    - exists (fun s g' d r => bprune_R (run_chain_binary depth_of P c) f R g s (unpack g') d r); split; [|split].
      + eapply (simulates_iso _ pack unpack); [apply unpack_pack|apply pack_unpack| |apply bprune_sim with (vis := chain_visG c) (fx := fun h x a => f h (path x) a); [exact HR|]].
        * intros [h [gs h']] x; unfold vthen, prune_stage, chain_visG, unpack; cbn [fst snd]; same h x.
          destruct (visit_node c gs (path x) (depth x) _) as [g1 [|a down']]; [reflexivity|].
          destruct (f h' (path x) a) as [h2 [|]]; rewrite ?andb_true_r; reflexivity.
        * intros p x Hp h a; apply HE in Hp as [-> _]; reflexivity.
      + intros s [h [gs h']] d r [H1 H2]; cbn in H1, H2; destruct (Hcl _ _ _ _ H1) as (E & H3); cbn in E, H3 |- *; subst; split; [reflexivity|exact H3].
      + split; [exact Hi|reflexivity].
    - exists R; split; [|split; [exact Hcl|exact Hi]].
      eapply simulates_ext; [|apply depth_sim with (vis := chain_visG c) (depth := depth)].
      + intros [h gs] x; unfold vdepth, chain_visG; cbn [fst snd]; same h x.
        destruct (visit_node c gs (path x) (depth x) _) as [g1 [|a down']]; rewrite ?andb_assoc; reflexivity.
      + exact HR.
      + intros p x Hp; apply HE in Hp as [_ Hp]; apply (HL _ _ Hp).
  Qed.
End ChainSimG.

(** ** Stages before: an iterator may only be moved on when what it showed last has been pruned or a new pointer was taken

    [R] holds when the iterator may be called, [W] when it has just shown a node. *)
Record simulates2 {A G X : Type} (P : pipe A) (vis : G -> X -> G * outcome A) (pok : list N -> X -> Prop)
    (R W : p_state P -> G -> list (tree X) -> list (tree X) -> Prop) : Prop := mkSim2 {
  s2_next : forall s g d r, R s g d r ->
    forall o d' r' g', vstep vis g (d ++ r) = (o, d', r', g') ->
    exists s', (fun f => p_next P f s) ⇓ Ok (option_map fst o, s') /\ W s' g' d' r' /\ (forall a x, o = Some (a, x) -> pok (p_path P s') x);
  s2_prune : forall s g d r, W s g d r -> R (p_prune P s) g [] r;
  s2_weak : forall s g d r, R s g d r -> W s g d r;
  s2_path : forall s, p_path P (p_prune P s) = p_path P s
}.

Lemma simulates2_iso {A G G' X} (P : pipe A) (to : G -> G') (from : G' -> G) (vis : G -> X -> G * outcome A) (vis' : G' -> X -> G' * outcome A) pok R W :
  (forall g, from (to g) = g) -> (forall g, to (from g) = g) -> (forall g' x, vis' g' x = let '(g, o) := vis (from g') x in (to g, o)) ->
  simulates2 P vis pok R W -> simulates2 P vis' pok (fun s g' d r => R s (from g') d r) (fun s g' d r => W s (from g') d r).
Proof.
  intros Hft Htf Hv [H1 H2 H3 H4]; split; [|intros s g d r; apply H2|intros s g d r; apply H3|exact H4].
  intros s g d r HR o d' r' g' E; destruct (d ++ r) as [|t l] eqn:Edr.
  - cbn in E; injection E as <- <- <- <-.
    destruct (H1 s (from g) d r HR None [] [] (from g)) as (s' & Hc & HR' & Hp); [rewrite Edr; reflexivity|]; exists s'; auto.
  - rewrite (vstep_iso to from vis vis' Hft Hv) in E by discriminate.
    destruct (vstep vis (from g) (t :: l)) as [[[o1 d1] r1] g1] eqn:E1; injection E as <- <- <- <-.
    destruct (H1 s (from g) d r HR o1 d1 r1 g1) as (s' & Hc & HR' & Hp); [rewrite Edr; exact E1|].
    exists s'; rewrite Hft; auto.
Qed.

Lemma simulates2_ext {A G X} (P : pipe A) (v v' : G -> X -> G * outcome A) (pok : list N -> X -> Prop) R W :
  (forall g x, v g x = v' g x) -> simulates2 P v pok R W -> simulates2 P v' pok R W.
Proof.
  intros H [H1 H2 H3 H4]; split; auto.
  intros s g d r HR o d' r' g' E; rewrite <- (vstep_ext v v') in E by exact H; eauto.
Qed.

Section Stages2.
  Context {A G H X : Type} (inner : pipe A) (vis : G -> X -> G * outcome A) (pok : list N -> X -> Prop).
  Context (R W : p_state inner -> G -> list (tree X) -> list (tree X) -> Prop).
  Hypothesis Hsim : simulates2 inner vis pok R W.

  Lemma map_sim2 {B} (f : H -> A -> H * B) h0 :
    simulates2 (map_tree inner f h0) (vthen vis (map_stage f)) pok (map_R inner f h0 R) (map_R inner f h0 W).
  Proof.
    destruct Hsim as [H1 H2 H4 H3]; split.
    - intros [s h'] [g h] d r [HR Eh] o d' r' g' E; cbn in HR, Eh; subst h'.
      rewrite vstep_then in E.
      destruct (vstep vis g (d ++ r)) as [[[o1 d1] r1] g1] eqn:E1.
      destruct (H1 s g d r HR _ _ _ _ E1) as (s1 & Hc & HR1 & Hp).
      destruct o1 as [[a x]|].
      + unfold map_stage in E; destruct (f h a) as [h1 b] eqn:Ef; injection E as <- <- <- <-.
        exists (s1, h1); split; [|split].
        * cbn; unfold map_next; eapply conv_bind; [exact Hc|]; cbn; rewrite Ef; now_conv.
        * split; [exact HR1|reflexivity].
        * intros b' x' E; injection E as <- <-; apply (Hp a x eq_refl).
      + injection E as <- <- <- <-; exists (s1, h); split; [|split].
        * cbn; unfold map_next; eapply conv_bind; [exact Hc|]; now_conv.
        * destruct (vstep_size vis g (d ++ r) _ _ _ _ E1) as [-> ->]; split; [exact HR1|reflexivity].
        * intros; discriminate.
    - intros [s h'] [g h] d r [HR Eh]; split; [apply (H2 _ _ _ _ HR)|exact Eh].
    - intros [s h'] [g h] d r [HR Eh]; split; [apply (H4 _ _ _ _ HR)|exact Eh].
    - intros [s h]; apply H3.
  Qed.

  Lemma depth_sim2 depth_of lim depth : (forall p x, pok p x -> depth_of p = Ok (depth x)) ->
    simulates2 (prune_depth inner depth_of lim) (vdepth lim depth vis) pok R W.
  Proof.
    intros Hdepth; destruct Hsim as [H1 H2 H4 H3]; split; [|exact H2|exact H4|exact H3].
    intros s g d r HR o d' r' g' E; rewrite vstep_depth in E.
    destruct (vstep vis g (d ++ r)) as [[[o1 d1] r1] g1] eqn:E1.
    destruct (H1 s g d r HR _ _ _ _ E1) as (s1 & Hc & HR1 & Hp).
    destruct o1 as [[a x]|]; injection E as <- <- <- <-.
    - specialize (Hp a x eq_refl).
      exists (if (depth x =? lim)%N then p_prune inner s1 else s1); split; [|split].
      + cbn; unfold prune_depth_next; eapply conv_bind; [exact Hc|]; cbn.
        rewrite (Hdepth _ _ Hp); now_conv.
      + destruct (depth x =? lim)%N; [apply H4, (H2 _ _ _ _ HR1)|exact HR1].
      + intros a' x' E; injection E as <- <-; cbn; destruct (depth x =? lim)%N; [rewrite H3|]; exact Hp.
    - exists s1; split; [|split].
      + cbn; unfold prune_depth_next; eapply conv_bind; [exact Hc|]; now_conv.
      + exact HR1.
      + intros; discriminate.
  Qed.

  Lemma bprune_sim2 (f : H -> list N -> A -> H * bool) (fx : H -> X -> A -> H * bool) h0 : (forall p x, pok p x -> forall h a, f h p a = fx h x a) ->
    simulates2 (bprune inner f h0) (vthen vis (prune_stage fx)) pok (bprune_R inner f R h0) (bprune_R inner f W h0).
  Proof.
    intros Hf; destruct Hsim as [H1 H2 H4 H3]; split.
    - intros [s h'] [g h] d r [HR Eh] o d' r' g' E; cbn in HR, Eh; subst h'; cbn [p_next bprune p_path].
      remember (length (d ++ r)) as n eqn:En.
      revert s g h d r HR En E; induction n as [n IH] using lt_wf_ind; intros s g h d r HR En E.
      rewrite vstep_then in E.
      destruct (vstep vis g (d ++ r)) as [[[o1 d1] r1] g1] eqn:E1.
      destruct (H1 s g d r HR _ _ _ _ E1) as (s1 & Hc & HR1 & Hp).
      destruct o1 as [[a x]|].
      + specialize (Hp a x eq_refl); specialize (Hf _ _ Hp h a).
        unfold prune_stage in E; destruct (fx h x a) as [h1 [|]] eqn:Ef.
        * pose proof (vstep_len vis g (d ++ r) _ _ _ _ E1) as Hlen; cbn in Hlen.
          destruct (IH (length r1) ltac:(lia) (p_prune inner s1) g1 h1 [] r1) as (s' & Hs' & HR' & Hp'); auto.
          { apply (H2 _ _ _ _ HR1). }
          exists s'; split; [|split; [exact HR'|exact Hp']].
          eapply loop_step; [|exact Hs'].
          unfold bprune_body; eapply conv_bind; [exact Hc|]; cbn; rewrite Hf; now_conv.
        * injection E as <- <- <- <-; exists (s1, h1); split; [|split].
          -- apply loop_done; unfold bprune_body; eapply conv_bind; [exact Hc|]; cbn; rewrite Hf; now_conv.
          -- split; [exact HR1|reflexivity].
          -- intros a' x' E; injection E as <- <-; exact Hp.
      + injection E as <- <- <- <-; exists (s1, h); split; [|split].
        * apply loop_done; unfold bprune_body; eapply conv_bind; [exact Hc|]; now_conv.
        * destruct (vstep_size vis g (d ++ r) _ _ _ _ E1) as [-> ->]; split; [exact HR1|reflexivity].
        * intros; discriminate.
    - intros [s h'] [g h] d r [HR Eh]; split; [apply (H2 _ _ _ _ HR)|exact Eh].
    - intros [s h'] [g h] d r [HR Eh]; split; [apply (H4 _ _ _ _ HR)|exact Eh].
    - intros [s h]; apply H3.
  Qed.
End Stages2.

Section ChainSim2.
  Context {V X G0 : Type} (P : pipe V) (depth_of : list N -> Res N) (start : list N).
  Context (base : G0 -> X -> G0 * V) (path : X -> list N) (depth : X -> N) (pok : list N -> X -> Prop).
  Hypothesis HE : forall p x, pok p x -> p = path x /\ depth_of p = Ok (depth x).

  Context (R0 W0 : p_state P -> G0 -> list (tree X) -> list (tree X) -> Prop).
  Hypothesis Hsim : simulates2 P (fun g x => let '(g1, v) := base g x in (g1, Keep v true)) pok R0 W0.
  Context (g00 : G0) (d0 r0 : list (tree X)).
  Hypothesis Hinit : R0 (p_init P) g00 d0 r0.

  (** What is known about the first iterator can be replaced. *)
  Definition on_first2 {S A} (c : chain V A) (first : S -> p_state P) (clo : S -> clos c) (R W : S -> G0 * clos c -> list (tree X) -> list (tree X) -> Prop) : Prop :=
    forall s g d r, W s g d r -> clo s = snd g /\ W0 (first s) (fst g) d r /\ forall h, R0 (first s) h d r -> R s (h, snd g) d r.

  Notation vis c := (chain_vis0 base path depth c).

  Lemma chain_sim2 {A} (c : chain V A) : has_prune c = false ->
    exists R W : p_state (run_chain depth_of start P c) -> G0 * clos c -> list (tree X) -> list (tree X) -> Prop,
      simulates2 (run_chain depth_of start P c) (vis c) pok R W /\
      on_first2 c (chain_first depth_of start P c) (closures depth_of start P c) R W /\
      R (p_init (run_chain depth_of start P c)) (g00, clos_init c) d0 r0.
  Proof.
    intros Ht; induction c as [|A B G c IH g f|A G c IH g f|A G c IH g f|A c IH lim]; try discriminate Ht.
    - exists (fun s g d r => R0 s (fst g) d r), (fun s g d r => W0 s (fst g) d r); split; [|split; [intros s [g []] d r HR; auto|exact Hinit]].
      eapply (simulates2_iso P (fun g => (g, tt)) fst); [reflexivity|intros [g []]; reflexivity| |exact Hsim].
      intros [g []] x; unfold chain_vis0; cbn; destruct (base g x); reflexivity.
    - destruct (IH Ht) as (R & W & HR & Hcl & Hi).
      exists (fun s g' d r => map_R (run_chain depth_of start P c) f g R s (unpack g') d r),
             (fun s g' d r => map_R (run_chain depth_of start P c) f g W s (unpack g') d r); split; [|split].
      + eapply (simulates2_iso _ pack unpack); [apply unpack_pack|apply pack_unpack| |apply map_sim2; exact HR].
        intros [h [gs h']] x; unfold vthen, map_stage, chain_vis0, unpack; cbn [fst snd]; destruct (base h x) as [h1 v]; cbn [visit_node fst snd].
        destruct (visit_node c gs (path x) (depth x) v) as [g1 [|a down]]; [reflexivity|].
        destruct (f h' a); rewrite andb_true_r; reflexivity.
      + intros s [h [gs h']] d r [H1 H2]; cbn in H1, H2; destruct (Hcl _ _ _ _ H1) as (E & H3 & H4); cbn in E, H3, H4 |- *; subst.
        split; [reflexivity|split; [exact H3|]]; intros h1 H5; split; [apply H4; exact H5|reflexivity].
      + split; [exact Hi|reflexivity].
    - destruct (IH Ht) as (R & W & HR & Hcl & Hi).
      exists R, W; split; [|split; [exact Hcl|exact Hi]].
      eapply simulates2_ext; [|apply depth_sim2 with (vis := vis c) (depth := depth); [exact HR|intros p x Hp; apply (HE _ _ Hp)]].
      intros [h gs] x; unfold vdepth, chain_vis0; cbn [fst snd visit_node]; destruct (base h x) as [h1 v].
      destruct (visit_node c gs (path x) (depth x) v) as [g1 [|a down]]; reflexivity.
  Qed.

  Lemma bchain_sim2 {A} (c : chain V A) :
    exists R W : p_state (run_chain_binary depth_of P c) -> G0 * clos c -> list (tree X) -> list (tree X) -> Prop,
      simulates2 (run_chain_binary depth_of P c) (vis c) pok R W /\
      on_first2 c (chain_first_binary depth_of P c) (closures_binary depth_of P c) R W /\
      R (p_init (run_chain_binary depth_of P c)) (g00, clos_init c) d0 r0.
  Proof.
    induction c as [|A B G c (R & W & HR & Hcl & Hi) g f|A G c (R & W & HR & Hcl & Hi) g f|A G c (R & W & HR & Hcl & Hi) g f|A c (R & W & HR & Hcl & Hi) lim].
    - exists (fun s g d r => R0 s (fst g) d r), (fun s g d r => W0 s (fst g) d r); split; [|split; [intros s [g []] d r HR; auto|exact Hinit]].
      eapply (simulates2_iso P (fun g => (g, tt)) fst); [reflexivity|intros [g []]; reflexivity| |exact Hsim].
      intros [g []] x; unfold chain_vis0; cbn; destruct (base g x); reflexivity.
    - exists (fun s g' d r => map_R (run_chain_binary depth_of P c) f g R s (unpack g') d r),
             (fun s g' d r => map_R (run_chain_binary depth_of P c) f g W s (unpack g') d r); split; [|split].
      + eapply (simulates2_iso _ pack unpack); [apply unpack_pack|apply pack_unpack| |apply map_sim2; exact HR].
        intros [h [gs h']] x; unfold vthen, map_stage, chain_vis0, unpack; cbn [fst snd]; destruct (base h x) as [h1 v]; cbn [visit_node fst snd].
        destruct (visit_node c gs (path x) (depth x) v) as [g1 [|a down]]; [reflexivity|].
        destruct (f h' a); rewrite andb_true_r; reflexivity.
      + intros s [h [gs h']] d r [H1 H2]; cbn in H1, H2; destruct (Hcl _ _ _ _ H1) as (E & H3 & H4); cbn in E, H3, H4 |- *; subst.
        split; [reflexivity|split; [exact H3|]]; intros h1 H5; split; [apply H4; exact H5|reflexivity].
      + split; [exact Hi|reflexivity].
    - exists (fun s g' d r => bprune_R (run_chain_binary depth_of P c) (fun g _ a => f g a) R g s (unpack g') d r),
             (fun s g' d r => bprune_R (run_chain_binary depth_of P c) (fun g _ a => f g a) W g s (unpack g') d r); split; [|split].
      + eapply (simulates2_iso _ pack unpack); [apply unpack_pack|apply pack_unpack| |apply bprune_sim2 with (vis := vis c) (fx := fun h _ a => f h a); [exact HR|reflexivity]].
        intros [h [gs h']] x; unfold vthen, prune_stage, chain_vis0, unpack; cbn [fst snd]; destruct (base h x) as [h1 v]; cbn [visit_node fst snd].
        destruct (visit_node c gs (path x) (depth x) v) as [g1 [|a down]]; [reflexivity|].
        destruct (f h' a) as [h2 [|]]; rewrite ?andb_true_r; reflexivity.
      + intros s [h [gs h']] d r [H1 H2]; cbn in H1, H2; destruct (Hcl _ _ _ _ H1) as (E & H3 & H4); cbn in E, H3, H4 |- *; subst.
        split; [reflexivity|split; [exact H3|]]; intros h1 H5; split; [apply H4; exact H5|reflexivity].
      + split; [exact Hi|reflexivity].
    - exists (fun s g' d r => bprune_R (run_chain_binary depth_of P c) f R g s (unpack g') d r),
             (fun s g' d r => bprune_R (run_chain_binary depth_of P c) f W g s (unpack g') d r); split; [|split].
      + eapply (simulates2_iso _ pack unpack); [apply unpack_pack|apply pack_unpack| |apply bprune_sim2 with (vis := vis c) (fx := fun h x a => f h (path x) a); [exact HR|]].
        * intros [h [gs h']] x; unfold vthen, prune_stage, chain_vis0, unpack; cbn [fst snd]; destruct (base h x) as [h1 v]; cbn [visit_node fst snd].
          destruct (visit_node c gs (path x) (depth x) v) as [g1 [|a down]]; [reflexivity|].
          destruct (f h' (path x) a) as [h2 [|]]; rewrite ?andb_true_r; reflexivity.
        * intros p x Hp h a; apply HE in Hp as [-> _]; reflexivity.
      + intros s [h [gs h']] d r [H1 H2]; cbn in H1, H2; destruct (Hcl _ _ _ _ H1) as (E & H3 & H4); cbn in E, H3, H4 |- *; subst.
        split; [reflexivity|split; [exact H3|]]; intros h1 H5; split; [apply H4; exact H5|reflexivity].
      + split; [exact Hi|reflexivity].
    - exists R, W; split; [|split; [exact Hcl|exact Hi]].
      eapply simulates2_ext; [|apply depth_sim2 with (vis := vis c) (depth := depth); [exact HR|intros p x Hp; apply (HE _ _ Hp)]].
      intros [h gs] x; unfold vdepth, chain_vis0; cbn [fst snd visit_node]; destruct (base h x) as [h1 v].
      destruct (visit_node c gs (path x) (depth x) v) as [g1 [|a down]]; reflexivity.
  Qed.

  (** These stages have no path of their own. *)
  Lemma first_path {A} (c : chain V A) : has_prune c = false -> forall s, p_path (run_chain depth_of start P c) s = p_path P (chain_first depth_of start P c s).
  Proof. induction c as [|A B G c IH g f|A G c IH g f|A G c IH g f|A c IH lim]; intros Hn; try discriminate Hn; intros s; [reflexivity|apply (IH Hn)|apply (IH Hn)]. Qed.
  Lemma first_path_binary {A} (c : chain V A) : forall s, p_path (run_chain_binary depth_of P c) s = p_path P (chain_first_binary depth_of P c s).
  Proof. induction c as [|A B G c IH g f|A G c IH g f|A G c IH g f|A c IH lim]; intros s; [reflexivity|apply IH|apply IH|apply IH|apply IH]. Qed.
  Lemma first_prune {A} (c : chain V A) : forall s, chain_first depth_of start P c (p_prune (run_chain depth_of start P c) s) = p_prune P (chain_first depth_of start P c s).
  Proof. induction c as [|A B G c IH g f|A G c IH g f|A G c IH g f|A c IH lim]; intros s; [reflexivity|apply IH|apply IH|apply IH|apply IH]. Qed.
  Lemma first_prune_binary {A} (c : chain V A) : forall s, chain_first_binary depth_of P c (p_prune (run_chain_binary depth_of P c) s) = p_prune P (chain_first_binary depth_of P c s).
  Proof. induction c as [|A B G c IH g f|A G c IH g f|A G c IH g f|A c IH lim]; intros s; [reflexivity|apply IH|apply IH|apply IH|apply IH]. Qed.
End ChainSim2.

(** ** A pointer taken before several moves *)
Section One.
  Context {Nd V I C : Type} (grow : nat -> nat) (gv : Nd -> V * C) (into_iter : C -> list I) (sl : list I -> list (option Nd)).
  Variable pbody : nat -> list (list I) * list N -> Res (list (list I) * list N + option Nd * (list (list I) * list N)).
  Variable vbody : nat -> list (list I) * vec -> Res (list (list I) * vec + option Nd * (list (list I) * vec)).
  Variable inv : list (list I) -> list N -> Prop.
  Variable over : list N -> list N.
  Variable T : list nat -> list Nd -> Nd -> tree (pos Nd).
  Hypothesis Hsim : forall P0 s0, simulates (base_pipe gv into_iter pbody s0) (base_vis gv) pok_exact (base_R into_iter sl T P0).
  Hypothesis Hloop : loop_rel inv over pbody vbody.
  Hypothesis Hinit : forall path, inv [] path.
  Hypothesis Hpush : forall stack path c, inv stack path -> inv (into_iter c :: stack) (usize_max :: path).
  Variable seen : list N -> list N -> list N.
  (** What lies in the view behind the current path. *)
  Variable okw : nat -> list N -> Prop.
  Hypothesis okw_full : forall k w, length w <= k -> okw k w.
  Hypothesis seen_gen : forall w popped x x' p0 lft, firstn (length w) (rev (popped ++ x :: p0) ++ lft) = w -> okw (length (popped ++ x :: p0)) w ->
    firstn (length w) (rev (x' :: p0) ++ over popped ++ lft) = seen w (rev (x' :: p0)) /\ okw (length (x' :: p0)) (seen w (rev (x' :: p0))).
  Hypothesis vbody_const : forall f f' s, vbody f s = vbody f' s.
  Hypothesis pbody_none : forall f s st' p', pbody f s = Ok (inr (None, (st', p'))) -> st' = [].
  Variable st : list nat -> list nat -> list nat.
  Notation small := (fun i => (N.of_nat i <= usize_max)%N).
  Hypothesis seen_wrap : forall q p, seen (map wrap q) (map wrap p) = map wrap (st q p).
  Hypothesis st_small : forall q p i, In i (st q p) -> In i q \/ In i p \/ small i.
  Hypothesis st_nil : forall p, st [] p = [].
  Hypothesis st_len : forall q p, length (st q p) = length q.

  Notation vnext := (vt_next_with grow gv into_iter vbody).
  Notation pnext := (pt_next_with gv into_iter pbody).

  Definition pushed (s : ptrack Nd I C) (cap : nat) : bool := match pt_deck s with Some _ => negb (length (pt_path s) <? cap) | None => false end.

  Lemma conv_gen cap id sv s o s' : rel inv cap id sv s -> pt_root s = None -> (fun k => pnext k s) ⇓ Ok (o, s') ->
    exists sv', (fun k => vnext k sv) ⇓ Ok (o, sv') /\
      rel inv (if pushed s cap then grow cap else cap) (if pushed s cap then S id else id) sv' s' /\
      (pt_deck s = None -> length (pt_path s') <= length (pt_path s)) /\
      match o with
      | None => True
      | Some _ => pt_root s' = None /\ forall w, firstn (length w) (v_buf (vt_path sv)) = w -> okw (length (pt_path s)) w ->
          (pt_deck s <> None -> length w <= length (pt_path s)) ->
          firstn (length w) (v_buf (vt_path sv')) = seen w (rev (pt_path s')) /\ okw (length (pt_path s')) (seen w (rev (pt_path s')))
      end.
  Proof.
    intros (Er & Ed & Es & (lft & Ep) & Hi) Hr [F HF].
    assert (Hone : exists sv', vnext F sv = Ok (o, sv') /\
      rel inv (if pushed s cap then grow cap else cap) (if pushed s cap then S id else id) sv' s' /\
      (pt_deck s = None -> length (pt_path s') <= length (pt_path s)) /\
      match o with
      | None => True
      | Some _ => pt_root s' = None /\ forall w, firstn (length w) (v_buf (vt_path sv)) = w -> okw (length (pt_path s)) w ->
          (pt_deck s <> None -> length w <= length (pt_path s)) ->
          firstn (length w) (v_buf (vt_path sv')) = seen w (rev (pt_path s')) /\ okw (length (pt_path s')) (seen w (rev (pt_path s')))
      end).
    { pose proof (HF F (le_n F)) as E; unfold pt_next_with in E; unfold vt_next_with, pushed; rewrite Er, Hr, Ed in *; rewrite Es, Ep.
      destruct (pt_deck s) as [c|].
      - rewrite vec_push_of.
        destruct (loop pbody F (into_iter c :: pt_stack s, usize_max :: pt_path s)) as [[o1 [st' p']]| | |] eqn:El; cbn [bindR] in E; try discriminate.
        set (cap' := if negb (length (pt_path s) <? cap) then grow cap else cap).
        set (id' := if negb (length (pt_path s) <? cap) then S id else id).
        set (lft' := if length (pt_path s) <? cap then tl lft else []).
        replace (if length (pt_path s) <? cap then vec_of (usize_max :: pt_path s) (tl lft) cap id else vec_of (usize_max :: pt_path s) [] (grow cap) (S id))
          with (vec_of (usize_max :: pt_path s) lft' cap' id') by (unfold lft', cap', id'; destruct (length (pt_path s) <? cap); reflexivity).
        destruct (Hloop F _ _ lft' cap' id' _ _ _ (Hpush _ _ c Hi) El) as (popped & Ev & Hi' & Ho).
        rewrite Ev; cbn [bindR]; destruct o1 as [node|].
        + destruct (gv node) as [value children]; injection E as <- <-.
          destruct Ho as (x & x' & p0 & E1 & ->).
          eexists; split; [reflexivity|]; split; [|split; [discriminate|]].
          { split; [reflexivity|split; [reflexivity|split; [reflexivity|split; [eexists; reflexivity|exact Hi']]]]. }
          split; [reflexivity|]; intros w Hw _ Hl; specialize (Hl ltac:(discriminate)); cbn [vt_path pt_path vec_of v_buf] in *.
          apply seen_gen with (x := x).
          * rewrite <- E1; cbn [rev]; rewrite <- app_assoc; rewrite <- Hw at 2; rewrite !firstn_app, !rev_length.
            replace (length w - length (pt_path s)) with 0 by lia; reflexivity.
          * apply okw_full; rewrite <- E1; cbn; lia.
        + injection E as <- <-; eexists; split; [reflexivity|]; split; [|split; [discriminate|exact Logic.I]].
          split; [reflexivity|split; [reflexivity|split; [reflexivity|split; [eexists; reflexivity|exact Hi']]]].
      - destruct (loop pbody F (pt_stack s, pt_path s)) as [[o1 [st' p']]| | |] eqn:El; cbn [bindR] in E; try discriminate.
        destruct (Hloop F _ _ lft cap id _ _ _ Hi El) as (popped & Ev & Hi' & Ho); rewrite Ev; cbn [bindR].
        destruct o1 as [node|].
        + destruct (gv node) as [value children]; injection E as <- <-.
          destruct Ho as (x & x' & p0 & E1 & ->).
          eexists; split; [reflexivity|]; split; [|split].
          * split; [reflexivity|split; [reflexivity|split; [reflexivity|split; [eexists; reflexivity|exact Hi']]]].
          * intros _; cbn [pt_path]; rewrite E1, app_length; cbn; lia.
          * split; [reflexivity|]; intros w Hw Hok _; cbn [vt_path pt_path vec_of v_buf] in *; rewrite E1 in *.
            apply seen_gen with (x := x); assumption.
        + injection E as <- <-; eexists; split; [reflexivity|]; split; [|split; [|exact Logic.I]].
          * split; [reflexivity|split; [reflexivity|split; [reflexivity|split; [eexists; reflexivity|exact Hi']]]].
          * intros _; cbn [pt_path]; rewrite Ho, app_length; lia. }
    destruct Hone as (sv' & E & H); exists sv'; split; [|exact H].
    exists F; intros k Hk; eapply vnext_more; eassumption.
  Qed.

  (** The pointer, what is seen through it, and the path of the node visited last. *)
  Definition view : Type := slice * list nat * list nat.
  Definition moved (h : view) (x : pos Nd) : view := let '(p, w, _) := h in (p, st w (pos_path x), pos_path x).
  Definition vbase (h : view) (x : pos Nd) : view * V := (moved h x, nval gv (pos_here x)).

  Notation caps := (caps (Nd := Nd) (I := I) (C := C) grow).

  (** [ready]: a push would not touch what is seen. *)
  Definition v_R (ready : Prop) (s : vtrack Nd I C) (h : view) (d r : list (tree (pos Nd))) : Prop :=
    let '(p, w, q) := h in
    exists s0 cap id, rel inv cap id s s0 /\ base_R into_iter sl T [] s0 tt d r /\ caps cap s0 /\
      (pt_deck s0 <> None -> length (pt_path s0) < grow 0) /\ Forall (okx grow) (flat_map preorder (d ++ r)) /\
      Forall small w /\ Forall small q /\ (q = [] -> w = [] /\ snd p = 0 /\ pt_path s0 = []) /\
      (d ++ r = [] \/ rev (pt_path s0) = map wrap q /\ snd p = length w /\ (fst p = id \/ w = []) /\
        firstn (length w) (v_buf (vt_path s)) = map wrap w /\ okw (length q) (map wrap w) /\ (ready -> pt_deck s0 <> None -> length w <= length q) /\
        (pt_root s0 <> None -> q = [])) /\
      (vec_list (vt_path s) = map wrap q -> vec_read (vt_path s) p = Ok (map N.of_nat w)).

  Lemma map_small q : Forall small q -> map wrap q = map N.of_nat q.
  Proof. rewrite Forall_forall; intros Hq; apply map_ext_in; intros i Hi; apply wrap_small; auto. Qed.

  (** A new pointer. *)
  Lemma v_retake s p w q d r : v_R False s (p, w, q) d r -> v_R True s (vec_slice (vt_path s), q, q) d r.
  Proof.
    intros (s0 & cap & id & Hrel & HR & Hcap & Hd & Hok & Hw & Hq & Hnil & Hor & _).
    destruct (Hrel) as (_ & _ & _ & (lft & El) & _).
    exists s0, cap, id; repeat (split; [assumption|]); split; [|split].
    - intros Eq; destruct (Hnil Eq) as (_ & _ & Ep); split; [exact Eq|split; [|exact Ep]].
      rewrite El, Ep; reflexivity.
    - destruct Hor as [Hor|(Ep & _ & _ & _ & _ & _ & Hr)]; [left; exact Hor|right].
      assert (Elen : length (pt_path s0) = length q) by (rewrite <- rev_length, Ep; apply map_length).
      split; [exact Ep|]; rewrite El; cbn [vec_slice vec_of fst snd v_id v_len v_buf]; split; [exact Elen|split; [left; reflexivity|]].
      split; [rewrite <- Elen, firstn_rev_app; exact Ep|split; [apply okw_full; rewrite map_length; lia|split; [intros _ _; lia|exact Hr]]].
    - rewrite El, vec_list_of; intros Ep; rewrite <- map_small, <- Ep by exact Hq; eapply read_self; reflexivity.
  Qed.

  Lemma v_prune s h d r : v_R False s h d r -> v_R True (vt_prune s) h [] r.
  Proof.
    destruct h as [[p w] q]; intros (s0 & cap & id & (E1 & E2 & E3 & E4 & E5) & HR & Hcap & Hd & Hok & Hw & Hq & Hnil & Hor & Hread).
    exists (pt_prune s0), cap, id.
    split; [split; [exact E1|split; [reflexivity|split; [exact E3|split; [exact E4|exact E5]]]]|].
    split; [exact (sim_prune _ _ _ _ (Hsim [] s0) _ _ _ _ HR)|split; [exact Hcap|split; [cbn; congruence|]]].
    split; [rewrite flat_map_app in Hok; apply Forall_app in Hok as [_ Hok]; exact Hok|].
    split; [exact Hw|split; [exact Hq|split; [exact Hnil|split; [|exact Hread]]]].
    destruct Hor as [Hor|(H1 & H2 & H3 & H4 & H5 & H6 & H7)]; [left; apply app_eq_nil in Hor as [_ ->]; reflexivity|right].
    repeat (split; [assumption|]); split; [cbn; congruence|exact H7].
  Qed.

  Lemma st_smalls q p : Forall small q -> Forall small p -> Forall small (st q p).
  Proof. rewrite !Forall_forall; intros Hq Hp i Hi; destruct (st_small _ _ _ Hi) as [H|[H|H]]; auto. Qed.

  Lemma loop_none f : forall s st' p', loop pbody f s = Ok (None, (st', p')) -> st' = [].
  Proof.
    induction f as [|f IH]; intros s st' p' E; [discriminate|]; cbn [loop] in E.
    destruct (pbody f s) as [[s1|[o1 [s2 p2]]]| | |] eqn:Eb; try discriminate; [exact (IH _ _ _ E)|].
    injection E as -> -> ->; exact (pbody_none _ _ _ _ Eb).
  Qed.

  Lemma loop_some_path s0 s1 v cap id s : rel inv cap id s s0 -> pt_root s0 = None -> (fun k => pnext k s0) ⇓ Ok (Some v, s1) ->
    exists y pp, pt_path s1 = y :: pp.
  Proof.
    intros (_ & _ & _ & _ & Hi) Er [F HF]; specialize (HF F (le_n F)); unfold pt_next_with in HF; rewrite Er in HF.
    destruct (pt_deck s0) as [c|]; (destruct (loop pbody F _) as [[[nd|] [s2 p2]]| | |] eqn:El; cbn [bindR] in HF; try discriminate;
      destruct (gv nd); injection HF as _ <-; cbn [pt_path]).
    - destruct (Hloop F _ _ [] 0 0 _ _ _ (Hpush _ _ c Hi) El) as (popped & _ & _ & x & x' & p0 & _ & ->); eauto.
    - destruct (Hloop F _ _ [] 0 0 _ _ _ Hi El) as (popped & _ & _ & x & x' & p0 & _ & ->); eauto.
  Qed.

  Lemma caps_next cap s0 s1 : caps cap s0 -> (pt_deck s0 <> None -> length (pt_path s0) < grow 0) ->
    (pt_deck s0 = None -> length (pt_path s1) <= length (pt_path s0)) -> caps (if pushed s0 cap then grow cap else cap) s1.
  Proof.
    intros Hcap Hd Hl; unfold pushed; destruct (pt_deck s0) as [c|].
    - left; specialize (Hd ltac:(discriminate)); destruct Hcap as [->|[-> E0]]; [rewrite (proj2 (Nat.ltb_lt _ _) Hd); reflexivity|reflexivity].
    - destruct Hcap as [->|[-> E0]]; [left; reflexivity|right; split; [reflexivity|]].
      specialize (Hl eq_refl); rewrite E0 in Hl; cbn in Hl; destruct (pt_path s1); [reflexivity|cbn in Hl; lia].
  Qed.

  Lemma v_step s h d r : v_R True s h d r ->
    match d ++ r with
    | [] => exists s', (fun k => vnext k s) ⇓ Ok (None, s') /\ v_R False s' h [] []
    | TNode x ts :: r' => exists s', (fun k => vnext k s) ⇓ Ok (Some (nval gv (pos_here x)), s') /\ vec_list (vt_path s') = xseg x /\ v_R False s' (moved h x) ts r'
    end.
  Proof.
    destruct h as [[p w] q]; intros (s0 & cap & id & Hrel & HR & Hcap & Hd & Hok & Hw & Hq & Hnil & Hor & Hread).
    destruct (vstep (base_vis gv) tt (d ++ r)) as [[[o d'] r'] g'] eqn:Ev.
    destruct (sim_next _ _ _ _ (Hsim [] s0) s0 tt d r HR o d' r' g' Ev) as (s1 & Hn & HR' & Hp); cbn [p_next base_pipe p_path] in Hn, Hp.
    destruct g'; destruct (d ++ r) as [|[x ts] l] eqn:Edr.
    - cbn in Ev; injection Ev as <- <- <-; cbn [option_map] in Hn.
      assert (Hr0 : pt_root s0 = None).
      { destruct HR as [(n & _ & -> & ->)|(fs & E & _)]; [discriminate|exact E]. }
      destruct (conv_gen cap id s s0 _ s1 Hrel Hr0 Hn) as (s' & Hv & Hrel' & Hl & _).
      assert (Hd1 : pt_deck s1 = None /\ pt_path s1 = []).
      { destruct Hn as [F HF]; specialize (HF F (le_n F)); unfold pt_next_with in HF; rewrite Hr0 in HF.
        assert (Hdk : pt_deck s1 = None /\ pt_stack s1 = []).
        { destruct (pt_deck s0); (destruct (loop pbody F _) as [[[nd|] [s2 p2]]| | |] eqn:El; cbn [bindR] in HF; try discriminate;
            [destruct (gv nd); discriminate|injection HF as <-; split; [reflexivity|exact (loop_none _ _ _ _ El)]]). }
        destruct Hdk as (Hdk & Hst); split; [exact Hdk|].
        destruct HR' as [(n & _ & _ & E)|(fs & Er & Es & Ep & _)]; [discriminate|].
        rewrite Hst in Es; symmetry in Es; apply map_eq_nil in Es; subst fs; exact Ep. }
      destruct Hd1 as (Hdk & Hpt).
      exists s'; split; [exact Hv|]; eexists s1, _, _; split; [exact Hrel'|split; [exact HR'|split; [|split; [congruence|split; [constructor|]]]]].
      + apply caps_next; assumption.
      + split; [exact Hw|split; [exact Hq|split; [intros Eq; destruct (Hnil Eq) as (H1 & H2 & _); auto|split; [left; reflexivity|]]]].
        destruct Hrel' as (_ & _ & _ & (lft & El) & _); rewrite El, vec_list_of, Hpt; cbn [rev]; intros Eq.
        symmetry in Eq; apply map_eq_nil in Eq; destruct (Hnil Eq) as (-> & Hz & _).
        unfold vec_read; rewrite Hz; reflexivity.
    - cbn in Ev; injection Ev as <- <- <-; cbn [option_map fst] in Hn; specialize (Hp _ _ eq_refl); unfold pok_exact, pt_current_path in Hp.
      destruct Hor as [Hor|(Ep & Hsn & Hfst & Hbuf & Hokw & Hdl & Hrt)]; [discriminate|]; specialize (Hdl Logic.I).
      cbn [flat_map preorder app] in Hok; inversion Hok as [|? ? [Hx1 Hx2] Hok']; subst.
      assert (Elen : length (pt_path s0) = length q) by (rewrite <- rev_length, Ep; apply map_length).
      assert (Elen1 : length (pt_path s1) = length (pos_path x)) by (rewrite <- rev_length, Hp; apply map_length).
      assert (Hst : Forall small (st w (pos_path x))) by (apply st_smalls; assumption).
      rewrite <- flat_map_app in Hok'.
      destruct (pt_root s0) as [root|] eqn:Er.
      + destruct (conv_root grow gv into_iter pbody vbody inv vbody_const cap id s s0 _ s1 Hrel ltac:(congruence) Hn) as (s' & Hv & Hrel' & Hr' & Hd' & Ep' & Hread').
        specialize (Hrt ltac:(discriminate)); subst q; destruct (Hnil eq_refl) as (-> & Hz & Hpt).
        exists s'; split; [exact Hv|]; pose proof Hrel' as (_ & _ & _ & (lft & El) & _).
        split; [rewrite El, vec_list_of; exact Hp|].
        cbn [moved]; rewrite st_nil; rewrite Hpt in Ep'; rewrite Ep' in Elen1; destruct (pos_path x) as [|? ?] eqn:Ex; [|discriminate].
        exists s1, cap, id; split; [exact Hrel'|split; [exact HR'|split]].
        { unfold ProofsMapPathChain.caps in *; rewrite Ep'; rewrite Hpt in Hcap; exact Hcap. }
        split; [rewrite Ep'; intros _; exact Hx1|split; [exact Hok'|split; [constructor|split; [constructor|split; [auto|]]]]].
        split; [right|intros _; unfold vec_read; rewrite Hz; reflexivity].
        rewrite Ep'; repeat split; auto; try (apply okw_full; cbn; lia); congruence.
      + destruct (conv_gen cap id s s0 _ s1 Hrel Er Hn) as (s' & Hv & Hrel' & Hl & Hr' & Hview).
        exists s'; split; [exact Hv|]; pose proof Hrel' as (_ & _ & _ & (lft & El) & _).
        split; [rewrite El, vec_list_of; exact Hp|].
        cbn [moved]; specialize (Hview (map wrap w)); rewrite map_length, Hbuf, Elen in Hview.
        destruct (Hview eq_refl Hokw Hdl) as (Hv1 & Hv2); rewrite Hp, seen_wrap in Hv1, Hv2; rewrite Elen1 in Hv2.
        assert (Hid : fst p = (if pushed s0 cap then S id else id) \/ st w (pos_path x) = []).
        { destruct Hfst as [Hfst|Hw0]; [|right; subst w; apply st_nil].
          unfold pushed; destruct (pt_deck s0) as [c|] eqn:Edk; [|left; exact Hfst].
          destruct (length (pt_path s0) <? cap) eqn:Elt; [left; exact Hfst|right].
          destruct Hcap as [->|[-> E0]]; [apply Nat.ltb_ge in Elt; specialize (Hd ltac:(discriminate)); lia|].
          rewrite E0 in Elen; specialize (Hdl ltac:(discriminate)); cbn in Elen.
          destruct w; [apply st_nil|cbn in Hdl; lia]. }
        eexists s1, _, _; split; [exact Hrel'|split; [exact HR'|split; [|split; [intros _; lia|split; [exact Hok'|]]]]].
        { apply caps_next; assumption. }
        split; [exact Hst|split; [exact Hx2|split; [|split]]].
        * intros Ex; exfalso.
          destruct (loop_some_path s0 s1 (nval gv (pos_here x)) cap id s Hrel Er Hn) as (y & pp & Ey).
          rewrite Ey, Ex in Elen1; discriminate.
        * right; split; [exact Hp|]; rewrite st_len; split; [exact Hsn|split; [exact Hid|split; [exact Hv1|split; [exact Hv2|]]]].
          split; [intros []|rewrite Hr'; congruence].
        * intros _; unfold vec_read; rewrite Hsn, <- (st_len w (pos_path x)).
          rewrite <- map_small by exact Hst; destruct (length (st w (pos_path x))) as [|k] eqn:Ek.
          { destruct (st w (pos_path x)); [reflexivity|discriminate]. }
          destruct Hid as [Hid|Hid]; [|rewrite Hid in Ek; discriminate].
          rewrite El at 1; cbn [vec_of v_id]; rewrite Hid, Nat.eqb_refl, <- Ek, st_len; f_equal; exact Hv1.
  Qed.

  Lemma v_weak s h d r : v_R True s h d r -> v_R False s h d r.
  Proof.
    destruct h as [[p w] q]; intros (s0 & cap & id & Hrel & HR & Hcap & Hd & Hok & Hw & Hq & Hnil & Hor & Hread).
    exists s0, cap, id; repeat (split; [assumption|]); split; [|exact Hread].
    destruct Hor as [Hor|(H1 & H2 & H3 & H4 & H5 & H6 & H7)]; [left; exact Hor|right].
    repeat (split; [assumption|]); split; [intros []|exact H7].
  Qed.

  Definition vpipe (n : Nd) : pipe V := mkPipe (vtrack Nd I C) (vt_new n (vec_new 0)) vnext (fun s => vec_list (vt_path s)) vt_prune.

  Lemma v_sim n : simulates2 (vpipe n) (fun h x => let '(h1, v) := vbase h x in (h1, Keep v true)) pok_exact (v_R True) (v_R False).
  Proof.
    split; [|intros s h d r; apply v_prune|intros s h d r; apply v_weak|reflexivity].
    intros s h d r HR o d' r' h' E; pose proof (v_step s h d r HR) as Hs; destruct (d ++ r) as [|[x ts] l].
    - cbn in E; injection E as <- <- <- <-; destruct Hs as (s' & Hv & HR'); exists s'; split; [exact Hv|split; [exact HR'|discriminate]].
    - cbn in E; injection E as <- <- <- <-; destruct Hs as (s' & Hv & Hp & HR'); exists s'; split; [exact Hv|split; [exact HR'|]].
      intros a y Ey; injection Ey as _ <-; exact Hp.
  Qed.

  Lemma v_init n : Forall (okx grow) (preorder (T [] [] n)) -> v_R True (vt_new n (vec_new 0)) ((0, 0), [], []) [] [T [] [] n].
  Proof.
    intros Hok; exists (pt_new n []), 0, 0.
    split; [split; [reflexivity|split; [reflexivity|split; [reflexivity|split; [exists []; reflexivity|apply Hinit]]]]|].
    split; [apply (base_R_init into_iter sl T [] n)|]; split; [right; auto|split; [cbn; congruence|split; [cbn; rewrite app_nil_r; exact Hok|]]].
    split; [constructor|split; [constructor|split; [auto|split; [right|reflexivity]]]].
    repeat split; auto; apply okw_full; cbn; lia.
  Qed.

  (** *** map_path on such stages *)
  Section Middle.
    Context {A B G : Type} (c1 : chain V A) (C1 : pipe A) (first : p_state C1 -> vtrack Nd I C) (clo : p_state C1 -> clos c1).
    Context (R1 W1 : p_state C1 -> view * clos c1 -> list (tree (pos Nd)) -> list (tree (pos Nd)) -> Prop).
    Context (path : pos Nd -> list N) (depth : pos Nd -> N).
    Hypothesis Hsim1 : simulates2 C1 (chain_vis0 vbase path depth c1) pok_exact R1 W1.
    Hypothesis Hfirst : forall s g d r, W1 s g d r -> clo s = snd g /\ v_R False (first s) (fst g) d r /\ forall h, v_R True (first s) h d r -> R1 s (h, snd g) d r.
    Hypothesis Hpath : forall s, p_path C1 s = vec_list (vt_path (first s)).
    Hypothesis Hprune1 : forall s, first (p_prune C1 s) = vt_prune (first s).
    Context (f : G -> list N -> A -> G * B) (g0 : G).

    Definition mid : pipe B := map_path C1 (fun s => vec_slice (vt_path (first s))) (fun s => vec_read (vt_path (first s))) f g0.

    Definition mid_vis (s : clos c1 * list nat * G) (x : pos Nd) : (clos c1 * list nat * G) * outcome B :=
      let '(gs, q, g) := s in
      match visit_node c1 gs (path x) (depth x) (nval gv (pos_here x)) with
      | (gs', Drop) => ((gs', st q (pos_path x), g), Drop)
      | (gs', Keep a down) => let '(g', b) := f g (map N.of_nat (st q (pos_path x))) a in ((gs', pos_path x, g'), Keep b down)
      end.

    Lemma mid_vstep todo : forall p w q gs g o d r p' w' q' gs', vstep (chain_vis0 vbase path depth c1) ((p, w, q), gs) todo = (o, d, r, ((p', w', q'), gs')) ->
      p' = p /\
      match o with
      | Some (a, x) => q' = pos_path x /\
          vstep mid_vis (gs, w, g) todo = (Some (snd (f g (map N.of_nat w') a), x), d, r, (gs', pos_path x, fst (f g (map N.of_nat w') a)))
      | None => vstep mid_vis (gs, w, g) todo = (None, d, r, (gs', w', g))
      end.
    Proof.
      induction todo as [|[x ts] todo IH]; intros p w q gs g o d r p' w' q' gs' E; cbn [vstep] in E.
      - injection E as <- <- <- <- <- <- <-; auto.
      - cbn [vstep]; unfold chain_vis0 at 1, vbase in E; cbn [fst snd moved] in E; unfold mid_vis at 1 3.
        destruct (visit_node c1 gs (path x) (depth x) (nval gv (pos_here x))) as [gs1 [|a down]].
        + apply (IH _ _ _ _ g) in E; exact E.
        + injection E as <- <- <- <- <- <- <-; split; [reflexivity|split; [reflexivity|]].
          destruct (f g _ a); reflexivity.
    Qed.

    Definition mid_R (s : p_state C1 * G) (h : clos c1 * list nat * G) (d r : list (tree (pos Nd))) : Prop :=
      let '(gs, q, g) := h in
      snd s = g /\ exists w, (d ++ r = [] \/ w = q) /\ R1 (fst s) ((vec_slice (vt_path (first (fst s))), w, w), gs) d r.

    Lemma mid_sim : simulates mid mid_vis pok_exact mid_R.
    Proof.
      destruct Hsim1 as [H1 H2 H3 H4]; split; [| |intros s; apply H4].
      - intros [s g1] [[gs q] g] d r (Eg & w & Hw & HR) o d' r' h' E; cbn [fst snd] in *; subst g1.
        destruct (vstep (chain_vis0 vbase path depth c1) ((vec_slice (vt_path (first s)), w, w), gs) (d ++ r)) as [[[o1 d1] r1] [[[p' w'] q'] gs']] eqn:E1.
        destruct (H1 _ _ _ _ HR _ _ _ _ E1) as (s' & [F HF] & HW & Hp).
        assert (E2 : vstep mid_vis (gs, w, g) (d ++ r) = (o, d', r', h') \/ d ++ r = [] /\ o = None /\ d' = [] /\ r' = [] /\ h' = (gs, q, g)).
        { destruct Hw as [Hw| ->]; [right|left; exact E]; rewrite Hw in *; cbn in E; injection E as <- <- <- <-; auto. }
        destruct (mid_vstep _ _ _ _ _ g _ _ _ _ _ _ _ E1) as (-> & Hm); clear E1.
        destruct (Hfirst _ _ _ _ HW) as (_ & HV & Hre); cbn [fst snd] in HV, Hre.
        destruct o1 as [[a x]|].
        + destruct Hm as (-> & Em); destruct E2 as [E2|(E2 & _)]; [|rewrite E2 in Em; discriminate].
          rewrite E2 in Em; injection Em as -> -> -> ->; specialize (Hp _ _ eq_refl).
          assert (Hread : vec_read (vt_path (first s')) (vec_slice (vt_path (first s))) = Ok (map N.of_nat w')).
          { destruct HV as (s0 & cap & id & _ & _ & _ & _ & _ & _ & _ & _ & _ & Hread); apply Hread; rewrite <- Hpath; exact Hp. }
          exists (s', fst (f g (map N.of_nat w') a)); split; [|split].
          * exists F; intros k Hk; cbn; unfold map_path_next; cbn [fst snd]; rewrite HF by exact Hk; cbn [option_map bindR fst].
            rewrite Hread; cbn [bindR]; destruct (f g _ a); reflexivity.
          * split; [reflexivity|]; exists (pos_path x); split; [right; reflexivity|]; apply Hre; eapply v_retake; exact HV.
          * intros b y Ey; injection Ey as _ <-; exact Hp.
        + assert (Hend : d1 = [] /\ r1 = [] /\ o = None /\ d' = [] /\ r' = [] /\ exists q1, h' = (gs', q1, g)).
          { pose proof (vstep_size _ _ _ _ _ _ _ Hm) as Hz; cbn in Hz; destruct Hz as [-> ->].
            destruct E2 as [E2|(E2 & -> & -> & -> & ->)]; [rewrite E2 in Hm; injection Hm as -> -> -> ->; eauto 10|].
            rewrite E2 in Hm; cbn in Hm; injection Hm as -> _; eauto 10. }
          destruct Hend as (-> & -> & -> & -> & -> & q1 & ->).
          exists (s', g); split; [|split; [|discriminate]].
          * exists F; intros k Hk; cbn; unfold map_path_next; cbn [fst snd]; rewrite HF by exact Hk; reflexivity.
          * split; [reflexivity|]; exists q'; split; [left; reflexivity|]; apply Hre; eapply v_retake; exact HV.
      - intros [s g1] [[gs q] g] d r (Eg & w & Hw & HR); cbn [fst snd] in *; subst g1.
        split; [reflexivity|]; exists w; cbn [fst mid map_path p_prune].
        split; [destruct Hw as [Hw|Hw]; [left; apply app_eq_nil in Hw as [_ ->]; reflexivity|right; exact Hw]|].
        rewrite Hprune1; cbn [vt_prune vt_path]; eapply H2, H3; exact HR.
    Qed.
  End Middle.
End One.

(** ** Results *)
Lemma firstn_over {A} (w b b' : list A) : firstn (length w) (b ++ b') = w -> length w <= length b -> firstn (length w) b = w.
Proof. intros E Hl; rewrite firstn_app in E; replace (length w - length b) with 0 in E by lia; rewrite app_nil_r in E; exact E. Qed.

Lemma seen_n_gen w popped x x' p0 lft : firstn (length w) (rev (popped ++ x :: p0) ++ lft) = w -> True ->
  firstn (length w) (rev (x' :: p0) ++ rev popped ++ lft) = seen_n w (rev (x' :: p0)) /\ True.
Proof.
  intros E _; split; [|exact I]; unfold seen_n; rewrite rev_length; cbn [length].
  rewrite rev_app_distr in E; cbn [rev] in E |- *; rewrite <- !app_assoc in E; rewrite <- !app_assoc; cbn [app] in E |- *.
  destruct (Nat.ltb_spec (length w) (S (length p0))) as [Hl|Hl].
  - rewrite firstn_app, rev_length; replace (length w - length p0) with 0 by lia; cbn [firstn]; rewrite app_nil_r.
    eapply firstn_over; [exact E|rewrite rev_length; lia].
  - set (y := rev popped ++ lft) in *.
    change (x :: y) with ([x] ++ y) in E; change (x' :: y) with ([x'] ++ y).
    rewrite app_assoc in E; rewrite app_assoc.
    rewrite firstn_app; rewrite (firstn_all2 (rev p0 ++ [x'])) by (rewrite app_length, rev_length; cbn; lia).
    rewrite firstn_app in E; rewrite (firstn_all2 (rev p0 ++ [x])) in E by (rewrite app_length, rev_length; cbn; lia).
    rewrite <- app_assoc; cbn [app]; apply (f_equal (app (rev p0))), (f_equal (cons x')).
    rewrite <- E at 2; rewrite skipn_app.
    rewrite (skipn_all2 (rev p0 ++ [x])) by (rewrite app_length, rev_length; cbn; lia); cbn [app].
    rewrite !app_length, !rev_length; cbn [length]; replace (S (length p0) - (length p0 + 1)) with 0 by lia; reflexivity.
Qed.

Definition okw_b (k : nat) (w : list N) : Prop := skipn k w = repeat 1%N (length w - k).
Lemma okw_b_full k w : length w <= k -> okw_b k w.
Proof. intros H; unfold okw_b; rewrite skipn_all2 by exact H; replace (length w - k) with 0 by lia; reflexivity. Qed.

Lemma firstn_repeat {A} (a : A) n m : firstn n (repeat a m) = repeat a (Nat.min n m).
Proof. revert m; induction n as [|n IH]; intros [|m]; cbn; [reflexivity..|rewrite IH; reflexivity]. Qed.

Lemma seen_b_gen w popped x x' p0 lft : firstn (length w) (rev (popped ++ x :: p0) ++ lft) = w -> okw_b (length (popped ++ x :: p0)) w ->
  firstn (length w) (rev (x' :: p0) ++ repeat 1%N (length popped) ++ lft) = seen_b w (rev (x' :: p0)) /\ okw_b (length (x' :: p0)) (seen_b w (rev (x' :: p0))).
Proof.
  intros E Hok; unfold seen_b; rewrite rev_length; cbn [length].
  destruct (Nat.ltb_spec (length w) (S (length p0))) as [Hl|Hl].
  - split; [|apply okw_b_full; lia].
    rewrite rev_app_distr in E; cbn [rev] in E |- *; rewrite <- !app_assoc in E; rewrite <- !app_assoc.
    rewrite firstn_app, rev_length; replace (length w - length p0) with 0 by lia; cbn [firstn]; rewrite app_nil_r.
    eapply firstn_over; [exact E|rewrite rev_length; lia].
  - split.
    + rewrite firstn_app, rev_length; rewrite firstn_all2 by (rewrite rev_length; cbn; lia); f_equal; cbn [length].
      rewrite firstn_app, firstn_repeat, repeat_length.
      unfold okw_b in Hok; rewrite app_length in Hok; cbn [length] in Hok.
      destruct (Nat.le_gt_cases (length w) (length popped + S (length p0))) as [Hc|Hc].
      * replace (length w - S (length p0) - length popped) with 0 by lia; rewrite app_nil_r; f_equal; lia.
      * rewrite firstn_app, rev_length, app_length in E; cbn [length] in E.
        rewrite firstn_all2 in E by (rewrite rev_length, app_length; cbn; lia).
        assert (Es : skipn (length popped + S (length p0)) w = firstn (length w - (length popped + S (length p0))) lft).
        { rewrite <- E at 1; rewrite skipn_app, skipn_all2 by (rewrite rev_length, app_length; cbn; lia).
          rewrite rev_length, app_length; cbn [length]; rewrite Nat.sub_diag; reflexivity. }
        rewrite Hok in Es.
        replace (length w - S (length p0) - length popped) with (length w - (length popped + S (length p0))) by lia.
        rewrite <- Es, <- repeat_app; f_equal; lia.
    + unfold okw_b; rewrite skipn_app, skipn_all2 by (rewrite rev_length; cbn; lia).
      rewrite app_length, repeat_length, rev_length; cbn [length app].
      replace (S (length p0) - S (length p0)) with 0 by lia; cbn [skipn]; f_equal; lia.
Qed.

Lemma stale_len q p : length (stale q p) = length q.
Proof. unfold stale; destruct (Nat.ltb_spec (length q) (length p)); [reflexivity|]; rewrite app_length, skipn_length; lia. Qed.
Lemma bstale_len q p : length (bstale q p) = length q.
Proof. unfold bstale; destruct (Nat.ltb_spec (length q) (length p)); [reflexivity|]; rewrite app_length, repeat_length; lia. Qed.

Lemma pt_body_none {Nd} f s st' p' : @pt_body Nd f s = Ok (inr (None, (st', p'))) -> st' = [].
Proof.
  destruct s as [[|[|n top] rest] path]; cbn; intros E; [injection E as <- _; reflexivity|discriminate|].
  destruct (incr_last path); discriminate.
Qed.
Lemma ptb_body_none {Nd} f s st' p' : @ptb_body Nd f s = Ok (inr (None, (st', p'))) -> st' = [].
Proof.
  destruct s as [[|top rest] path]; cbn [ptb_body]; intros E; [injection E as <- _; reflexivity|].
  destruct (prec_scan top path) as [[[[n|] top'] p1]| | |]; discriminate.
Qed.

Section Trees.
  Context {Nd V A B D G : Type} (grow : nat -> nat) (c1 : chain V A) (f : G -> list N -> A -> G * B) (c2 : chain B D).

  Lemma exact_facts (p : list N) (x : pos Nd) : pok_exact p x -> p = xpath x /\ tree_depth p = Ok (xdepth x).
  Proof. intros Hp; apply pok_exact_facts in Hp as [E Hp]; split; [exact E|exact (proj1 (pok_len_facts _ _ Hp))]. Qed.

  Lemma around_with (gv : Nd -> V) st s x : xpath x = map N.of_nat (pos_path x) ->
    with_node (chain_visG (fun (s : clos c1 * list nat * G) x =>
        let '(gs, q, g) := s in
        match visit_node c1 gs (xpath x) (xdepth x) (gv (pos_here x)) with
        | (gs', Drop) => ((gs', st q (pos_path x), g), Drop)
        | (gs', Keep a down) => let '(g', b) := f g (map N.of_nat (st q (pos_path x))) a in ((gs', pos_path x, g'), Keep b down)
        end) xpath xdepth c2) s x = with_node (around_map_path st gv c1 f c2) s x.
  Proof.
    intros Hx; destruct s as [[[gs0 q] g0] gs2]; unfold with_node, chain_visG, around_map_path; cbn [fst snd]; rewrite Hx; unfold xdepth.
    destruct (visit_node c1 gs0 _ _ _) as [gs1 [|a down]]; [reflexivity|].
    destruct (f g0 _ a) as [g1 b]; destruct (visit_node c2 gs2 _ _ b) as [gs3 [|r down']]; reflexivity.
  Qed.

  Section Nary.
    Context (gvc : Nd -> V * list Nd) (nt : Nd -> tree Nd).
    Hypothesis H : node_tree gvc nt.
    Notation T := (fun p ab n => annotate p ab (nt n)).

    Lemma map_path_behind n g : small_nodes gvc (nt n) -> Forall (fun p => length p < grow 0) (node_paths (nt n)) ->
      has_prune c1 = false -> true_paths c2 = true -> (has_prune c2 = true -> (N.of_nat (length (preorder (nt n))) <= usize_max)%N) ->
      let P := map_path_on grow c1 f gvc g n in
      let '((gs1, q, g', gs2), o) := walk (around_map_path stale (nval gvc) c1 f c2) (clos_init c1, [], g, clos_init c2) (positions (nt n)) in
      exists s, collect_tree (tree_chain P c2) ⇓ Ok (o, s) /\ closures _ _ _ c1 (fst (chain_first _ _ P c2 s)) = gs1 /\
        snd (chain_first _ _ P c2 s) = g' /\ closures _ _ P c2 s = gs2.
    Proof.
      intros Hs Hd Hn1 Ht Hb P.
      destruct (n_okx grow gvc nt H n [] Hs ltac:(constructor) Hd) as (Hok & Hx).
      set (P0 := vpipe grow gvc (fun l => l) vt_body n).
      destruct (chain_sim2 P0 tree_depth [] (vbase gvc stale) xpath xdepth pok_exact exact_facts
        (v_R grow (fun l => l) (map Some) ninv T (fun _ _ => True) True) (v_R grow (fun l => l) (map Some) ninv T (fun _ _ => True) False)
        (v_sim grow gvc (fun l => l) (map Some) pt_body vt_body ninv (@rev N) T (fun P0 s0 => nary_sim gvc nt P0 s0 H) nary_loop n_push seen_n
          (fun _ _ => True) (fun _ _ _ => I) seen_n_gen (fun _ _ _ => eq_refl) pt_body_none stale seen_n_wrap stale_in stale_nil stale_len n)
        ((0, 0), [], []) [] [positions (nt n)]
        (v_init grow (fun l => l) (map Some) ninv T n_init (fun _ _ => True) (fun _ _ _ => I) n Hok) c1 Hn1) as (R1 & W1 & HR1 & Hcl1 & Hi1).
      pose proof (mid_sim grow gvc (fun l => l) (map Some) ninv T (fun _ _ => True) (fun _ _ _ => I) stale c1 (run_chain tree_depth [] P0 c1)
        (chain_first tree_depth [] P0 c1) (closures tree_depth [] P0 c1) R1 W1 xpath xdepth HR1 Hcl1
        (first_path P0 tree_depth [] c1 Hn1) (first_prune P0 tree_depth [] c1) f g) as HM.
      destruct (chain_simG P tree_depth [] (mid_vis gvc stale c1 xpath xdepth f) xpath xdepth pok_exact pok_len pok_exact_facts pok_len_facts _ HM
        (clos_init c1, [], g) [] [positions (nt n)]) with (c := c2) as (R & HR & Hcl & Hi).
      { split; [reflexivity|]; exists []; split; [right; reflexivity|].
        destruct (Hcl1 _ _ _ _ (s2_weak _ _ _ _ _ HR1 _ _ _ _ Hi1)) as (_ & HV & Hre); apply Hre; eapply v_retake; [intros; exact I|exact HV]. }
      { exact Ht. }
      { intros Hp; split; [|constructor]; cbn [app]; unfold fsize; cbn [map]; unfold positions; rewrite tsize_annotate; cbn [list_sum fold_right].
        rewrite Nat.add_0_r; auto. }
      destruct (sim_items _ _ _ _ HR _ _ _ _ Hi) as (s & Hit & HR'); cbn [app] in Hit, HR'.
      set (vis := around_map_path stale (nval gvc) c1 f c2) in *.
      set (w := walk (with_node vis) (clos_init c1, [], g, clos_init c2) (positions (nt n))).
      assert (Ew : walk_all (with_node (chain_visG (mid_vis gvc stale c1 xpath xdepth f) xpath xdepth c2)) (clos_init c1, [], g, clos_init c2) [positions (nt n)] = (fst w, opt_list (snd w))).
      { unfold walk_all; rewrite walk_list_cons.
        rewrite (walk_ext_in _ (with_node vis)).
        - fold w; destruct w as [gg o]; rewrite walk_list_nil; cbn; rewrite app_nil_r; reflexivity.
        - intros [[[gs0 q] g0] gs2] x Hxx; apply around_with, Hx, Hxx. }
      rewrite Ew in Hit, HR'; cbn [fst snd] in Hit, HR'.
      rewrite walk_visx; fold w.
      pose proof (walk_below vis (nt n) [] [] (clos_init c1, [], g, clos_init c2)) as Hbelow; fold (positions (nt n)) w in Hbelow.
      destruct w as [[[[gs1 q] g'] gs2] o]; cbn [fst snd] in *.
      destruct (Hcl _ _ _ _ HR') as (E1 & E2 & w2 & _ & HR2); cbn [fst snd] in E1, E2, HR2.
      destruct (Hcl1 _ _ _ _ (s2_weak _ _ _ _ _ HR1 _ _ _ _ HR2)) as (E3 & _).
      exists s; split; [|split; [exact E3|split; [exact E2|exact E1]]].
      eapply collect_ok; [| |exact Hit].
      - intros p x; destruct (has_prune c2); [auto|]; intros Hp; apply pok_exact_facts in Hp as [_ Hp]; exact Hp.
      - destruct o as [t|]; [apply Hbelow; reflexivity|exact I].
    Qed.
  End Nary.

  Section Binary.
    Context (gvcb : Nd -> V * (option Nd * option Nd)) (bt : Nd -> btree Nd).
    Hypothesis H : node_btree gvcb bt.
    Notation T := (fun p ab n => flat (bannotate p ab (bt n))).

    Lemma bmap_path_behind n g : Forall (fun p => length p < grow 0) (bnode_paths (bt n)) ->
      let P := bmap_path_on grow c1 f gvcb g n in
      let '((gs1, q, g', gs2), o) := bwalk (around_map_path bstale (nval gvcb) c1 f c2) (clos_init c1, [], g, clos_init c2) (bpositions (bt n)) in
      exists s, bcollect_tree (btree_chain P c2) ⇓ Ok (o, s) /\ closures_binary _ _ c1 (fst (chain_first_binary _ P c2 s)) = gs1 /\
        snd (chain_first_binary _ P c2 s) = g' /\ closures_binary _ P c2 s = gs2.
    Proof.
      intros Hd P.
      destruct (b_okx grow bt n [] ltac:(constructor) Hd) as (Hok & Hx).
      set (P0 := vpipe grow gvcb pair_iter vtb_body n).
      destruct (bchain_sim2 P0 tree_depth (vbase gvcb bstale) xpath xdepth pok_exact exact_facts
        (v_R grow pair_iter (fun l => l) binv T okw_b True) (v_R grow pair_iter (fun l => l) binv T okw_b False)
        (v_sim grow gvcb pair_iter (fun l => l) ptb_body vtb_body binv (fun l => repeat 1%N (length l)) T (fun P0 s0 => binary_sim gvcb bt P0 s0 H) binary_loop b_push seen_b
          okw_b okw_b_full seen_b_gen (fun _ _ _ => eq_refl) ptb_body_none bstale seen_b_wrap bstale_in bstale_nil bstale_len n)
        ((0, 0), [], []) [] [flat (bpositions (bt n))]
        (v_init grow pair_iter (fun l => l) binv T b_init okw_b okw_b_full n Hok) c1) as (R1 & W1 & HR1 & Hcl1 & Hi1).
      pose proof (mid_sim grow gvcb pair_iter (fun l => l) binv T okw_b okw_b_full bstale c1 (run_chain_binary tree_depth P0 c1)
        (chain_first_binary tree_depth P0 c1) (closures_binary tree_depth P0 c1) R1 W1 xpath xdepth HR1 Hcl1
        (first_path_binary P0 tree_depth c1) (first_prune_binary P0 tree_depth c1) f g) as HM.
      destruct (bchain_simG P tree_depth (mid_vis gvcb bstale c1 xpath xdepth f) xpath xdepth pok_exact pok_len pok_exact_facts pok_len_facts _ HM
        (clos_init c1, [], g) [] [flat (bpositions (bt n))]) with (c := c2) as (R & HR & Hcl & Hi).
      { split; [reflexivity|]; exists []; split; [right; reflexivity|].
        destruct (Hcl1 _ _ _ _ (s2_weak _ _ _ _ _ HR1 _ _ _ _ Hi1)) as (_ & HV & Hre); apply Hre; eapply v_retake; [apply okw_b_full|exact HV]. }
      destruct (sim_items _ _ _ _ HR _ _ _ _ Hi) as (s & Hit & HR'); cbn [app] in Hit, HR'.
      set (vis := around_map_path bstale (nval gvcb) c1 f c2) in *.
      set (w := bwalk (with_node vis) (clos_init c1, [], g, clos_init c2) (bpositions (bt n))).
      assert (Ew : walk_all (with_node (chain_visG (mid_vis gvcb bstale c1 xpath xdepth f) xpath xdepth c2)) (clos_init c1, [], g, clos_init c2) [flat (bpositions (bt n))] =
                   (fst w, opt_list (option_map flat (snd w)))).
      { unfold walk_all; rewrite walk_list_cons.
        rewrite (walk_ext_in _ (with_node vis)).
        - rewrite walk_flat; fold w; destruct w as [gg o]; rewrite walk_list_nil; cbn; rewrite app_nil_r; reflexivity.
        - intros [[[gs0 q] g0] gs2] x Hxx; apply around_with, Hx, Hxx. }
      rewrite Ew in Hit, HR'; cbn [fst snd] in Hit, HR'.
      rewrite bwalk_visx; fold w.
      pose proof (bwalk_below vis (bt n) [] [] (clos_init c1, [], g, clos_init c2)) as Hbelow; fold (bpositions (bt n)) w in Hbelow.
      destruct w as [[[[gs1 q] g'] gs2] o]; cbn [fst snd] in *.
      destruct (Hcl _ _ _ _ HR') as (E1 & E2 & w2 & _ & HR2); cbn [fst snd] in E1, E2, HR2.
      destruct (Hcl1 _ _ _ _ (s2_weak _ _ _ _ _ HR1 _ _ _ _ HR2)) as (E3 & _).
      exists s; split; [|split; [exact E3|split; [exact E2|exact E1]]].
      eapply bcollect_ok; [| | |exact Hit]; try (intros p x Hp; apply pok_exact_facts in Hp; tauto).
      destruct o as [t|]; [apply Hbelow; reflexivity|exact I].
    Qed.
  End Binary.
End Trees.
