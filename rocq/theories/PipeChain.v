(** * PipeChain: chains of stages perform the walk described by [visit_node]. *)
From Verif Require Import Prelim PrelimFacts Spec SpecFacts SpecPipe ModelNode NodeFacts ModelPre ModelPipe ProofsPlain Slots PipeCore.

Section ChainSim.
  Context {V X : Type} (P : pipe V) (depth_of : list N -> Res N) (start : list N).
  Context (val : X -> V) (path : X -> list N) (depth : X -> N) (pokE pokL : list N -> X -> Prop).
  Hypothesis HE : forall p x, pokE p x -> p = path x /\ pokL p x.
  Hypothesis HL : forall p x, pokL p x -> depth_of p = Ok (depth x) /\ forall q, length q = length p -> pokL q x.

  Context (R0 : p_state P -> unit -> list (tree X) -> list (tree X) -> Prop).
  Hypothesis Hsim : simulates P (fun g x => (g, Keep (val x) true)) pokE R0.
  Context (d0 r0 : list (tree X)).
  Hypothesis Hinit : R0 (p_init P) tt d0 r0.

  Definition chain_vis {A} (c : chain V A) (g : clos c) (x : X) : clos c * outcome A :=
    visit_node c g (path x) (depth x) (val x).

  Lemma chain_sim {A} (c : chain V A) : true_paths c = true ->
    (has_prune c = true -> (N.of_nat (fsize (d0 ++ r0)) <= usize_max)%N /\ vec_ok (fsize (d0 ++ r0)) start) ->
    exists R : p_state (run_chain depth_of start P c) -> clos c -> list (tree X) -> list (tree X) -> Prop,
      simulates (run_chain depth_of start P c) (chain_vis c) (if has_prune c then pokL else pokE) R /\
      (forall s g d r, R s g d r -> closures depth_of start P c s = g) /\
      R (p_init (run_chain depth_of start P c)) (clos_init c) d0 r0.
  Proof.
    intros Ht Hb; induction c as [|A B G c IH g f|A G c IH g f|A G c IH g f|A c IH lim].
    - exists R0; split; [exact Hsim|]; split; [intros s [] d r _; reflexivity|exact Hinit].
    - destruct (IH Ht Hb) as (R & HR & Hcl & Hi).
      exists (map_R (run_chain depth_of start P c) f g R); split; [|split].
      + eapply simulates_ext; [|apply map_sim; exact HR].
        intros [gs h] x; unfold vthen, map_stage, chain_vis; cbn.
        destruct (visit_node c gs (path x) (depth x) (val x)) as [g1 [|a down]]; [reflexivity|].
        destruct (f h a); rewrite andb_true_r; reflexivity.
      + intros s [gs h] d r [H1 H2]; cbn in H1, H2; apply Hcl in H1; subst; reflexivity.
      + split; [exact Hi|reflexivity].
    - destruct (IH Ht) as (R & HR & Hcl & Hi); [intros _; apply Hb; reflexivity|].
      destruct (Hb eq_refl) as (Hb1 & Hb2).
      exists (prune_R (run_chain depth_of start P c) (fun g _ a => f g a) R g []); split; [|split].
      + eapply simulates_ext; [|eapply prune_sim with (vis := chain_vis c) (fx := fun h _ a => f h a)].
        * intros [gs h] x; unfold vthen, prune_stage, chain_vis; cbn.
          destruct (visit_node c gs (path x) (depth x) (val x)) as [g1 [|a down]]; [reflexivity|].
          destruct (f h a) as [h1 [|]]; rewrite ?andb_true_r; reflexivity.
        * exact HR.
        * reflexivity.
        * intros p q x Hp Hl; cbn; destruct (has_prune c); [apply (proj2 (HL _ _ Hp)); exact Hl|].
          apply HE in Hp as [_ Hp]; apply (proj2 (HL _ _ Hp)); exact Hl.
      + intros s [gs h] d r (H1 & H2 & _); cbn in H1, H2; apply Hcl in H1; subst; reflexivity.
      + split; [exact Hi|]; repeat split; [exact Hb1| |]; constructor.
    - cbn in Ht; apply andb_true_iff in Ht as [Ht Hn]; apply negb_true_iff in Hn.
      destruct (IH Ht) as (R & HR & Hcl & Hi); [intros _; apply Hb; reflexivity|].
      destruct (Hb eq_refl) as (Hb1 & Hb2).
      exists (prune_R (run_chain depth_of start P c) f R g start); split; [|split].
      + eapply simulates_ext; [|eapply prune_sim with (vis := chain_vis c) (fx := fun h x a => f h (path x) a)].
        * intros [gs h] x; unfold vthen, prune_stage, chain_vis; cbn.
          destruct (visit_node c gs (path x) (depth x) (val x)) as [g1 [|a down]]; [reflexivity|].
          destruct (f h (path x) a) as [h1 [|]]; rewrite ?andb_true_r; reflexivity.
        * exact HR.
        * intros p x Hp h a; rewrite Hn in Hp; apply HE in Hp as [-> _]; reflexivity.
        * intros p q x Hp Hl; cbn; rewrite Hn in Hp; apply HE in Hp as [_ Hp]; apply (proj2 (HL _ _ Hp)); exact Hl.
      + intros s [gs h] d r (H1 & H2 & _); cbn in H1, H2; apply Hcl in H1; subst; reflexivity.
      + split; [exact Hi|]; repeat split; [exact Hb1|exact Hb2|exact Hb2].
    - destruct (IH Ht Hb) as (R & HR & Hcl & Hi).
      exists R; split; [|split; [exact Hcl|exact Hi]].
      eapply simulates_ext; [|apply depth_sim with (vis := chain_vis c) (depth := depth)].
      + intros gs x; unfold vdepth, chain_vis; cbn; reflexivity.
      + exact HR.
      + intros p x Hp; cbn [has_prune] in Hp; destruct (has_prune c); [apply (HL _ _ Hp)|].
        apply HE in Hp as [_ Hp]; apply (HL _ _ Hp).
  Qed.

  Lemma bchain_sim {A} (c : chain V A) :
    exists R : p_state (run_chain_binary depth_of P c) -> clos c -> list (tree X) -> list (tree X) -> Prop,
      simulates (run_chain_binary depth_of P c) (chain_vis c) pokE R /\
      (forall s g d r, R s g d r -> closures_binary depth_of P c s = g) /\
      R (p_init (run_chain_binary depth_of P c)) (clos_init c) d0 r0.
  Proof.
    induction c as [|A B G c (R & HR & Hcl & Hi) g f|A G c (R & HR & Hcl & Hi) g f|A G c (R & HR & Hcl & Hi) g f|A c (R & HR & Hcl & Hi) lim].
    - exists R0; split; [exact Hsim|]; split; [intros s [] d r _; reflexivity|exact Hinit].
    - exists (map_R (run_chain_binary depth_of P c) f g R); split; [|split].
      + eapply simulates_ext; [|apply map_sim; exact HR].
        intros [gs h] x; unfold vthen, map_stage, chain_vis; cbn.
        destruct (visit_node c gs (path x) (depth x) (val x)) as [g1 [|a down]]; [reflexivity|].
        destruct (f h a); rewrite andb_true_r; reflexivity.
      + intros s [gs h] d r [H1 H2]; cbn in H1, H2; apply Hcl in H1; subst; reflexivity.
      + split; [exact Hi|reflexivity].
    - exists (bprune_R (run_chain_binary depth_of P c) (fun g _ a => f g a) R g); split; [|split].
      + eapply simulates_ext; [|apply bprune_sim with (vis := chain_vis c) (fx := fun h _ a => f h a); [exact HR|reflexivity]].
        intros [gs h] x; unfold vthen, prune_stage, chain_vis; cbn.
        destruct (visit_node c gs (path x) (depth x) (val x)) as [g1 [|a down]]; [reflexivity|].
        destruct (f h a) as [h1 [|]]; rewrite ?andb_true_r; reflexivity.
      + intros s [gs h] d r [H1 H2]; cbn in H1, H2; apply Hcl in H1; subst; reflexivity.
      + split; [exact Hi|reflexivity].
    - exists (bprune_R (run_chain_binary depth_of P c) f R g); split; [|split].
      + eapply simulates_ext; [|apply bprune_sim with (vis := chain_vis c) (fx := fun h x a => f h (path x) a); [exact HR|]].
        * intros [gs h] x; unfold vthen, prune_stage, chain_vis; cbn.
          destruct (visit_node c gs (path x) (depth x) (val x)) as [g1 [|a down]]; [reflexivity|].
          destruct (f h (path x) a) as [h1 [|]]; rewrite ?andb_true_r; reflexivity.
        * intros p x Hp h a; apply HE in Hp as [-> _]; reflexivity.
      + intros s [gs h] d r [H1 H2]; cbn in H1, H2; apply Hcl in H1; subst; reflexivity.
      + split; [exact Hi|reflexivity].
    - exists R; split; [|split; [exact Hcl|exact Hi]].
      eapply simulates_ext; [|apply depth_sim with (vis := chain_vis c) (depth := depth)].
      + intros gs x; unfold vdepth, chain_vis; cbn; reflexivity.
      + exact HR.
      + intros p x Hp; apply HE in Hp as [_ Hp]; apply (HL _ _ Hp).
  Qed.
End ChainSim.
