(** * Pipelines over collections that come from any iterator: they do what they do on the list of the trees given so far. *)
From Verif Require Import Prelim PrelimFacts Spec SpecFacts SpecPipe SpecPipeColl SpecStream ModelNode NodeFacts ModelPre ModelPipe ModelPipeColl ModelStreamPipe ProofsPlain.

(** ** More fuel changes no result *)
Definition steady {S T} (next : nat -> S -> Res T) : Prop := forall f f' s r, f <= f' -> next f s = Ok r -> next f' s = Ok r.

Lemma loop_steady {S T} (body : nat -> S -> Res (S + T)) : steady body -> steady (loop body).
Proof.
  intros H f; induction f as [|f IH]; intros [|f'] s r Hf E; try discriminate; [lia|]; cbn [loop] in E |- *.
  destruct (body f s) as [x| | |] eqn:Eb; cbn [bindR] in E; try discriminate.
  rewrite (H f f' s x ltac:(lia) Eb); cbn [bindR]; destruct x as [s'|o]; [|exact E]; apply IH; [lia|exact E].
Qed.

(** ** One pipe follows another *)
(** [P] leads, [Q] follows: whatever [P] gives, [Q] gives - but only while [P] gives items, unless [b].  [past] is something that is true of [Q] for ever once it goes on where
    [P] has come to its end. *)
Record follows {A} (b : bool) (P Q : pipe A) (R : p_state P -> p_state Q -> Prop) (past : p_state Q -> Prop) : Prop := {
  fo_next : forall f s t o s', R s t -> p_next P f s = Ok (o, s') -> (o = None -> b = true) -> exists t', p_next Q f t = Ok (o, t') /\ R s' t';
  fo_path : forall s t, R s t -> p_path P s = p_path Q t;
  fo_prune : forall s t, R s t -> R (p_prune P s) (p_prune Q t);
  fo_past : forall f s t s' o t', R s t -> p_next P f s = Ok (None, s') -> p_next Q f t = Ok (o, t') -> past t';
  fo_mono : forall f t o t', past t -> p_next Q f t = Ok (o, t') -> past t';
  fo_mono_prune : forall t, past t -> past (p_prune Q t);
  fo_steady : steady (p_next Q)
}.

(** [D] holds once [P] has come to its end, and then it gives nothing any more. *)
Record ends {A} (P : pipe A) (D : p_state P -> Prop) : Prop := {
  en_end : forall f s s', p_next P f s = Ok (None, s') -> D s';
  en_stay : forall f s o s', D s -> p_next P f s = Ok (o, s') -> o = None /\ D s'
}.

Ltac bind_inv H :=
  match type of H with
  | bindR ?e _ = Ok _ => let E := fresh "E" in destruct e eqn:E; cbn [bindR] in H; try discriminate H
  end.

Section Stages.
  Context {A : Type} (b : bool) (P Q : pipe A) (R : p_state P -> p_state Q -> Prop) (past : p_state Q -> Prop).
  Hypothesis HF : follows b P Q R past.
  Context (D : p_state P -> Prop) (HD : ends P D).

  Lemma map_follows {B G} (f : G -> A -> G * B) g : follows b (map_tree P f g) (map_tree Q f g) (fun s t => R (fst s) (fst t) /\ snd s = snd t) (fun t => past (fst t)).
  Proof.
    split; cbn [p_next p_path p_prune p_state map_tree].
    - intros F [s x] [t y] o s' [HR E] H Hb; cbn [fst snd] in *; subst y; unfold map_next in *; cbn [fst snd] in *; bind_inv H; destruct a as [oi i].
      assert (Hbi : oi = None -> b = true) by (intros ->; injection H as <- _; apply Hb; reflexivity).
      destruct (fo_next _ _ _ _ _ HF _ _ _ _ _ HR E Hbi) as (t' & -> & HR'); cbn [bindR].
      destruct oi as [v|]; [destruct (f x v) as [g' r]|]; injection H as <- <-; eexists; split; try reflexivity; cbn; auto.
    - intros [s x] [t y] [HR E]; exact (fo_path _ _ _ _ _ HF _ _ HR).
    - intros [s x] [t y] [HR E]; split; [exact (fo_prune _ _ _ _ _ HF _ _ HR)|exact E].
    - intros F [s x] [t y] s' o t' [HR E0] H H'; cbn [fst snd] in *; unfold map_next in *; cbn [fst snd] in *; bind_inv H; bind_inv H'; destruct a as [oi i], a0 as [oj j].
      destruct oi as [v|]; [destruct (f x v); discriminate|].
      pose proof (fo_past _ _ _ _ _ HF _ _ _ _ _ _ HR E E1); destruct oj as [v|]; [destruct (f y v)|]; injection H' as <- <-; assumption.
    - intros F [t y] o t' Hp H'; cbn [fst snd] in *; unfold map_next in *; cbn [fst snd] in *; bind_inv H'; destruct a as [oj j].
      pose proof (fo_mono _ _ _ _ _ HF _ _ _ _ Hp E); destruct oj as [v|]; [destruct (f y v)|]; injection H' as <- <-; assumption.
    - intros [t y] Hp; exact (fo_mono_prune _ _ _ _ _ HF _ Hp).
    - intros F F' [t y] r Hf H; unfold map_next in *; cbn [fst snd] in *; bind_inv H; rewrite (fo_steady _ _ _ _ _ HF _ _ _ _ Hf E); exact H.
  Qed.
  Lemma map_ends {B G} (f : G -> A -> G * B) g : ends (map_tree P f g) (fun s => D (fst s)).
  Proof.
    split; cbn [p_next p_state map_tree].
    - intros F [s x] s' H; unfold map_next in H; cbn [fst snd] in H; bind_inv H; destruct a as [[v|] i]; [destruct (f x v); discriminate|].
      injection H as <-; exact (en_end _ _ HD _ _ _ E).
    - intros F [s x] o s' Hs H; unfold map_next in H; cbn [fst snd] in *; bind_inv H; destruct a as [oi i].
      destruct (en_stay _ _ HD _ _ _ _ Hs E) as [-> Hi]; injection H as <- <-; auto.
  Qed.

  Lemma depth_follows dof limit : follows b (prune_depth P dof limit) (prune_depth Q dof limit) R past.
  Proof.
    split; cbn [p_next p_path p_prune p_state prune_depth]; [| |exact (fo_prune _ _ _ _ _ HF)| | |exact (fo_mono_prune _ _ _ _ _ HF)|].
    - intros F s t o s' HR H Hb; unfold prune_depth_next in *; bind_inv H; destruct a as [oi i].
      assert (Hbi : oi = None -> b = true) by (intros ->; injection H as <- _; apply Hb; reflexivity).
      destruct (fo_next _ _ _ _ _ HF _ _ _ _ _ HR E Hbi) as (t' & -> & HR'); cbn [bindR].
      destruct oi as [v|]; [|injection H as <- <-; eauto].
      rewrite <- (fo_path _ _ _ _ _ HF _ _ HR'); bind_inv H; cbn [bindR]; injection H as <- <-; eexists; split; [reflexivity|].
      destruct (a =? limit)%N; [apply (fo_prune _ _ _ _ _ HF)|]; exact HR'.
    - exact (fo_path _ _ _ _ _ HF).
    - intros F s t s' o t' HR H H'; unfold prune_depth_next in *; bind_inv H; bind_inv H'; destruct a as [oi i], a0 as [oj j].
      destruct oi as [v|]; [bind_inv H|].
      pose proof (fo_past _ _ _ _ _ HF _ _ _ _ _ _ HR E E0); destruct oj as [v|]; [bind_inv H'|]; injection H' as <- <-; [|assumption].
      destruct (a =? limit)%N; [apply (fo_mono_prune _ _ _ _ _ HF)|]; assumption.
    - intros F t o t' Hp H'; unfold prune_depth_next in *; bind_inv H'; destruct a as [oj j].
      pose proof (fo_mono _ _ _ _ _ HF _ _ _ _ Hp E); destruct oj as [v|]; [bind_inv H'|]; injection H' as <- <-; [|assumption].
      destruct (a =? limit)%N; [apply (fo_mono_prune _ _ _ _ _ HF)|]; assumption.
    - intros F F' t r Hf H; unfold prune_depth_next in *; bind_inv H; rewrite (fo_steady _ _ _ _ _ HF _ _ _ _ Hf E); exact H.
  Qed.
  Lemma depth_ends dof limit : ends (prune_depth P dof limit) D.
  Proof.
    split; cbn [p_next p_state prune_depth].
    - intros F s s' H; unfold prune_depth_next in H; bind_inv H; destruct a as [[v|] i]; [bind_inv H|].
      injection H as <-; exact (en_end _ _ HD _ _ _ E).
    - intros F s o s' Hs H; unfold prune_depth_next in H; bind_inv H; destruct a as [oi i].
      destruct (en_stay _ _ HD _ _ _ _ Hs E) as [-> Hi]; injection H as <- <-; auto.
  Qed.

  Lemma prune_follows {G} (f : G -> list N -> A -> G * bool) start g : follows b (prune_from P f start g) (prune_from Q f start g)
    (fun s t => R (pr_inner s) (pr_inner t) /\ pr_clos s = pr_clos t /\ pr_pruned s = pr_pruned t /\ pr_path s = pr_path t) (fun t => past (pr_inner t)).
  Proof.
    assert (Hmono : forall F t o t', past (pr_inner t) -> prune_next Q f F t = Ok (o, t') -> past (pr_inner t')).
    { unfold prune_next; induction F as [|F IH]; intros t o t' Hp H; [discriminate|]; cbn [loop] in H; unfold prune_body at 1 in H.
      destruct (p_next Q F (pr_inner t)) as [[oj j]| | |] eqn:E; cbn [bindR] in H; try discriminate.
      pose proof (fo_mono _ _ _ _ _ HF _ _ _ _ Hp E) as Hj; destruct oj as [v|]; [|injection H as <- <-; exact Hj].
      destruct (prune_resize _ _ _) as [[pd pa]| | |]; cbn [bindR] in H; try discriminate.
      destruct (f (pr_clos t) (p_path Q j) v) as [g' [|]]; [|injection H as <- <-; exact Hj].
      destruct (if 0 <? length pa then _ else _) as [pd'| | |]; cbn [bindR] in H; try discriminate.
      apply IH in H; [exact H|]; apply (fo_mono_prune _ _ _ _ _ HF); exact Hj. }
    split; cbn [p_next p_path p_prune p_state prune_from].
    - unfold prune_next; induction f0 as [|F IH]; intros s t o s' (HR & Ec & Ep & Eq) H Hb; [discriminate|]; cbn [loop] in H |- *; unfold prune_body at 1 in H; unfold prune_body at 1.
      rewrite <- Ec, <- Ep, <- Eq; destruct (p_next P F (pr_inner s)) as [[oi i]| | |] eqn:E; cbn [bindR] in H; try discriminate.
      assert (Hbi : oi = None -> b = true) by (intros ->; injection H as <- _; apply Hb; reflexivity).
      destruct (fo_next _ _ _ _ _ HF _ _ _ _ _ HR E Hbi) as (t' & -> & HR'); cbn [bindR].
      destruct oi as [v|]; [|injection H as <- <-; eexists; split; [reflexivity|]; cbn; auto].
      rewrite <- (fo_path _ _ _ _ _ HF _ _ HR'); destruct (prune_resize _ _ _) as [[pd pa]| | |]; cbn [bindR] in H |- *; try discriminate.
      destruct (f (pr_clos s) (p_path P i) v) as [g' [|]]; [|injection H as <- <-; eexists; split; [reflexivity|]; cbn; auto].
      destruct (if 0 <? length pa then _ else _) as [pd'| | |]; cbn [bindR] in H |- *; try discriminate.
      eapply IH; [|exact H|exact Hb]; cbn; repeat split; apply (fo_prune _ _ _ _ _ HF); exact HR'.
    - intros s t (_ & _ & _ & E); exact E.
    - intros s t (HR & Ec & Ep & Eq); cbn; repeat split; auto; apply (fo_prune _ _ _ _ _ HF); exact HR.
    - unfold prune_next; induction f0 as [|F IH]; intros s t s' o t' (HR & Ec & Ep & Eq) H H'; [discriminate|]; cbn [loop] in H, H'; unfold prune_body at 1 in H; unfold prune_body at 1 in H'.
      rewrite <- Ec, <- Ep, <- Eq in H'; destruct (p_next P F (pr_inner s)) as [[oi i]| | |] eqn:E; cbn [bindR] in H; try discriminate.
      destruct (p_next Q F (pr_inner t)) as [[oj j]| | |] eqn:E'; cbn [bindR] in H'; try discriminate.
      destruct oi as [v|].
      + destruct (fo_next _ _ _ _ _ HF _ _ _ _ _ HR E ltac:(discriminate)) as (t1 & E1 & HR'); rewrite E1 in E'; injection E' as <- <-.
        rewrite <- (fo_path _ _ _ _ _ HF _ _ HR') in H'; destruct (prune_resize _ _ _) as [[pd pa]| | |]; cbn [bindR] in H, H'; try discriminate.
        destruct (f (pr_clos s) (p_path P i) v) as [g' [|]]; [|discriminate].
        destruct (if 0 <? length pa then _ else _) as [pd'| | |]; cbn [bindR] in H, H'; try discriminate.
        eapply IH; [|exact H|exact H']; cbn; repeat split; apply (fo_prune _ _ _ _ _ HF); exact HR'.
      + pose proof (fo_past _ _ _ _ _ HF _ _ _ _ _ _ HR E E') as Hj; destruct oj as [v|]; [|injection H' as <- <-; exact Hj].
        destruct (prune_resize _ _ _) as [[pd pa]| | |]; cbn [bindR] in H'; try discriminate.
        destruct (f (pr_clos s) (p_path Q j) v) as [g' [|]]; [|injection H' as <- <-; exact Hj].
        destruct (if 0 <? length pa then _ else _) as [pd'| | |]; cbn [bindR] in H'; try discriminate.
        apply Hmono in H'; [exact H'|]; apply (fo_mono_prune _ _ _ _ _ HF); exact Hj.
    - exact Hmono.
    - intros t Hp; apply (fo_mono_prune _ _ _ _ _ HF); exact Hp.
    - unfold prune_next; apply loop_steady; intros F F' t r Hf H; unfold prune_body in *; bind_inv H; rewrite (fo_steady _ _ _ _ _ HF _ _ _ _ Hf E); exact H.
  Qed.
  Lemma prune_ends {G} (f : G -> list N -> A -> G * bool) start g : ends (prune_from P f start g) (fun s => D (pr_inner s)).
  Proof.
    split; cbn [p_next p_state prune_from].
    - unfold prune_next; induction f0 as [|F IH]; intros s s' H; [discriminate|]; cbn [loop] in H; unfold prune_body at 1 in H.
      destruct (p_next P F (pr_inner s)) as [[[v|] i]| | |] eqn:E; cbn [bindR] in H; try discriminate; [|injection H as <-; exact (en_end _ _ HD _ _ _ E)].
      destruct (prune_resize _ _ _) as [[pd pa]| | |]; cbn [bindR] in H; try discriminate.
      destruct (f (pr_clos s) (p_path P i) v) as [g' [|]]; [|discriminate].
      destruct (if 0 <? length pa then _ else _) as [pd'| | |]; cbn [bindR] in H; try discriminate.
      exact (IH _ _ H).
    - intros [|F] s o s' Hs H; [discriminate|]; unfold prune_next in H; cbn [loop] in H; unfold prune_body at 1 in H.
      destruct (p_next P F (pr_inner s)) as [[oi i]| | |] eqn:E; cbn [bindR] in H; try discriminate.
      destruct (en_stay _ _ HD _ _ _ _ Hs E) as [-> Hi]; injection H as <- <-; auto.
  Qed.

  Lemma bprune_follows {G} (f : G -> list N -> A -> G * bool) g : follows b (bprune P f g) (bprune Q f g) (fun s t => R (fst s) (fst t) /\ snd s = snd t) (fun t => past (fst t)).
  Proof.
    assert (Hmono : forall F t o t', past (fst t) -> bprune_next Q f F t = Ok (o, t') -> past (fst t')).
    { unfold bprune_next; induction F as [|F IH]; intros t o t' Hp H; [discriminate|]; cbn [loop] in H; unfold bprune_body at 1 in H.
      destruct (p_next Q F (fst t)) as [[oj j]| | |] eqn:E; cbn [bindR] in H; try discriminate.
      pose proof (fo_mono _ _ _ _ _ HF _ _ _ _ Hp E) as Hj; destruct oj as [v|]; [|injection H as <- <-; exact Hj].
      destruct (f (snd t) (p_path Q j) v) as [g' [|]]; [|injection H as <- <-; exact Hj].
      apply IH in H; [exact H|]; apply (fo_mono_prune _ _ _ _ _ HF); exact Hj. }
    split; cbn [p_next p_path p_prune p_state bprune].
    - unfold bprune_next; induction f0 as [|F IH]; intros s t o s' (HR & Ec) H Hb; [discriminate|]; cbn [loop] in H |- *; unfold bprune_body at 1 in H; unfold bprune_body at 1.
      rewrite <- Ec; destruct (p_next P F (fst s)) as [[oi i]| | |] eqn:E; cbn [bindR] in H; try discriminate.
      assert (Hbi : oi = None -> b = true) by (intros ->; injection H as <- _; apply Hb; reflexivity).
      destruct (fo_next _ _ _ _ _ HF _ _ _ _ _ HR E Hbi) as (t' & -> & HR'); cbn [bindR].
      destruct oi as [v|]; [|injection H as <- <-; eexists; split; [reflexivity|]; cbn; auto].
      rewrite <- (fo_path _ _ _ _ _ HF _ _ HR').
      destruct (f (snd s) (p_path P i) v) as [g' [|]]; [|injection H as <- <-; eexists; split; [reflexivity|]; cbn; auto].
      eapply IH; [|exact H|exact Hb]; cbn; split; [|reflexivity]; apply (fo_prune _ _ _ _ _ HF); exact HR'.
    - intros s t (HR & _); exact (fo_path _ _ _ _ _ HF _ _ HR).
    - intros s t (HR & Ec); cbn; split; auto; apply (fo_prune _ _ _ _ _ HF); exact HR.
    - unfold bprune_next; induction f0 as [|F IH]; intros s t s' o t' (HR & Ec) H H'; [discriminate|]; cbn [loop] in H, H'; unfold bprune_body at 1 in H; unfold bprune_body at 1 in H'.
      rewrite <- Ec in H'; destruct (p_next P F (fst s)) as [[oi i]| | |] eqn:E; cbn [bindR] in H; try discriminate.
      destruct (p_next Q F (fst t)) as [[oj j]| | |] eqn:E'; cbn [bindR] in H'; try discriminate.
      destruct oi as [v|].
      + destruct (fo_next _ _ _ _ _ HF _ _ _ _ _ HR E ltac:(discriminate)) as (t1 & E1 & HR'); rewrite E1 in E'; injection E' as <- <-.
        rewrite <- (fo_path _ _ _ _ _ HF _ _ HR') in H'.
        destruct (f (snd s) (p_path P i) v) as [g' [|]]; [|discriminate].
        eapply IH; [|exact H|exact H']; cbn; split; [|reflexivity]; apply (fo_prune _ _ _ _ _ HF); exact HR'.
      + pose proof (fo_past _ _ _ _ _ HF _ _ _ _ _ _ HR E E') as Hj; destruct oj as [v|]; [|injection H' as <- <-; exact Hj].
        destruct (f (snd s) (p_path Q j) v) as [g' [|]]; [|injection H' as <- <-; exact Hj].
        apply Hmono in H'; [exact H'|]; apply (fo_mono_prune _ _ _ _ _ HF); exact Hj.
    - exact Hmono.
    - intros t Hp; apply (fo_mono_prune _ _ _ _ _ HF); exact Hp.
    - unfold bprune_next; apply loop_steady; intros F F' t r Hf H; unfold bprune_body in *; bind_inv H; rewrite (fo_steady _ _ _ _ _ HF _ _ _ _ Hf E); exact H.
  Qed.
  Lemma bprune_ends {G} (f : G -> list N -> A -> G * bool) g : ends (bprune P f g) (fun s => D (fst s)).
  Proof.
    split; cbn [p_next p_state bprune].
    - unfold bprune_next; induction f0 as [|F IH]; intros s s' H; [discriminate|]; cbn [loop] in H; unfold bprune_body at 1 in H.
      destruct (p_next P F (fst s)) as [[[v|] i]| | |] eqn:E; cbn [bindR] in H; try discriminate; [|injection H as <-; exact (en_end _ _ HD _ _ _ E)].
      destruct (f (snd s) (p_path P i) v) as [g' [|]]; [|discriminate].
      exact (IH _ _ H).
    - intros [|F] s o s' Hs H; [discriminate|]; unfold bprune_next in H; cbn [loop] in H; unfold bprune_body at 1 in H.
      destruct (p_next P F (fst s)) as [[oi i]| | |] eqn:E; cbn [bindR] in H; try discriminate.
      destruct (en_stay _ _ HD _ _ _ _ Hs E) as [-> Hi]; injection H as <- <-; auto.
  Qed.
End Stages.

Section Chains.
  Context {V : Type} (b : bool) (P Q : pipe V) (R : p_state P -> p_state Q -> Prop) (past : p_state Q -> Prop) (D : p_state P -> Prop).
  Hypothesis HF : follows b P Q R past.
  Hypothesis HD : ends P D.
  Hypothesis Hinit : R (p_init P) (p_init Q).
  Variable dof : list N -> Res N.
  Variable start : list N.

  Lemma chain_follows {A} (c : chain V A) : exists R',
    follows b (run_chain dof start P c) (run_chain dof start Q c) R' (fun t => past (source_state dof start Q c t)) /\
    ends (run_chain dof start P c) (fun s => D (source_state dof start P c s)) /\
    R' (p_init (run_chain dof start P c)) (p_init (run_chain dof start Q c)) /\
    (forall s t, R' s t -> R (source_state dof start P c s) (source_state dof start Q c t)).
  Proof.
    induction c as [|? ? G c IH g f|? G c IH g f|? G c IH g f|? c IH d]; [exists R; auto| | | |]; destruct IH as (R' & H1 & H2 & H3 & H4); cbn [run_chain source_state].
    - eexists; split; [exact (map_follows b _ _ R' _ H1 f g)|]; split; [exact (map_ends _ _ H2 f g)|]; split; [cbn; auto|]; intros s t [HR _]; exact (H4 _ _ HR).
    - eexists; split; [exact (prune_follows b _ _ R' _ H1 (fun g _ a => f g a) [] g)|]; split; [exact (prune_ends _ _ H2 (fun g _ a => f g a) [] g)|]; split; [cbn; auto|]; intros s t [HR _]; exact (H4 _ _ HR).
    - eexists; split; [exact (prune_follows b _ _ R' _ H1 f start g)|]; split; [exact (prune_ends _ _ H2 f start g)|]; split; [cbn; auto|]; intros s t [HR _]; exact (H4 _ _ HR).
    - eexists; split; [exact (depth_follows b _ _ R' _ H1 dof d)|]; split; [exact (depth_ends _ _ H2 dof d)|]; split; [cbn; auto|]; intros s t HR; exact (H4 _ _ HR).
  Qed.
  Lemma bchain_follows {A} (c : chain V A) : exists R',
    follows b (run_chain_binary dof P c) (run_chain_binary dof Q c) R' (fun t => past (source_state_binary dof Q c t)) /\
    ends (run_chain_binary dof P c) (fun s => D (source_state_binary dof P c s)) /\
    R' (p_init (run_chain_binary dof P c)) (p_init (run_chain_binary dof Q c)) /\
    (forall s t, R' s t -> R (source_state_binary dof P c s) (source_state_binary dof Q c t)).
  Proof.
    induction c as [|? ? G c IH g f|? G c IH g f|? G c IH g f|? c IH d]; [exists R; auto| | | |]; destruct IH as (R' & H1 & H2 & H3 & H4); cbn [run_chain_binary source_state_binary].
    - eexists; split; [exact (map_follows b _ _ R' _ H1 f g)|]; split; [exact (map_ends _ _ H2 f g)|]; split; [cbn; auto|]; intros s t [HR _]; exact (H4 _ _ HR).
    - eexists; split; [exact (bprune_follows b _ _ R' _ H1 (fun g _ a => f g a) g)|]; split; [exact (bprune_ends _ _ H2 (fun g _ a => f g a) g)|]; split; [cbn; auto|]; intros s t [HR _]; exact (H4 _ _ HR).
    - eexists; split; [exact (bprune_follows b _ _ R' _ H1 f g)|]; split; [exact (bprune_ends _ _ H2 f g)|]; split; [cbn; auto|]; intros s t [HR _]; exact (H4 _ _ HR).
    - eexists; split; [exact (depth_follows b _ _ R' _ H1 dof d)|]; split; [exact (depth_ends _ _ H2 dof d)|]; split; [cbn; auto|]; intros s t HR; exact (H4 _ _ HR).
  Qed.
End Chains.

(** ** The ends of the pipelines *)
Section Ends.
  Context {A O C St : Type}.
  Context (start : C -> St) (must_close : St -> list N -> Res bool) (drained : St -> option C) (close_top : St -> Res (St + O * C)) (push : St -> A -> list N -> Res St).
  (** Something is on the local stack. *)
  Context (full : St -> Prop).
  Hypothesis full_push : forall st a p st', push st a p = Ok st' -> full st'.
  Hypothesis full_close : forall st st', close_top st = Ok (inl st') -> full st'.
  Hypothesis full_drained : forall st, full st -> drained st = None.
  Hypothesis drained_start : forall c, drained (start c) = Some c.
  Notation body P := (consume_body P must_close drained close_top push).
  Notation next P := (consume_next P start must_close drained close_top push).
  Notation drain := (loop (drain_body drained close_top)).
  Notation close path := (loop (close_body must_close close_top path)).

  Lemma drain_full f : forall st r c, full st -> drain f st = Ok (r, c) -> r <> None.
  Proof.
    induction f as [|f IH]; intros st r c Hs H; [discriminate|]; cbn [loop] in H; unfold drain_body at 1 in H; rewrite (full_drained _ Hs) in H.
    destruct (close_top st) as [[st'|[o c']]| | |] eqn:E; cbn [bindR] in H; try discriminate; [|injection H as <- _; discriminate].
    exact (IH _ _ _ (full_close _ _ E) H).
  Qed.

  Section One.
    Context (P : pipe A).
    Lemma body_full f : forall i ahead st o s', ahead <> None \/ full st -> loop (body P) f (i, ahead, st) = Ok (o, s') -> o <> None.
    Proof.
      induction f as [|f IH]; intros i ahead st o s' Ha H; [discriminate|]; cbn [loop] in H; unfold consume_body at 1 in H.
      destruct (match ahead with Some item => _ | None => _ end) as [[oi j]| | |] eqn:E; cbn [bindR] in H; try discriminate.
      destruct oi as [item|].
      - destruct (close (p_path P j) f st) as [[st'|[out c]]| | |]; cbn [bindR] in H; try discriminate; [|injection H as <- _; discriminate].
        destruct (push st' item (p_path P j)) as [st2| | |] eqn:Ep; cbn [bindR] in H; try discriminate.
        exact (IH _ _ _ _ _ (or_intror (full_push _ _ _ _ Ep)) H).
      - destruct ahead as [a|]; [discriminate|]; destruct Ha as [Ha|Ha]; [congruence|].
        destruct (drain f st) as [[r c]| | |] eqn:Ed; cbn [bindR] in H; try discriminate; injection H as <- _; exact (drain_full _ _ _ _ Ha Ed).
    Qed.
    (** An item that was read ahead is part of a result. *)
    Lemma ahead_some f i a c o s' : next P f (i, Some a, c) = Ok (o, s') -> o <> None.
    Proof. apply body_full; left; discriminate. Qed.

    Context (D : p_state P -> Prop) (HD : ends P D).
    Lemma body_end f : forall i ahead st o i' c', loop (body P) f (i, ahead, st) = Ok (o, (i', None, c')) -> D i'.
    Proof.
      induction f as [|f IH]; intros i ahead st o i' c' H; [discriminate|]; cbn [loop] in H; unfold consume_body at 1 in H.
      destruct (match ahead with Some item => _ | None => _ end) as [[oi j]| | |] eqn:E; cbn [bindR] in H; try discriminate.
      destruct oi as [item|].
      - destruct (close (p_path P j) f st) as [[st'|[out c]]| | |]; cbn [bindR] in H; try discriminate.
        destruct (push st' item (p_path P j)) as [st2| | |] eqn:Ep; cbn [bindR] in H; try discriminate; exact (IH _ _ _ _ _ _ H).
      - destruct ahead as [a|]; [discriminate|].
        destruct (drain f st) as [[r c]| | |] eqn:Ed; cbn [bindR] in H; try discriminate; injection H as _ <- _; exact (en_end _ _ HD _ _ _ E).
    Qed.
    Lemma dead_next f i c o s' : D i -> next P f (i, None, c) = Ok (o, s') -> o = None /\ exists i', s' = (i', None, c) /\ D i'.
    Proof.
      destruct f as [|f]; intros Hd H; [discriminate|]; unfold consume_next in H; cbn [loop] in H; unfold consume_body at 1 in H.
      destruct (p_next P f i) as [[oi j]| | |] eqn:E; cbn [bindR] in H; try discriminate.
      destruct (en_stay _ _ HD _ _ _ _ Hd E) as [-> Hj].
      destruct f as [|f]; [discriminate|]; cbn [loop] in H; unfold drain_body at 1 in H; rewrite drained_start in H; cbn [bindR] in H.
      injection H as <- <-; eauto.
    Qed.
    Lemma dead_calls f k : forall i c os s', D i -> calls (next P) k (i, None, c) f = Ok (os, s') -> os = repeat None k.
    Proof.
      induction k as [|k IH]; intros i c os s' Hd H; cbn [calls] in H; [injection H as <- _; reflexivity|].
      bind_inv H; destruct a as [o s1]; destruct (dead_next _ _ _ _ _ Hd E) as (-> & i' & -> & Hi').
      bind_inv H; destruct a as [os' s2]; injection H as <- _; cbn [repeat]; f_equal; exact (IH _ _ _ _ Hi' E0).
    Qed.
  End One.

  Context (b : bool) (P Q : pipe A) (R : p_state P -> p_state Q -> Prop) (past : p_state Q -> Prop) (D : p_state P -> Prop).
  Hypothesis HF : follows b P Q R past.
  Hypothesis HD : ends P D.

  Lemma body_steady : steady (loop (body Q)).
  Proof.
    apply loop_steady; intros f f' [[i ahead] st] r Hf H; unfold consume_body in *.
    destruct (match ahead with Some item => _ | None => p_next Q f i end) as [[oi j]| | |] eqn:E; cbn [bindR] in H; try discriminate.
    assert (E' : match ahead with Some item => Ok (Some item, i) | None => p_next Q f' i end = Ok (oi, j)).
    { destruct ahead; [exact E|]; exact (fo_steady _ _ _ _ _ HF _ _ _ _ Hf E). }
    rewrite E'; cbn [bindR]; destruct oi as [item|].
    - bind_inv H; rewrite (loop_steady (close_body must_close close_top (p_path Q j)) (fun _ _ _ _ _ e => e) _ _ _ _ Hf E0); exact H.
    - bind_inv H; rewrite (loop_steady (drain_body drained close_top) (fun _ _ _ _ _ e => e) _ _ _ _ Hf E0); exact H.
  Qed.
  Lemma next_steady : steady (next Q).
  Proof. intros f f' [[i ahead] c] r Hf H; exact (body_steady _ _ _ _ Hf H). Qed.
  Lemma calls_steady k : steady (fun f s => calls (next Q) k s f).
  Proof.
    induction k as [|k IH]; intros f f' s r Hf H; [exact H|]; cbn [calls] in *.
    bind_inv H; destruct a as [o s1]; rewrite (next_steady _ _ _ _ Hf E); cbn [bindR]; bind_inv H; rewrite (IH _ _ _ _ Hf E0); exact H.
  Qed.

  Lemma body_follows f : forall i j ahead st o i' ahead' c', R i j -> loop (body P) f (i, ahead, st) = Ok (o, (i', ahead', c')) -> (ahead' = None -> b = true) ->
    exists j', loop (body Q) f (j, ahead, st) = Ok (o, (j', ahead', c')) /\ R i' j'.
  Proof.
    induction f as [|f IH]; intros i j ahead st o i' ahead' c' HR H Hb; [discriminate|]; cbn [loop] in H |- *; unfold consume_body at 1 in H; unfold consume_body at 1.
    destruct (match ahead with Some item => _ | None => p_next P f i end) as [[oi i1]| | |] eqn:E; cbn [bindR] in H; try discriminate.
    assert (Hin : exists j1, match ahead with Some item => Ok (Some item, j) | None => p_next Q f j end = Ok (oi, j1) /\ R i1 j1).
    { destruct ahead as [a|]; [injection E as <- <-; eauto|]; apply (fo_next _ _ _ _ _ HF _ _ _ _ _ HR E).
      intros ->; destruct (drain f st) as [[r c]| | |]; cbn [bindR] in H; try discriminate; injection H as _ _ <- _; apply Hb; reflexivity. }
    destruct Hin as (j1 & -> & HR1); cbn [bindR].
    destruct oi as [item|].
    - rewrite <- (fo_path _ _ _ _ _ HF _ _ HR1).
      destruct (close (p_path P i1) f st) as [[st'|[out c]]| | |]; cbn [bindR] in H |- *; try discriminate; [|injection H as <- <- <- <-; eauto].
      destruct (push st' item (p_path P i1)) as [st2| | |] eqn:Ep; cbn [bindR] in H |- *; try discriminate; exact (IH _ _ _ _ _ _ _ _ HR1 H Hb).
    - destruct (drain f st) as [[r c]| | |] eqn:Ed; cbn [bindR] in H |- *; try discriminate; injection H as <- <- <- <-; eauto.
  Qed.
  Lemma body_mono f : forall j ahead st o s', past j -> loop (body Q) f (j, ahead, st) = Ok (o, s') -> past (fst (fst s')).
  Proof.
    induction f as [|f IH]; intros j ahead st o s' Hp H; [discriminate|]; cbn [loop] in H; unfold consume_body at 1 in H.
    destruct (match ahead with Some item => _ | None => p_next Q f j end) as [[oi j1]| | |] eqn:E; cbn [bindR] in H; try discriminate.
    assert (Hp1 : past j1) by (destruct ahead as [a|]; [injection E as _ <-; exact Hp|exact (fo_mono _ _ _ _ _ HF _ _ _ _ Hp E)]).
    destruct oi as [item|].
    - destruct (close (p_path Q j1) f st) as [[st'|[out c]]| | |]; cbn [bindR] in H; try discriminate; [|injection H as _ <-; exact Hp1].
      destruct (push st' item (p_path Q j1)) as [st2| | |] eqn:Ep; cbn [bindR] in H; try discriminate; exact (IH _ _ _ _ _ Hp1 H).
    - destruct (drain f st) as [[r c]| | |] eqn:Ed; cbn [bindR] in H; try discriminate; injection H as _ <-; exact Hp1.
  Qed.
  Lemma body_past f : forall i j ahead st o i' c' o2 s2, R i j -> loop (body P) f (i, ahead, st) = Ok (o, (i', None, c')) -> loop (body Q) f (j, ahead, st) = Ok (o2, s2) ->
    past (fst (fst s2)).
  Proof.
    induction f as [|f IH]; intros i j ahead st o i' c' o2 s2 HR H H2; [discriminate|]; cbn [loop] in H, H2; unfold consume_body at 1 in H; unfold consume_body at 1 in H2.
    destruct (match ahead with Some item => _ | None => p_next P f i end) as [[oi i1]| | |] eqn:E; cbn [bindR] in H; try discriminate.
    destruct (match ahead with Some item => _ | None => p_next Q f j end) as [[oj j1]| | |] eqn:E2; cbn [bindR] in H2; try discriminate.
    destruct oi as [item|].
    - assert (Hin : oj = Some item /\ R i1 j1).
      { destruct ahead as [a|]; [injection E as <- <-; injection E2 as <- <-; auto|].
        destruct (fo_next _ _ _ _ _ HF _ _ _ _ _ HR E ltac:(discriminate)) as (t & Et & Rt); rewrite Et in E2; injection E2 as <- <-; auto. }
      destruct Hin as (-> & HR1); rewrite <- (fo_path _ _ _ _ _ HF _ _ HR1) in H2.
      destruct (close (p_path P i1) f st) as [[st'|[out c]]| | |]; cbn [bindR] in H, H2; try discriminate.
      destruct (push st' item (p_path P i1)) as [st2| | |] eqn:Ep; cbn [bindR] in H, H2; try discriminate; exact (IH _ _ _ _ _ _ _ _ _ HR1 H H2).
    - destruct ahead as [a|]; [discriminate|]; pose proof (fo_past _ _ _ _ _ HF _ _ _ _ _ _ HR E E2) as Hp.
      destruct oj as [item|].
      + destruct (close (p_path Q j1) f st) as [[st'|[out c]]| | |]; cbn [bindR] in H2; try discriminate; [|injection H2 as _ <-; exact Hp].
        destruct (push st' item (p_path Q j1)) as [st2| | |] eqn:Ep; cbn [bindR] in H2; try discriminate; exact (body_mono _ _ _ _ _ _ Hp H2).
      + destruct (drain f st) as [[r c]| | |] eqn:Ed; cbn [bindR] in H2; try discriminate; injection H2 as _ <-; exact Hp.
  Qed.

  (** All the results but the last one of the leading machine. *)
  Lemma calls_follow f k : forall i j ahead c os s1 o s2, R i j ->
    calls (next P) k (i, ahead, c) f = Ok (os, s1) -> next P f s1 = Ok (Some o, s2) ->
    exists j', calls (next Q) k (j, ahead, c) f = Ok (os, (j', snd (fst s1), snd s1)) /\ R (fst (fst s1)) j'.
  Proof.
    induction k as [|k IH]; intros i j ahead c os s1 o s2 HR H Hn; cbn [calls] in *; [injection H as <- <-; eauto|].
    bind_inv H; destruct a as [o1 [[i1 a1] c1]]; bind_inv H; destruct a as [os1 s1']; injection H as <- <-.
    destruct (body_follows f i j ahead (start c) o1 i1 a1 c1 HR E) as (j1 & E1 & HR1).
    { intros ->; pose proof (body_end P D HD _ _ _ _ _ _ _ E) as Hd.
      assert (H : calls (next P) (k + 1) (i1, None, c1) f = Ok (os1 ++ [Some o], s2)).
      { clear - E0 Hn; revert i1 c1 os1 E0; generalize (@None A); induction k as [|k IHk]; intros a i1 c1 os1 E0; cbn [calls Nat.add] in *.
        - injection E0 as <- <-; rewrite Hn; reflexivity.
        - bind_inv E0; destruct a0 as [o1 [[i2 a2] c2]]; cbn [bindR]; bind_inv E0; destruct a0 as [os2 s3]; injection E0 as <- <-.
          rewrite (IHk _ _ _ _ E1); reflexivity. }
      apply (dead_calls P D HD _ _ _ _ _ _ Hd) in H; rewrite repeat_app in H; apply app_inj_tail in H as [_ H]; discriminate. }
    destruct (IH _ _ _ _ _ _ _ _ HR1 E0 Hn) as (j' & Ej & HR').
    exists j'; split; [|exact HR']; unfold consume_next at 1; rewrite E1; cbn [bindR]; rewrite Ej; reflexivity.
  Qed.
  Lemma calls_follow_all f k : b = true -> forall i j ahead c os s1, R i j ->
    calls (next P) k (i, ahead, c) f = Ok (os, s1) ->
    exists j', calls (next Q) k (j, ahead, c) f = Ok (os, (j', snd (fst s1), snd s1)) /\ R (fst (fst s1)) j'.
  Proof.
    intros Hb; induction k as [|k IH]; intros i j ahead c os s1 HR H; cbn [calls] in *; [injection H as <- <-; eauto|].
    bind_inv H; destruct a as [o1 [[i1 a1] c1]]; bind_inv H; destruct a as [os1 s1']; injection H as <- <-.
    destruct (body_follows f i j ahead (start c) o1 i1 a1 c1 HR E (fun _ => Hb)) as (j1 & E1 & HR1).
    destruct (IH _ _ _ _ _ _ HR1 E0) as (j' & Ej & HR').
    exists j'; split; [|exact HR']; unfold consume_next at 1; rewrite E1; cbn [bindR]; rewrite Ej; reflexivity.
  Qed.
  Lemma calls_mono f k : forall j ahead c os s', past j -> calls (next Q) k (j, ahead, c) f = Ok (os, s') -> past (fst (fst s')).
  Proof.
    induction k as [|k IH]; intros j ahead c os s' Hp H; cbn [calls] in H; [injection H as _ <-; exact Hp|].
    bind_inv H; destruct a as [o [[j1 a1] c1]]; bind_inv H; destruct a as [os1 s1']; injection H as _ <-.
    exact (IH _ _ _ _ _ (body_mono _ _ _ _ _ _ Hp E) E0).
  Qed.
  Lemma calls_past f k : forall i j ahead c os i' c' os2 s2, R i j -> 0 < k ->
    calls (next P) k (i, ahead, c) f = Ok (os, (i', None, c')) -> calls (next Q) k (j, ahead, c) f = Ok (os2, s2) -> past (fst (fst s2)).
  Proof.
    induction k as [|k IH]; intros i j ahead c os i' c' os2 s2 HR Hk H H2; [lia|]; cbn [calls] in H, H2.
    bind_inv H; destruct a as [o1 [[i1 a1] c1]]; bind_inv H; destruct a as [os1 s1']; injection H as <- ->.
    bind_inv H2; destruct a as [o1' [[j1 a1'] c1']]; bind_inv H2; destruct a as [os1' s1'']; injection H2 as <- ->.
    destruct a1 as [a1|].
    - destruct (body_follows f i j ahead (start c) o1 i1 (Some a1) c1 HR E ltac:(discriminate)) as (j2 & E3 & HR1).
      unfold consume_next in E1; rewrite E3 in E1; injection E1 as <- <- <- <-.
      destruct k as [|k]; [discriminate|]; exact (IH _ _ _ _ _ _ _ _ _ HR1 (Nat.lt_0_succ k) E0 E2).
    - exact (calls_mono _ _ _ _ _ _ _ (body_past _ _ _ _ _ _ _ _ _ _ HR E E1) E2).
  Qed.
End Ends.

(** ** The start of the pipelines *)
Lemma polls_app {Src T} (poll : Src -> option T * Src) m n : forall c, polls poll (m + n) c = polls poll m c ++ polls poll n (polled poll m c).
Proof. induction m as [|m IH]; intros c; [reflexivity|]; cbn [polls polled Nat.add]; destruct (poll c) as [o c']; cbn [snd app]; rewrite IH; reflexivity. Qed.
Lemma polled_S {Src T} (poll : Src -> option T * Src) m : forall c, polled poll (S m) c = snd (poll (polled poll m c)).
Proof. induction m as [|m IH]; intros c; [reflexivity|]; change (polled poll (S (S m)) c) with (polled poll (S m) (snd (poll c))); rewrite IH; reflexivity. Qed.
Lemma polls_length {Src T} (poll : Src -> option T * Src) m : forall c, length (polls poll m c) = m.
Proof. induction m as [|m IH]; intros c; [reflexivity|]; cbn [polls]; destruct (poll c); cbn [length]; rewrite IH; reflexivity. Qed.
Lemma polls_nth {Src T} (poll : Src -> option T * Src) n c l m o : polls poll n c = l -> nth_error l m = Some o -> poll (polled poll m c) = (o, polled poll (S m) c).
Proof.
  intros <-; intros E; assert (Hm : m < n) by (rewrite <- (polls_length poll n c); apply nth_error_Some; congruence).
  rewrite polled_S; replace n with (m + S (n - m - 1)) in E by lia; rewrite polls_app, nth_error_app2, polls_length, Nat.sub_diag in E by (rewrite polls_length; lia).
  cbn [polls] in E; destruct (poll (polled poll m c)) as [o' c']; cbn [nth_error snd] in *; congruence.
Qed.

Lemma skipn_tl {A} m : forall l : list A, skipn (S m) l = tl (skipn m l).
Proof. induction m as [|m IH]; intros [|x l]; try reflexivity; exact (IH l). Qed.

Section Base.
  Context {Src Nd V I C : Type}.
  Variable poll : Src -> option Nd * Src.
  Variable next : nat -> ptrack Nd I C -> Res (option V * ptrack Nd I C).
  Variable over : ptrack Nd I C -> Prop.
  Hypothesis over_next : forall f it it', next f it = Ok (None, it') -> over it'.
  Hypothesis over_stay : forall f it o it', over it -> next f it = Ok (o, it') -> o = None /\ over it'.
  Hypothesis next_steady : steady next.
  Variable source : Src.
  Variable ts : list Nd.
  Variable b : bool.
  Hypothesis Hpoll : polls poll (length ts) source = map Some ts.
  Hypothesis Hend : b = true -> forall i, polls poll (length ts + i) source = map Some ts ++ repeat None i.

  Definition list_pipe : pipe V := mkPipe (ctrack Nd I C) (ct_new ts) (ct_next next) ct_path ct_prune.
  Definition stream_pipe : pipe V := mkPipe (strack Src Nd I C) (str_new source) (str_next poll next) str_path str_prune.

  Definition str_R (s : ctrack Nd I C) (t : strack Src Nd I C) : Prop :=
    exists m q, m <= length ts /\ (0 < q -> b = true /\ m = length ts) /\ ct_trees s = skipn m ts /\ ct_count s = str_count t /\ ct_cur s = str_cur t /\
      str_source t = polled poll (m + q) source /\ rev (str_asked t) = map Some (firstn m ts) ++ repeat None q.
  Definition str_past (t : strack Src Nd I C) : Prop := length ts < length (str_asked t).

  Lemma take_follows s t cur : str_R s t ->
    match ct_take (V := V) (ct_trees s) (ct_count s) cur with
    | Ok (inl s') => exists t', str_take (V := V) poll t cur = Ok (inl t') /\ str_R s' t'
    | Ok (inr (o, s')) => o = None /\ (b = true -> exists t', str_take (V := V) poll t cur = Ok (inr (None, t')) /\ str_R s' t') /\
        forall r, str_take (V := V) poll t cur = Ok r -> match r with inl t' => str_past t' | inr (_, t') => str_past t' end
    | _ => True
    end.
  Proof.
    intros (m & q & Hm & Hq & Et & Ec & _ & Es & Ea); unfold ct_take, str_take; rewrite Et; destruct (skipn m ts) as [|x rest] eqn:Ek.
    - assert (Hmn : m = length ts) by (pose proof (skipn_length m ts) as X; rewrite Ek in X; cbn in X; lia).
      split; [reflexivity|]; split.
      + intros Hb; assert (Hp : poll (polled poll (m + q) source) = (None, polled poll (S (m + q)) source)).
        { apply (polls_nth poll (length ts + S q) source _ (m + q) None (Hend Hb (S q))).
          rewrite nth_error_app2 by (rewrite map_length; lia); rewrite map_length, Hmn; replace (length ts + q - length ts) with q by lia.
          apply nth_error_repeat; lia. }
        rewrite Es, Hp; eexists; split; [reflexivity|]; exists m, (S q); cbn [ct_trees ct_count ct_cur str_count str_cur str_source str_asked]; repeat split; auto.
        * rewrite Nat.add_succ_r; reflexivity.
        * cbn [rev]; rewrite Ea, <- app_assoc; f_equal; change [None] with (repeat (@None Nd) 1); rewrite <- repeat_app, Nat.add_comm; reflexivity.
      + intros r; destruct (poll (str_source t)) as [o c']; destruct o as [n|].
        * destruct (checked_succ (str_count t)); cbn [bindR]; try discriminate; intros E; injection E as <-; unfold str_past; cbn [str_asked length].
          rewrite <- (rev_length (str_asked t)), Ea, app_length, map_length, firstn_length; lia.
        * intros E; injection E as <-; unfold str_past; cbn [str_asked length].
          rewrite <- (rev_length (str_asked t)), Ea, app_length, map_length, firstn_length; lia.
    - assert (Hlt : m < length ts) by (pose proof (skipn_length m ts) as X; rewrite Ek in X; cbn in X; lia).
      assert (q = 0) by (destruct q; [reflexivity|]; destruct (Hq ltac:(lia)); lia); subst q.
      assert (Hx : nth_error ts m = Some x) by (rewrite <- (firstn_skipn m ts), nth_error_app2, firstn_length, Nat.min_l, Nat.sub_diag, Ek by (rewrite ?firstn_length; lia); reflexivity).
      assert (Hp : poll (polled poll m source) = (Some x, polled poll (S m) source)) by (apply (polls_nth poll (length ts) source _ m (Some x) Hpoll), map_nth_error, Hx).
      rewrite Nat.add_0_r in Es; rewrite Es, Hp, <- Ec; destruct (checked_succ (ct_count s)) as [count'| | |]; cbn [bindR]; auto.
      eexists; split; [reflexivity|]; exists (S m), 0; cbn [ct_trees ct_count ct_cur str_count str_cur str_source str_asked]; repeat split; auto; try lia.
      + rewrite skipn_tl, Ek; reflexivity.
      + rewrite Nat.add_0_r; reflexivity.
      + cbn [rev]; rewrite Ea; cbn [repeat]; rewrite !app_nil_r.
        rewrite <- (firstn_skipn m ts) at 2; rewrite Ek, firstn_app, firstn_length, Nat.min_l, (firstn_all2 (firstn m ts)) by (rewrite ?firstn_length; lia).
        replace (S m - m) with 1 by lia; cbn [firstn]; rewrite map_app; reflexivity.
  Qed.

  Lemma take_past t cur r : str_past t -> str_take (V := V) poll t cur = Ok r -> match r with inl t' => str_past t' | inr (_, t') => str_past t' end.
  Proof.
    unfold str_take, str_past; intros Hp; destruct (poll (str_source t)) as [[n|] c'].
    - destruct (checked_succ (str_count t)); cbn [bindR]; try discriminate; intros E; injection E as <-; cbn [str_asked length]; lia.
    - intros E; injection E as <-; cbn [str_asked length]; lia.
  Qed.
  Lemma base_mono f : forall t o t', str_past t -> str_next poll next f t = Ok (o, t') -> str_past t'.
  Proof.
    unfold str_next; induction f as [|f IH]; intros t o t' Hp H; [discriminate|]; cbn [loop] in H; unfold str_body at 1 in H.
    assert (Htake : forall cur, bindR (str_take poll t cur) (fun r => match r with inl s' => loop (str_body poll next) f s' | inr o => Ok o end) = Ok (o, t') -> str_past t').
    { intros cur H'; bind_inv H'; pose proof (take_past _ _ _ Hp E) as X; destruct a as [t1|[o1 t1]]; [exact (IH _ _ _ X H')|injection H' as <- <-; exact X]. }
    destruct (str_cur t) as [it|]; [|exact (Htake None H)].
    destruct (next f it) as [[o1 it']| | |]; cbn [bindR] in H; try discriminate; destruct o1 as [v|]; [injection H as <- <-; exact Hp|exact (Htake _ H)].
  Qed.

  Lemma str_R_cur s t it it' : str_R s t -> str_R (mkCt (ct_trees s) (ct_count s) (Some it)) (mkStr (str_source t) (str_count t) (Some it') (str_asked t)) <-> str_R s t /\ it = it'.
  Proof.
    intros (m & q & H1 & H2 & H3 & H4 & H5 & H6 & H7); split; [|intros [_ ->]; exists m, q; cbn; auto 10].
    intros (m' & q' & _ & _ & _ & _ & E & _); cbn in E; split; [exists m, q; auto 10|congruence].
  Qed.

  Lemma base_follows : follows b list_pipe stream_pipe str_R str_past.
  Proof.
    split; cbn [p_next p_path p_prune p_state list_pipe stream_pipe].
    - unfold ct_next, str_next; induction f as [|f IH]; intros s t o s' HR H Hb; [discriminate|]; cbn [loop] in H |- *; unfold ct_body at 1 in H; unfold str_body at 1.
      assert (Hcur : ct_cur s = str_cur t) by (destruct HR as (m & q & HR); tauto).
      assert (Htake : forall cur, bindR (ct_take (ct_trees s) (ct_count s) cur) (fun r => match r with inl s' => loop (ct_body next) f s' | inr o => Ok o end) = Ok (o, s') ->
        exists t', bindR (str_take poll t cur) (fun r => match r with inl s' => loop (str_body poll next) f s' | inr o => Ok o end) = Ok (o, t') /\ str_R s' t').
      { intros cur H'; pose proof (take_follows s t cur HR) as X; bind_inv H'; destruct a as [s1|[o1 s1]].
        - destruct X as (t1 & -> & HR1); cbn [bindR]; exact (IH _ _ _ _ HR1 H' Hb).
        - destruct X as (-> & X & _); injection H' as <- <-; destruct (X (Hb eq_refl)) as (t1 & -> & HR1); cbn [bindR]; eauto. }
      rewrite <- Hcur; destruct (ct_cur s) as [it|]; [|exact (Htake None H)].
      destruct (next f it) as [[o1 it']| | |]; cbn [bindR] in H |- *; try discriminate; destruct o1 as [v|]; [|exact (Htake _ H)].
      injection H as <- <-; eexists; split; [reflexivity|]; apply str_R_cur; auto.
    - intros s t (m & q & _ & _ & _ & _ & E & _); unfold ct_path, str_path; rewrite E; reflexivity.
    - intros s t (m & q & HR); exists m, q; unfold ct_prune, str_prune; cbn [ct_trees ct_count ct_cur str_count str_cur str_source str_asked].
      destruct HR as (H1 & H2 & H3 & H4 & H5 & H6 & H7); rewrite H5; auto 10.
    - unfold ct_next, str_next; induction f as [|f IH]; intros s t s' o t' HR H H'; [discriminate|]; cbn [loop] in H, H'; unfold ct_body at 1 in H; unfold str_body at 1 in H'.
      assert (Hcur : ct_cur s = str_cur t) by (destruct HR as (m & q & HR); tauto).
      assert (Htake : forall cur, bindR (ct_take (ct_trees s) (ct_count s) cur) (fun r => match r with inl s' => loop (ct_body next) f s' | inr o => Ok o end) = Ok (None, s') ->
        bindR (str_take poll t cur) (fun r => match r with inl s' => loop (str_body poll next) f s' | inr o => Ok o end) = Ok (o, t') -> str_past t').
      { intros cur HP HQ; pose proof (take_follows s t cur HR) as X; bind_inv HP; destruct a as [s1|[o1 s1]].
        - destruct X as (t1 & Et & HR1); rewrite Et in HQ; cbn [bindR] in HQ; exact (IH _ _ _ _ _ HR1 HP HQ).
        - destruct X as (_ & _ & X); bind_inv HQ; specialize (X _ eq_refl); destruct a as [t1|[o2 t1]]; [exact (base_mono _ _ _ _ X HQ)|injection HQ as <- <-; exact X]. }
      rewrite <- Hcur in H'; destruct (ct_cur s) as [it|]; [|exact (Htake None H H')].
      destruct (next f it) as [[o1 it']| | |]; cbn [bindR] in H, H'; try discriminate; destruct o1 as [v|]; [discriminate|exact (Htake _ H H')].
    - exact base_mono.
    - intros t Hp; exact Hp.
    - unfold str_next; apply loop_steady; intros f f' t r Hf H; unfold str_body in *; destruct (str_cur t) as [it|]; [|exact H].
      bind_inv H; rewrite (next_steady _ _ _ _ Hf E); exact H.
  Qed.

  Definition list_over (s : ctrack Nd I C) : Prop := ct_trees s = [] /\ match ct_cur s with Some it => over it | None => True end.
  Lemma base_ends : ends list_pipe list_over.
  Proof.
    split; cbn [p_next p_state list_pipe]; unfold ct_next.
    - induction f as [|f IH]; intros s s' H; [discriminate|]; cbn [loop] in H; unfold ct_body at 1 in H.
      assert (Htake : forall cur, match cur with Some it => over it | None => True end ->
        bindR (ct_take (ct_trees s) (ct_count s) cur) (fun r => match r with inl s' => loop (ct_body next) f s' | inr o => Ok o end) = Ok (None, s') -> list_over s').
      { intros cur Hcur H'; unfold ct_take in H'; destruct (ct_trees s) as [|x rest]; [cbn [bindR] in H'; injection H' as <-; split; [reflexivity|exact Hcur]|].
        destruct (checked_succ (ct_count s)); cbn [bindR] in H'; try discriminate; exact (IH _ _ H'). }
      destruct (ct_cur s) as [it|]; [|exact (Htake None Logic.I H)].
      destruct (next f it) as [[o1 it']| | |] eqn:E; cbn [bindR] in H; try discriminate; destruct o1 as [v|]; [discriminate|exact (Htake (Some it') (over_next _ _ _ E) H)].
    - intros [|f] s o s' [Ht Hc] H; [discriminate|]; cbn [loop] in H; unfold ct_body at 1 in H; rewrite Ht in H.
      destruct (ct_cur s) as [it|]; [|cbn [ct_take bindR] in H; injection H as <- <-; repeat split].
      destruct (next f it) as [[o1 it']| | |] eqn:E; cbn [bindR] in H; try discriminate.
      destruct (over_stay _ _ _ _ Hc E) as [-> Ho]; cbn [ct_take bindR] in H; injection H as <- <-; repeat split; exact Ho.
  Qed.
  Lemma base_init : str_R (p_init list_pipe) (p_init stream_pipe).
  Proof. exists 0, 0; cbn; repeat split; auto; lia. Qed.
End Base.

(** ** All together *)
Lemma map_nth_seq {A} (l : list A) : forall k, k <= length l -> map (nth_error l) (seq 0 k) = map Some (firstn k l).
Proof.
  induction l as [|x l IH]; intros [|k] Hk; cbn [length] in Hk; try reflexivity; [lia|].
  cbn [seq map firstn nth_error]; f_equal; rewrite <- seq_shift, map_map; apply IH; lia.
Qed.
Lemma least (p : nat -> bool) n : p n = true -> exists j, j <= n /\ p j = true /\ forall i, i < j -> p i = false.
Proof.
  induction n as [n IH] using lt_wf_ind; intros Hn.
  destruct (existsb p (seq 0 n)) eqn:E.
  - apply existsb_exists in E as (i & Hi & Ei); apply in_seq in Hi; destruct (IH i ltac:(lia) Ei) as (j & Hj & H); exists j; split; [lia|exact H].
  - exists n; repeat split; auto; intros i Hi; destruct (p i) eqn:Ei; [|reflexivity].
    assert (X : existsb p (seq 0 n) = true) by (apply existsb_exists; exists i; split; [apply in_seq; lia|exact Ei]); congruence.
Qed.
Lemma calls_snoc {S O} (next : nat -> S -> Res (O * S)) f k : forall s os s2, calls next (Datatypes.S k) s f = Ok (os, s2) ->
  exists os1 o s1, os = os1 ++ [o] /\ calls next k s f = Ok (os1, s1) /\ next f s1 = Ok (o, s2).
Proof.
  induction k as [|k IH]; intros s os s2 H.
  - cbn [calls] in H; bind_inv H; destruct a as [o s1]; cbn [bindR] in H; injection H as <- <-; exists [], o, s; repeat split; exact E.
  - change (bindR (next f s) (fun '(o, s1) => bindR (calls next (Datatypes.S k) s1 f) (fun '(os, s2) => Ok (o :: os, s2))) = Ok (os, s2)) in H.
    bind_inv H; destruct a as [o s1]; bind_inv H; destruct a as [os' s2']; injection H as <- <-.
    destruct (IH _ _ _ E0) as (os1 & o1 & s3 & -> & E1 & E2); exists (o :: os1), o1, s3; cbn [calls]; rewrite E; cbn [bindR]; rewrite E1; auto.
Qed.

Section Final.
  Context {Src Nd I K A O C St : Type}.
  Context (start : C -> St) (must_close : St -> list N -> Res bool) (drained : St -> option C) (close_top : St -> Res (St + O * C)) (push : St -> A -> list N -> Res St).
  Context (full : St -> Prop).
  Hypothesis full_push : forall st a p st', push st a p = Ok st' -> full st'.
  Hypothesis full_close : forall st st', close_top st = Ok (inl st') -> full st'.
  Hypothesis full_drained : forall st, full st -> drained st = None.
  Hypothesis drained_start : forall c, drained (start c) = Some c.
  Notation next P := (consume_next P start must_close drained close_top push).
  Variable poll : Src -> option Nd * Src.
  Variable source : Src.
  Variable Pl : list Nd -> pipe A.
  Variable Q : pipe A.
  Variable asked : p_state Q -> list (option Nd).
  Hypothesis Hfol : forall b ts, polls poll (length ts) source = map Some ts ->
    (b = true -> forall i, polls poll (length ts + i) source = map Some ts ++ repeat None i) ->
    exists R D, follows b (Pl ts) Q R (fun t => length ts < length (asked t)) /\ ends (Pl ts) D /\ R (p_init (Pl ts)) (p_init Q) /\
      forall s t, R s t -> exists m q, m <= length ts /\ (0 < q -> b = true) /\ rev (asked t) = map Some (firstn m ts) ++ repeat None q.
  Variable c0 : C.
  Variable results : list Nd -> list O.
  Variable ts : list Nd.
  Hypothesis Hlist : forall i k, i <= length ts -> exists s, calls (next (Pl (firstn i ts))) k (consume_new (Pl (firstn i ts)) c0) ⇓ Ok (map (nth_error (results (firstn i ts))) (seq 0 k), s).

  Lemma final : reads_ahead poll (next Q) (fun s => asked (fst (fst s))) (consume_new Q c0) source results ts.
  Proof.
    split.
    - intros Hp k [Hk0 Hk].
      assert (Hpre : forall i, i <= length ts -> polls poll (length (firstn i ts)) source = map Some (firstn i ts)).
      { intros i Hi; rewrite firstn_length, Nat.min_l by exact Hi; replace (length ts) with (i + (length ts - i)) in Hp by lia.
        rewrite polls_app in Hp; rewrite <- firstn_map, <- Hp, firstn_app, polls_length, Nat.sub_diag, firstn_O, app_nil_r, firstn_all2; [reflexivity|rewrite polls_length; lia]. }
      assert (Hrun : forall i, i <= length ts -> k < length (results (firstn i ts)) -> exists t j0, calls (next Q) k (consume_new Q c0) ⇓ Ok (map Some (firstn k (results (firstn i ts))), t) /\
        j0 <= i /\ rev (asked (fst (fst t))) = map Some (firstn j0 (firstn i ts))).
      { intros i Hi Hl; destruct (Hlist i (S k) Hi) as (s & F & HF).
        destruct (Hfol false (firstn i ts) (Hpre i Hi) ltac:(discriminate)) as (R & D & Hf & Hd & Hinit & HR).
        pose proof (HF F (le_n F)) as E; destruct (calls_snoc _ _ _ _ _ _ E) as (os1 & o & s1 & Eos & E1 & E2).
        rewrite seq_S, map_app in Eos; cbn [map Nat.add] in Eos; apply app_inj_tail in Eos as [Eos Eo].
        destruct (nth_error (results (firstn i ts)) k) as [x|] eqn:Ex; [subst o|apply nth_error_None in Ex; lia].
        destruct (calls_follow start must_close drained close_top push drained_start false _ Q R _ D Hf Hd F k (p_init (Pl (firstn i ts))) (p_init Q) None c0 os1 s1 x s Hinit E1 E2) as (j' & Ej & HRj).
        destruct (HR _ _ HRj) as (m & q & Hm & Hq & Ea); destruct q as [|q]; [|specialize (Hq ltac:(lia)); discriminate].
        rewrite firstn_length, Nat.min_l in Hm by exact Hi; cbn [repeat] in Ea; rewrite app_nil_r in Ea.
        eexists _, m; split; [|split; [exact Hm|]].
        - exists F; intros f' Hf'; rewrite <- (map_nth_seq (results (firstn i ts)) k) by lia; rewrite Eos.
          exact (calls_steady start must_close drained close_top push false _ Q R _ Hf k F f' _ _ Hf' Ej).
        - exact Ea. }
      destruct (least (fun j => k <? length (results (firstn j ts))) (length ts)) as (j & Hj & Hjk & Hmin).
      { rewrite firstn_all; apply Nat.ltb_lt; exact Hk. }
      apply Nat.ltb_lt in Hjk.
      destruct (Hrun j Hj Hjk) as (t & j0 & Ht & Hj0 & Ea).
      destruct (Hrun (length ts) (le_n _)) as (t' & _ & Ht' & _ & _); [rewrite firstn_all; exact Hk|]; rewrite firstn_all in Ht'.
      pose proof (conv_fun _ _ _ Ht Ht') as E; injection E as <- <-.
      assert (Hlow : forall i, i < j -> i < j0).
      { intros i Hi; pose proof (Hmin i Hi) as Hr; apply Nat.ltb_ge in Hr.
        destruct (Hfol false (firstn i ts) (Hpre i ltac:(lia)) ltac:(discriminate)) as (R & D & Hf & Hd & Hinit & HR).
        destruct (Hlist i (S k) ltac:(lia)) as (s & F & HF); destruct Ht as [G HG].
        pose proof (HF (F + G) ltac:(lia)) as E; destruct (calls_snoc _ _ _ _ _ _ E) as (os1 & o & s1 & Eos & E1 & E2).
        rewrite seq_S, map_app in Eos; cbn [map Nat.add] in Eos; apply app_inj_tail in Eos as [Eos Eo].
        rewrite (proj2 (nth_error_None _ _) Hr) in Eo; subst o.
        destruct s1 as [[i1 [a1|]] c1]; [exfalso; exact (ahead_some start must_close drained close_top push full full_push full_close full_drained _ _ _ _ _ _ _ E2 eq_refl)|].
        pose proof (calls_past start must_close drained close_top push false _ Q R _ Hf (F + G) k _ _ None c0 _ _ _ _ _ Hinit Hk0 E1 (HG (F + G) ltac:(lia))) as Hpast; cbn beta in Hpast.
        rewrite firstn_length, Nat.min_l, <- rev_length, Ea, map_length, firstn_length in Hpast by lia; lia. }
      assert (j0 = j) by (destruct j as [|j]; [lia|]; specialize (Hlow j ltac:(lia)); lia); subst j0.
      exists t, j; repeat split; auto.
      + rewrite Ea, firstn_firstn, Nat.min_id; reflexivity.
      + intros i Hi; pose proof (Hmin i Hi) as X; apply Nat.ltb_ge in X; exact X.
    - intros Hp k.
      destruct (Hfol true ts) as (R & D & Hf & Hd & Hinit & HR).
      { specialize (Hp 0); rewrite Nat.add_0_r in Hp; cbn [repeat] in Hp; rewrite app_nil_r in Hp; exact Hp. }
      { intros _; exact Hp. }
      pose proof (Hlist (length ts) k (le_n _)) as HL; rewrite firstn_all in HL; destruct HL as (s & F & HF).
      destruct (calls_follow_all start must_close drained close_top push true _ Q R _ Hf F k eq_refl (p_init (Pl ts)) (p_init Q) None c0 _ _ Hinit (HF F (le_n F))) as (j' & Ej & _).
      eexists; exists F; intros f' Hf'; exact (calls_steady start must_close drained close_top push true _ Q R _ Hf k F f' _ _ Hf' Ej).
  Qed.
End Final.

(** ** The iterators of one tree *)
Section Tracking.
  Context {Nd V I C : Type} (gv : Nd -> V * C) (into_iter : C -> list I).
  Context (body : nat -> list (list I) * list N -> Res (list (list I) * list N + option Nd * (list (list I) * list N))).
  Hypothesis body_nil : forall f path, body f ([], path) = Ok (inr (None, ([], path))).
  Hypothesis body_none : forall f s stack path, body f s = Ok (inr (None, (stack, path))) -> stack = [].
  Hypothesis body_steady : steady body.
  Definition pt_over (it : ptrack Nd I C) : Prop := pt_root it = None /\ pt_deck it = None /\ pt_stack it = [].

  Lemma loop_none f : forall s stack path, loop body f s = Ok (None, (stack, path)) -> stack = [].
  Proof.
    induction f as [|f IH]; intros s stack path H; [discriminate|]; cbn [loop] in H; destruct (body f s) as [[s'|o]| | |] eqn:E; cbn [bindR] in H; try discriminate; [exact (IH _ _ _ H)|].
    injection H as ->; exact (body_none _ _ _ _ E).
  Qed.
  Lemma pt_over_next f it it' : pt_next_with gv into_iter body f it = Ok (None, it') -> pt_over it'.
  Proof.
    unfold pt_next_with; destruct (pt_root it) as [r|]; [destruct (gv r); discriminate|].
    destruct (match pt_deck it with Some _ => _ | None => _ end) as [stack path]; intros H; bind_inv H; destruct a as [[n|] [stack' path']]; [destruct (gv n); discriminate|].
    injection H as <-; repeat split; exact (loop_none _ _ _ _ E).
  Qed.
  Lemma pt_over_stay f it o it' : pt_over it -> pt_next_with gv into_iter body f it = Ok (o, it') -> o = None /\ pt_over it'.
  Proof.
    intros (H1 & H2 & H3); unfold pt_next_with; rewrite H1, H2, H3; destruct f as [|f]; [discriminate|]; cbn [loop]; rewrite body_nil; cbn [bindR].
    intros E; injection E as <- <-; repeat split.
  Qed.
  Lemma pt_steady : steady (pt_next_with gv into_iter body).
  Proof.
    intros f f' it r Hf; unfold pt_next_with; destruct (pt_root it) as [n|]; [auto|].
    destruct (match pt_deck it with Some _ => _ | None => _ end) as [stack path]; intros H; bind_inv H; rewrite (loop_steady _ body_steady _ _ _ _ Hf E); exact H.
  Qed.
End Tracking.

Lemma pt_body_none {Nd} f s stack path : @pt_body Nd f s = Ok (inr (None, (stack, path))) -> stack = [].
Proof. destruct s as [[|[|n top] rest] p]; cbn [pt_body]; intros H; [injection H as <-; reflexivity|discriminate|destruct (incr_last p); discriminate]. Qed.
Lemma ptb_body_none {Nd} f s stack path : @ptb_body Nd f s = Ok (inr (None, (stack, path))) -> stack = [].
Proof. destruct s as [[|top rest] p]; cbn [ptb_body]; intros H; [injection H as <-; reflexivity|]; bind_inv H; destruct a as [[[n|] top'] p']; discriminate. Qed.

Section Instances.
  Context {Src Nd V A : Type} (poll : Src -> option Nd * Src) (source : Src) (c : chain V A).

  Lemma nary_follows (gvc : Nd -> V * list Nd) b ts : polls poll (length ts) source = map Some ts ->
    (b = true -> forall i, polls poll (length ts + i) source = map Some ts ++ repeat None i) ->
    exists R D, follows b (each_chain (into_pipeline_each gvc ts) c) (each_chain (into_pipeline_stream poll gvc source) c) R
        (fun t => length ts < length (str_asked (source_state coll_depth [0%N] (into_pipeline_stream poll gvc source) c t))) /\
      ends (each_chain (into_pipeline_each gvc ts) c) D /\ R (p_init (each_chain (into_pipeline_each gvc ts) c)) (p_init (each_chain (into_pipeline_stream poll gvc source) c)) /\
      forall s t, R s t -> exists m q, m <= length ts /\ (0 < q -> b = true) /\
        rev (str_asked (source_state coll_depth [0%N] (into_pipeline_stream poll gvc source) c t)) = map Some (firstn m ts) ++ repeat None q.
  Proof.
    intros Hp He.
    pose proof (base_follows poll (pt_next gvc) (pt_steady gvc _ pt_body (fun _ _ _ _ _ e => e)) source ts b Hp He) as HB.
    pose proof (base_ends (pt_next gvc) pt_over (pt_over_next gvc _ _ pt_body_none) (pt_over_stay gvc _ pt_body (fun _ _ => eq_refl)) ts) as HE.
    destruct (chain_follows b _ _ _ _ _ HB HE (base_init poll _ source ts b) coll_depth [0%N] c) as (R & H1 & H2 & H3 & H4).
    exists R; eexists; split; [exact H1|split; [exact H2|split; [exact H3|]]]; intros s t HR.
    destruct (H4 _ _ HR) as (m & q & Hm & Hq & _ & _ & _ & _ & Ea); exists m, q; split; [exact Hm|split; [|exact Ea]]; intros Hq0; apply Hq; exact Hq0.
  Qed.
  Lemma binary_follows (gvcb : Nd -> V * (option Nd * option Nd)) b ts : polls poll (length ts) source = map Some ts ->
    (b = true -> forall i, polls poll (length ts + i) source = map Some ts ++ repeat None i) ->
    exists R D, follows b (each_chain_binary (into_pipeline_each_binary gvcb ts) c) (each_chain_binary (into_pipeline_stream_binary poll gvcb source) c) R
        (fun t => length ts < length (str_asked (source_state_binary coll_depth (into_pipeline_stream_binary poll gvcb source) c t))) /\
      ends (each_chain_binary (into_pipeline_each_binary gvcb ts) c) D /\ R (p_init (each_chain_binary (into_pipeline_each_binary gvcb ts) c)) (p_init (each_chain_binary (into_pipeline_stream_binary poll gvcb source) c)) /\
      forall s t, R s t -> exists m q, m <= length ts /\ (0 < q -> b = true) /\
        rev (str_asked (source_state_binary coll_depth (into_pipeline_stream_binary poll gvcb source) c t)) = map Some (firstn m ts) ++ repeat None q.
  Proof.
    intros Hp He.
    pose proof (base_follows poll (ptb_next gvcb) (pt_steady gvcb _ ptb_body (fun _ _ _ _ _ e => e)) source ts b Hp He) as HB.
    pose proof (base_ends (ptb_next gvcb) pt_over (pt_over_next gvcb _ _ ptb_body_none) (pt_over_stay gvcb _ ptb_body (fun _ _ => eq_refl)) ts) as HE.
    destruct (bchain_follows b _ _ _ _ _ HB HE (base_init poll _ source ts b) coll_depth c) as (R & H1 & H2 & H3 & H4).
    exists R; eexists; split; [exact H1|split; [exact H2|split; [exact H3|]]]; intros s t HR.
    destruct (H4 _ _ HR) as (m & q & Hm & Hq & _ & _ & _ & _ & Ea); exists m, q; split; [exact Hm|split; [|exact Ea]]; intros Hq0; apply Hq; exact Hq0.
  Qed.
End Instances.

(** ** The six ends *)
Section Consumers.
  Context {Src Nd A : Type} (poll : Src -> option Nd * Src) (source : Src) (Pl : list Nd -> pipe A) (Q : pipe A) (asked : p_state Q -> list (option Nd)).
  Hypothesis Hfol : forall b ts, polls poll (length ts) source = map Some ts ->
    (b = true -> forall i, polls poll (length ts + i) source = map Some ts ++ repeat None i) ->
    exists R D, follows b (Pl ts) Q R (fun t => length ts < length (asked t)) /\ ends (Pl ts) D /\ R (p_init (Pl ts)) (p_init Q) /\
      forall s t, R s t -> exists m q, m <= length ts /\ (0 < q -> b = true) /\ rev (asked t) = map Some (firstn m ts) ++ repeat None q.
  Variable ts : list Nd.

  Lemma trees_ahead results : (forall i k, i <= length ts -> exists s, calls (trees_next (Pl (firstn i ts))) k (trees_new (Pl (firstn i ts))) ⇓ Ok (map (nth_error (results (firstn i ts))) (seq 0 k), s)) ->
    reads_ahead poll (trees_next Q) (fun s => asked (fst (fst s))) (trees_new Q) source results ts.
  Proof.
    intros Hl; refine (final _ _ _ _ _ (fun st => st <> []) _ _ _ _ poll source Pl Q asked Hfol tt results ts Hl).
    - intros st a p st' E; injection E as <-; discriminate.
    - intros [|[v cs] [|[v' cs'] rest]] st' E; try discriminate; injection E as <-; discriminate.
    - intros [|x st] H; [congruence|reflexivity].
    - intros []; reflexivity.
  Qed.
  Lemma btrees_ahead results : (forall i k, i <= length ts -> exists s, calls (btrees_next (Pl (firstn i ts))) k (trees_new (Pl (firstn i ts))) ⇓ Ok (map (nth_error (results (firstn i ts))) (seq 0 k), s)) ->
    reads_ahead poll (btrees_next Q) (fun s => asked (fst (fst s))) (trees_new Q) source results ts.
  Proof.
    intros Hl; refine (final _ _ _ _ _ (fun st => st <> []) _ _ _ _ poll source Pl Q asked Hfol tt results ts Hl).
    - intros st a p st' E; bind_inv E; injection E as <-; discriminate.
    - intros [|[sl t] [|[sl' t'] rest]] st' E; try discriminate; cbn [btrees_close] in E; bind_inv E; injection E as <-; discriminate.
    - intros [|x st] H; [congruence|reflexivity].
    - intros []; reflexivity.
  Qed.
  Context {G O : Type}.
  Lemma cfold_ahead (f : G -> list O -> A -> G * O) g results :
    (forall i k, i <= length ts -> exists s, calls (cfold_next (Pl (firstn i ts)) f) k (consume_new (Pl (firstn i ts)) g) ⇓ Ok (map (nth_error (results (firstn i ts))) (seq 0 k), s)) ->
    reads_ahead poll (cfold_next Q f) (fun s => asked (fst (fst s))) (consume_new Q g) source results ts.
  Proof.
    intros Hl; refine (final _ _ _ _ _ (fun st => snd st <> []) _ _ _ _ poll source Pl Q asked Hfol g results ts Hl).
    - intros [[g' vs] fs] a p st' E; injection E as <-; discriminate.
    - intros [[g' vs] [|items folded]] st' E; [discriminate|]; unfold cfold_close in E; destruct vs as [|v vs]; [discriminate|]; destruct (f g' items v) as [g2 r], folded as [|last rest]; [discriminate|]; injection E as <-; discriminate.
    - intros [[g' vs] [|x fs]] H; cbn [snd] in *; [congruence|reflexivity].
    - intros g'; reflexivity.
  Qed.
  Lemma bcfold_ahead (f : G -> option O * option O -> A -> G * O) g results :
    (forall i k, i <= length ts -> exists s, calls (bcfold_next (Pl (firstn i ts)) f) k (consume_new (Pl (firstn i ts)) g) ⇓ Ok (map (nth_error (results (firstn i ts))) (seq 0 k), s)) ->
    reads_ahead poll (bcfold_next Q f) (fun s => asked (fst (fst s))) (consume_new Q g) source results ts.
  Proof.
    intros Hl; refine (final _ _ _ _ _ (fun st => snd st <> []) _ _ _ _ poll source Pl Q asked Hfol g results ts Hl).
    - intros [[g' vs] fs] a p st' E; bind_inv E; injection E as <-; discriminate.
    - intros [[g' vs] [|[sl items] folded]] st' E; [discriminate|]; unfold bcfold_close in E; destruct vs as [|v vs]; [discriminate|]; destruct (f g' items v) as [g2 r], folded as [|[sl' last] rest]; [discriminate|].
      bind_inv E; injection E as <-; discriminate.
    - intros [[g' vs] [|x fs]] H; cbn [snd] in *; [congruence|reflexivity].
    - intros g'; reflexivity.
  Qed.
  Lemma cfoldp_ahead (f : G -> list O -> list N -> A -> G * O) g results :
    (forall i k, i <= length ts -> exists s, calls (cfoldp_next (Pl (firstn i ts)) f) k (consume_new (Pl (firstn i ts)) g) ⇓ Ok (map (nth_error (results (firstn i ts))) (seq 0 k), s)) ->
    reads_ahead poll (cfoldp_next Q f) (fun s => asked (fst (fst s))) (consume_new Q g) source results ts.
  Proof.
    intros Hl; refine (final _ _ _ _ _ (fun st => snd (fst st) <> []) _ _ _ _ poll source Pl Q asked Hfol g results ts Hl).
    - intros [[[g' vs] fs] pa] a p st' E; unfold cfoldp_push in E; bind_inv E; bind_inv E; injection E as <-; discriminate.
    - intros [[[g' vs] [|items folded]] pa] st' E; [discriminate|]; unfold cfoldp_close in E; destruct vs as [|v vs]; [discriminate|]; destruct (f g' items (rev pa) v) as [g2 r], pa as [|sg pa], folded as [|last rest]; try discriminate; injection E as <-; discriminate.
    - intros [[[g' vs] [|x fs]] pa] H; cbn [fst snd] in *; [congruence|reflexivity].
    - intros g'; reflexivity.
  Qed.
  Lemma bcfoldp_ahead (f : G -> option O * option O -> list N -> A -> G * O) g results :
    (forall i k, i <= length ts -> exists s, calls (bcfoldp_next (Pl (firstn i ts)) f) k (consume_new (Pl (firstn i ts)) g) ⇓ Ok (map (nth_error (results (firstn i ts))) (seq 0 k), s)) ->
    reads_ahead poll (bcfoldp_next Q f) (fun s => asked (fst (fst s))) (consume_new Q g) source results ts.
  Proof.
    intros Hl; refine (final _ _ _ _ _ (fun st => snd (fst st) <> []) _ _ _ _ poll source Pl Q asked Hfol g results ts Hl).
    - intros [[[g' vs] fs] pa] a p st' E; bind_inv E; injection E as <-; discriminate.
    - intros [[[g' vs] [|items folded]] pa] st' E; [discriminate|]; unfold bcfoldp_close in E; destruct vs as [|v vs]; [discriminate|]; destruct (f g' items (rev pa) v) as [g2 r], pa as [|sg pa], folded as [|last rest]; try discriminate.
      bind_inv E; injection E as <-; discriminate.
    - intros [[[g' vs] [|x fs]] pa] H; cbn [fst snd] in *; [congruence|reflexivity].
    - intros g'; reflexivity.
  Qed.
End Consumers.
