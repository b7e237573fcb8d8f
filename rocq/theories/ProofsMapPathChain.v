(** * ProofsMapPathChain: stages behind map_path. *)
From Verif Require Import Prelim PrelimFacts Spec SpecFacts SpecPipe SpecPipeColl SpecObs SpecMapPath ModelNode NodeFacts ModelPre ModelPipe ModelPipeColl
  ModelMapPath ProofsPlain Slots PipeCore PipeBase PipeChain PipeEnd ProofsPipe PipeFinal PipePure PipeSpecFacts PipeOps PipeCollEnd ProofsPipeColl PipeCollFinal
  ProofsMapPath ProofsMapPathEnd ProofsMapPathEach.

(** ** The same walk with the closures' states packed differently *)
Lemma vstep_iso {A G G' X} (to : G -> G') (from : G' -> G) (vis : G -> X -> G * outcome A) (vis' : G' -> X -> G' * outcome A) :
  (forall g, from (to g) = g) -> (forall g' x, vis' g' x = let '(g, o) := vis (from g') x in (to g, o)) ->
  forall todo g', todo <> [] -> vstep vis' g' todo = let '(o, d, r, g) := vstep vis (from g') todo in (o, d, r, to g).
Proof.
  intros Hft Hv todo; induction todo as [|[x ts] todo IH]; intros g' Hne; [congruence|]; cbn [vstep]; rewrite Hv.
  destruct (vis (from g') x) as [g [|a down]]; [|reflexivity].
  destruct todo as [|t todo]; [reflexivity|]; rewrite IH by discriminate; rewrite Hft; reflexivity.
Qed.

Lemma simulates_iso {A G G' X} (P : pipe A) (to : G -> G') (from : G' -> G) (vis : G -> X -> G * outcome A) (vis' : G' -> X -> G' * outcome A) pok R :
  (forall g, from (to g) = g) -> (forall g, to (from g) = g) -> (forall g' x, vis' g' x = let '(g, o) := vis (from g') x in (to g, o)) ->
  simulates P vis pok R -> simulates P vis' pok (fun s g' d r => R s (from g') d r).
Proof.
  intros Hft Htf Hv [H1 H2 H3]; split; [|intros s g d r; apply H2|exact H3].
  intros s g d r HR o d' r' g' E; destruct (d ++ r) as [|t l] eqn:Edr.
  - cbn in E; injection E as <- <- <- <-.
    destruct (H1 s (from g) d r HR None [] [] (from g)) as (s' & Hc & HR' & Hp); [rewrite Edr; reflexivity|]; exists s'; auto.
  - rewrite (vstep_iso to from vis vis' Hft Hv) in E by discriminate.
    destruct (vstep vis (from g) (t :: l)) as [[[o1 d1] r1] g1] eqn:E1; injection E as <- <- <- <-.
    rewrite <- Edr in E1; destruct (H1 _ _ _ _ HR _ _ _ _ E1) as (s' & Hc & HR' & Hp); exists s'; rewrite Hft; auto.
Qed.

(** ** Chains of stages over a first iterator that has closures itself *)
Section ChainSim0.
  Context {V X G0 : Type} (P : pipe V) (depth_of : list N -> Res N) (start : list N).
  Context (base : G0 -> X -> G0 * V) (path : X -> list N) (depth : X -> N) (pokE pokL : list N -> X -> Prop).
  Hypothesis HE : forall p x, pokE p x -> p = path x /\ pokL p x.
  Hypothesis HL : forall p x, pokL p x -> depth_of p = Ok (depth x) /\ forall q, length q = length p -> pokL q x.

  Context (R0 : p_state P -> G0 -> list (tree X) -> list (tree X) -> Prop).
  Hypothesis Hsim : simulates P (fun g x => let '(g1, v) := base g x in (g1, Keep v true)) pokE R0.
  Context (g00 : G0) (d0 r0 : list (tree X)).
  Hypothesis Hinit : R0 (p_init P) g00 d0 r0.

  Definition chain_vis0 {A} (c : chain V A) (g : G0 * clos c) (x : X) : G0 * clos c * outcome A :=
    let '(g1, v) := base (fst g) x in
    let '(gs, r) := visit_node c (snd g) (path x) (depth x) v in ((g1, gs), r).

  Definition unpack {A B C : Type} (g : A * (B * C)) : A * B * C := ((fst g, fst (snd g)), snd (snd g)).
  Definition pack {A B C : Type} (g : A * B * C) : A * (B * C) := (fst (fst g), (snd (fst g), snd g)).
  Lemma unpack_pack {A B C : Type} (g : A * B * C) : unpack (pack g) = g.
  Proof. destruct g as [[a b] c]; reflexivity. Qed.
  Lemma pack_unpack {A B C : Type} (g : A * (B * C)) : pack (unpack g) = g.
  Proof. destruct g as [a [b c]]; reflexivity. Qed.

  Lemma chain_sim0 {A} (c : chain V A) : true_paths c = true ->
    (has_prune c = true -> (N.of_nat (fsize (d0 ++ r0)) <= usize_max)%N /\ vec_ok (fsize (d0 ++ r0)) start) ->
    exists R : p_state (run_chain depth_of start P c) -> G0 * clos c -> list (tree X) -> list (tree X) -> Prop,
      simulates (run_chain depth_of start P c) (chain_vis0 c) (if has_prune c then pokL else pokE) R /\
      (forall s g d r, R s g d r -> closures depth_of start P c s = snd g /\ exists d1 r1, R0 (chain_first depth_of start P c s) (fst g) d1 r1) /\
      R (p_init (run_chain depth_of start P c)) (g00, clos_init c) d0 r0.
  Proof.
    intros Ht Hb; induction c as [|A B G c IH g f|A G c IH g f|A G c IH g f|A c IH lim].
    - exists (fun s g d r => R0 s (fst g) d r); split; [|split; [intros s [g []] d r HR; split; [reflexivity|exists d, r; exact HR]|exact Hinit]].
      eapply (simulates_iso P (fun g => (g, tt)) fst); [reflexivity|intros [g []]; reflexivity| |exact Hsim].
      intros [g []] x; unfold chain_vis0; cbn; destruct (base g x); reflexivity.
    - destruct (IH Ht Hb) as (R & HR & Hcl & Hi).
      exists (fun s g' d r => map_R (run_chain depth_of start P c) f g R s (unpack g') d r); split; [|split].
      + eapply (simulates_iso _ pack unpack); [apply unpack_pack|apply pack_unpack| |apply map_sim; exact HR].
        intros [h [gs h']] x; unfold vthen, map_stage, chain_vis0, unpack; cbn [fst snd]; destruct (base h x) as [h1 v]; cbn [visit_node fst snd].
        destruct (visit_node c gs (path x) (depth x) v) as [g1 [|a down]]; [reflexivity|].
        destruct (f h' a); rewrite andb_true_r; reflexivity.
      + intros s [h [gs h']] d r [H1 H2]; cbn in H1, H2; apply Hcl in H1 as [H1 H3]; cbn in H1, H3; subst; split; [reflexivity|exact H3].
      + split; [exact Hi|reflexivity].
    - destruct (IH Ht) as (R & HR & Hcl & Hi); [intros _; apply Hb; reflexivity|].
      destruct (Hb eq_refl) as (Hb1 & Hb2).
      exists (fun s g' d r => prune_R (run_chain depth_of start P c) (fun g _ a => f g a) R g [] s (unpack g') d r); split; [|split].
      + eapply (simulates_iso _ pack unpack); [apply unpack_pack|apply pack_unpack| |eapply prune_sim with (vis := chain_vis0 c) (fx := fun h _ a => f h a)].
        * intros [h [gs h']] x; unfold vthen, prune_stage, chain_vis0, unpack; cbn [fst snd]; destruct (base h x) as [h1 v]; cbn [visit_node fst snd].
          destruct (visit_node c gs (path x) (depth x) v) as [g1 [|a down]]; [reflexivity|].
          destruct (f h' a) as [h2 [|]]; rewrite ?andb_true_r; reflexivity.
        * exact HR.
        * reflexivity.
        * intros p q x Hp Hl; cbn; destruct (has_prune c); [apply (proj2 (HL _ _ Hp)); exact Hl|].
          apply HE in Hp as [_ Hp]; apply (proj2 (HL _ _ Hp)); exact Hl.
      + intros s [h [gs h']] d r (H1 & H2 & _); cbn in H1, H2; apply Hcl in H1 as [H1 H3]; cbn in H1, H3; subst; split; [reflexivity|exact H3].
      + split; [exact Hi|]; repeat split; [exact Hb1| |]; constructor.
    - cbn in Ht; apply andb_true_iff in Ht as [Ht Hn]; apply negb_true_iff in Hn.
      destruct (IH Ht) as (R & HR & Hcl & Hi); [intros _; apply Hb; reflexivity|].
      destruct (Hb eq_refl) as (Hb1 & Hb2).
      exists (fun s g' d r => prune_R (run_chain depth_of start P c) f R g start s (unpack g') d r); split; [|split].
      + eapply (simulates_iso _ pack unpack); [apply unpack_pack|apply pack_unpack| |eapply prune_sim with (vis := chain_vis0 c) (fx := fun h x a => f h (path x) a)].
        * intros [h [gs h']] x; unfold vthen, prune_stage, chain_vis0, unpack; cbn [fst snd]; destruct (base h x) as [h1 v]; cbn [visit_node fst snd].
          destruct (visit_node c gs (path x) (depth x) v) as [g1 [|a down]]; [reflexivity|].
          destruct (f h' (path x) a) as [h2 [|]]; rewrite ?andb_true_r; reflexivity.
        * exact HR.
        * intros p x Hp h a; rewrite Hn in Hp; apply HE in Hp as [-> _]; reflexivity.
        * intros p q x Hp Hl; cbn; rewrite Hn in Hp; apply HE in Hp as [_ Hp]; apply (proj2 (HL _ _ Hp)); exact Hl.
      + intros s [h [gs h']] d r (H1 & H2 & _); cbn in H1, H2; apply Hcl in H1 as [H1 H3]; cbn in H1, H3; subst; split; [reflexivity|exact H3].
      + split; [exact Hi|]; repeat split; [exact Hb1|exact Hb2|exact Hb2].
    - destruct (IH Ht Hb) as (R & HR & Hcl & Hi).
      exists R; split; [|split; [exact Hcl|exact Hi]].
      eapply simulates_ext; [|apply depth_sim with (vis := chain_vis0 c) (depth := depth)].
      + intros [h gs] x; unfold vdepth, chain_vis0; cbn [fst snd visit_node]; destruct (base h x) as [h1 v].
        destruct (visit_node c gs (path x) (depth x) v) as [g1 [|a down]]; reflexivity.
      + exact HR.
      + intros p x Hp; cbn [has_prune] in Hp; destruct (has_prune c); [apply (HL _ _ Hp)|].
        apply HE in Hp as [_ Hp]; apply (HL _ _ Hp).
  Qed.

  Lemma bchain_sim0 {A} (c : chain V A) :
    exists R : p_state (run_chain_binary depth_of P c) -> G0 * clos c -> list (tree X) -> list (tree X) -> Prop,
      simulates (run_chain_binary depth_of P c) (chain_vis0 c) pokE R /\
      (forall s g d r, R s g d r -> closures_binary depth_of P c s = snd g /\ exists d1 r1, R0 (chain_first_binary depth_of P c s) (fst g) d1 r1) /\
      R (p_init (run_chain_binary depth_of P c)) (g00, clos_init c) d0 r0.
  Proof.
    induction c as [|A B G c (R & HR & Hcl & Hi) g f|A G c (R & HR & Hcl & Hi) g f|A G c (R & HR & Hcl & Hi) g f|A c (R & HR & Hcl & Hi) lim].
    - exists (fun s g d r => R0 s (fst g) d r); split; [|split; [intros s [g []] d r HR; split; [reflexivity|exists d, r; exact HR]|exact Hinit]].
      eapply (simulates_iso P (fun g => (g, tt)) fst); [reflexivity|intros [g []]; reflexivity| |exact Hsim].
      intros [g []] x; unfold chain_vis0; cbn; destruct (base g x); reflexivity.
    - exists (fun s g' d r => map_R (run_chain_binary depth_of P c) f g R s (unpack g') d r); split; [|split].
      + eapply (simulates_iso _ pack unpack); [apply unpack_pack|apply pack_unpack| |apply map_sim; exact HR].
        intros [h [gs h']] x; unfold vthen, map_stage, chain_vis0, unpack; cbn [fst snd]; destruct (base h x) as [h1 v]; cbn [visit_node fst snd].
        destruct (visit_node c gs (path x) (depth x) v) as [g1 [|a down]]; [reflexivity|].
        destruct (f h' a); rewrite andb_true_r; reflexivity.
      + intros s [h [gs h']] d r [H1 H2]; cbn in H1, H2; apply Hcl in H1 as [H1 H3]; cbn in H1, H3; subst; split; [reflexivity|exact H3].
      + split; [exact Hi|reflexivity].
    - exists (fun s g' d r => bprune_R (run_chain_binary depth_of P c) (fun g _ a => f g a) R g s (unpack g') d r); split; [|split].
      + eapply (simulates_iso _ pack unpack); [apply unpack_pack|apply pack_unpack| |apply bprune_sim with (vis := chain_vis0 c) (fx := fun h _ a => f h a); [exact HR|reflexivity]].
        intros [h [gs h']] x; unfold vthen, prune_stage, chain_vis0, unpack; cbn [fst snd]; destruct (base h x) as [h1 v]; cbn [visit_node fst snd].
        destruct (visit_node c gs (path x) (depth x) v) as [g1 [|a down]]; [reflexivity|].
        destruct (f h' a) as [h2 [|]]; rewrite ?andb_true_r; reflexivity.
      + intros s [h [gs h']] d r [H1 H2]; cbn in H1, H2; apply Hcl in H1 as [H1 H3]; cbn in H1, H3; subst; split; [reflexivity|exact H3].
      + split; [exact Hi|reflexivity].
    - exists (fun s g' d r => bprune_R (run_chain_binary depth_of P c) f R g s (unpack g') d r); split; [|split].
      + eapply (simulates_iso _ pack unpack); [apply unpack_pack|apply pack_unpack| |apply bprune_sim with (vis := chain_vis0 c) (fx := fun h x a => f h (path x) a); [exact HR|]].
        * intros [h [gs h']] x; unfold vthen, prune_stage, chain_vis0, unpack; cbn [fst snd]; destruct (base h x) as [h1 v]; cbn [visit_node fst snd].
          destruct (visit_node c gs (path x) (depth x) v) as [g1 [|a down]]; [reflexivity|].
          destruct (f h' (path x) a) as [h2 [|]]; rewrite ?andb_true_r; reflexivity.
        * intros p x Hp h a; apply HE in Hp as [-> _]; reflexivity.
      + intros s [h [gs h']] d r [H1 H2]; cbn in H1, H2; apply Hcl in H1 as [H1 H3]; cbn in H1, H3; subst; split; [reflexivity|exact H3].
      + split; [exact Hi|reflexivity].
    - exists R; split; [|split; [exact Hcl|exact Hi]].
      eapply simulates_ext; [|apply depth_sim with (vis := chain_vis0 c) (depth := depth)].
      + intros [h gs] x; unfold vdepth, chain_vis0; cbn [fst snd visit_node]; destruct (base h x) as [h1 v].
        destruct (visit_node c gs (path x) (depth x) v) as [g1 [|a down]]; reflexivity.
      + exact HR.
      + intros p x Hp; apply HE in Hp as [_ Hp]; apply (HL _ _ Hp).
  Qed.
End ChainSim0.

(** ** map_path as such an iterator *)
Section One.
  Context {Nd V I C B G : Type} (grow : nat -> nat) (gv : Nd -> V * C) (into_iter : C -> list I) (sl : list I -> list (option Nd)).
  Variable pbody : nat -> list (list I) * list N -> Res (list (list I) * list N + option Nd * (list (list I) * list N)).
  Variable vbody : nat -> list (list I) * vec -> Res (list (list I) * vec + option Nd * (list (list I) * vec)).
  Variable inv : list (list I) -> list N -> Prop.
  Variable over : list N -> list N.
  Variable T : list nat -> list Nd -> Nd -> tree (pos Nd).
  Hypothesis Hsim : forall P0 s0, simulates (base_pipe gv into_iter pbody s0) (base_vis gv) pok_exact (base_R into_iter sl T P0).
  Hypothesis Hroot : forall p ab n, exists ts, T p ab n = TNode (mkPos p ab n) ts.
  Hypothesis Hloop : loop_rel inv over pbody vbody.
  Hypothesis Hinit : forall path, inv [] path.
  Hypothesis Hpush : forall stack path c, inv stack path -> inv (into_iter c :: stack) (usize_max :: path).
  Hypothesis over_len : forall l, length (over l) = length l.
  Hypothesis over_cons : forall x l, exists y, over (x :: l) = over l ++ [y].
  Variable seen : list N -> list N -> list N.
  Hypothesis seen_child : forall q p, length q < length p -> seen q p = q.
  Hypothesis seen_other : forall popped x x' p0, seen (rev (popped ++ x :: p0)) (rev (x' :: p0)) = rev (x' :: p0) ++ over popped.
  Hypothesis vbody_const : forall f f' s, vbody f s = vbody f' s.
  Hypothesis Hfacts : vbody_facts vbody.
  Hypothesis vbody_nil : forall f p, vbody f ([], p) = Ok (inr (None, ([], p))).
  Variable st : list nat -> list nat -> list nat.
  Notation small := (fun i => (N.of_nat i <= usize_max)%N).
  Hypothesis seen_wrap : forall q p, seen (map wrap q) (map wrap p) = map wrap (st q p).
  Hypothesis st_small : forall q p i, In i (st q p) -> In i q \/ In i p \/ small i.
  Hypothesis st_nil : forall p, st [] p = [].
  Context (f : G -> list N -> V -> G * B).

  Notation vnext := (vt_next_with grow gv into_iter vbody).
  Notation pnext := (pt_next_with gv into_iter pbody).

  (** A call after a prune: nothing is pushed. *)
  Lemma conv_nodeck cap id sv s o s' : rel inv cap id sv s -> pt_root s = None -> pt_deck s = None -> (fun k => pnext k s) ⇓ Ok (o, s') ->
    exists sv', (fun k => vnext k sv) ⇓ Ok (o, sv') /\ rel inv cap id sv' s' /\ length (pt_path s') <= length (pt_path s) /\
      match o with
      | None => True
      | Some _ => pt_root s' = None /\ vec_read (vt_path sv') (vec_slice (vt_path sv)) = Ok (seen (rev (pt_path s)) (rev (pt_path s')))
      end.
  Proof.
    intros (Er & Ed & Es & (lft & Ep) & Hi) Hr Hd [F HF].
    assert (Hone : exists sv', vnext F sv = Ok (o, sv') /\ rel inv cap id sv' s' /\ length (pt_path s') <= length (pt_path s) /\
      match o with
      | None => True
      | Some _ => pt_root s' = None /\ vec_read (vt_path sv') (vec_slice (vt_path sv)) = Ok (seen (rev (pt_path s)) (rev (pt_path s')))
      end).
    { pose proof (HF F (le_n F)) as E; unfold pt_next_with in E; unfold vt_next_with; rewrite Er, Hr, Ed, Hd in *; rewrite Es, Ep.
      destruct (loop pbody F (pt_stack s, pt_path s)) as [[o1 [st' p']]| | |] eqn:El; cbn [bindR] in E; try discriminate.
      destruct (Hloop F _ _ lft cap id _ _ _ Hi El) as (popped & Ev & Hi' & Ho); rewrite Ev; cbn [bindR].
      destruct o1 as [node|].
      - destruct (gv node) as [value children]; injection E as <- <-.
        destruct Ho as (x & x' & p0 & E1 & ->).
        eexists; split; [reflexivity|]; split; [|split].
        + split; [reflexivity|split; [reflexivity|split; [reflexivity|split; [eexists; reflexivity|exact Hi']]]].
        + cbn [pt_path]; rewrite E1, app_length; cbn; lia.
        + split; [reflexivity|]; cbn [vt_path pt_path]; rewrite E1, seen_other.
          unfold vec_read, vec_slice, vec_of; cbn [fst snd v_len v_id v_buf]; rewrite app_length; cbn [length].
          rewrite Nat.add_succ_r, Nat.eqb_refl, app_assoc; f_equal.
          replace (S (length popped + length p0)) with (length (rev (x' :: p0) ++ over popped)) by (rewrite app_length, over_len, rev_length; cbn; lia).
          rewrite firstn_app, Nat.sub_diag, firstn_all, app_nil_r; reflexivity.
      - injection E as <- <-; eexists; split; [reflexivity|]; split; [|split; [|exact Logic.I]].
        + split; [reflexivity|split; [reflexivity|split; [reflexivity|split; [eexists; reflexivity|exact Hi']]]].
        + cbn [pt_path]; rewrite Ho, app_length; lia. }
    destruct Hone as (sv' & E & H); exists sv'; split; [|exact H].
    exists F; intros k Hk; eapply vnext_more; eassumption.
  Qed.

  Lemma read_self (v : vec) path lft cap id : v = vec_of path lft cap id -> vec_read v (vec_slice v) = Ok (rev path).
  Proof.
    intros ->; unfold vec_read, vec_slice, vec_of; cbn [fst snd v_len v_id v_buf]; destruct path as [|x path]; [reflexivity|].
    rewrite Nat.eqb_refl; cbn [length]; rewrite (firstn_rev_app (x :: path)); reflexivity.
  Qed.

  Definition caps (cap : nat) (s : ptrack Nd I C) : Prop := cap = grow 0 \/ cap = 0 /\ pt_path s = [].

  Lemma adv P0 cap id sv s d r o d' r' g' : rel inv cap id sv s -> base_R into_iter sl T P0 s tt d r -> caps cap s ->
    (pt_deck s <> None -> length (pt_path s) < grow 0) -> vstep (base_vis gv) tt (d ++ r) = (o, d', r', g') ->
    exists sv' s' cap' id', (fun k => vnext k sv) ⇓ Ok (option_map fst o, sv') /\ rel inv cap' id' sv' s' /\ base_R into_iter sl T P0 s' tt d' r' /\ caps cap' s' /\
      match o with
      | None => pt_deck s' = None
      | Some (a, x) => a = nval gv (pos_here x) /\ pt_root s' = None /\ rev (pt_path s') = xseg x /\
          vec_read (vt_path sv') (vec_slice (vt_path sv)) = Ok (match pt_root s with Some _ => rev (pt_path s) | None => seen (rev (pt_path s)) (xseg x) end)
      end.
  Proof.
    intros Hrel HR Hcap Hlen Ev.
    destruct (sim_next _ _ _ _ (Hsim P0 s) s tt d r HR o d' r' g' Ev) as (s' & Hn & HR' & Hp); cbn [p_next base_pipe p_path] in Hn, Hp.
    assert (Ha : forall a x, o = Some (a, x) -> a = nval gv (pos_here x)).
    { intros a x ->; clear -Ev; destruct (d ++ r) as [|[y ts] l]; cbn in Ev; [discriminate|]; injection Ev as <- <- _ _ _; reflexivity. }
    assert (Hd0 : pt_root s = None -> o = None -> pt_deck s' = None).
    { intros Er ->; destruct Hn as [F HF]; specialize (HF F (le_n F)); unfold pt_next_with in HF; rewrite Er in HF.
      destruct (pt_deck s); (destruct (loop pbody F _) as [[[nd|] [s1 p1]]| | |]; cbn [bindR] in HF; try discriminate;
        [destruct (gv nd); discriminate|injection HF as <-; reflexivity]). }
    destruct g'; destruct (pt_root s) as [root|] eqn:Er.
    - destruct (conv_root grow gv into_iter pbody vbody inv vbody_const cap id sv s _ s' Hrel ltac:(congruence) Hn) as (sv' & Hv & Hrel' & Hr' & Hd' & Ep & Hread).
      exists sv', s', cap, id; split; [exact Hv|split; [exact Hrel'|split; [exact HR'|split]]].
      + unfold caps; rewrite Ep; exact Hcap.
      + destruct o as [[a x]|].
        * split; [apply Ha; reflexivity|split; [exact Hr'|split; [exact (Hp a x eq_refl)|]]].
          rewrite Hread; destruct Hrel as (_ & _ & _ & (lft & El) & _); eapply read_self; exact El.
        * exfalso; destruct Hn as [F HF]; specialize (HF F (le_n F)); unfold pt_next_with in HF; rewrite Er in HF; destruct (gv root); discriminate.
    - destruct (pt_deck s) as [c|] eqn:Ed.
      + specialize (Hlen ltac:(discriminate)).
        destruct (conv_deck grow gv into_iter pbody vbody inv over Hloop Hpush over_len over_cons seen seen_child seen_other vbody_const cap id sv s _ s' Hrel Er ltac:(congruence) Hn)
          as (sv' & Hv & Hrel' & Ho).
        eexists sv', s', _, _; split; [exact Hv|split; [exact Hrel'|split; [exact HR'|split]]].
        * left; destruct Hcap as [->|[-> E0]]; [rewrite (proj2 (Nat.ltb_lt _ _) Hlen); reflexivity|reflexivity].
        * destruct o as [[a x]|]; cbn [option_map] in Ho; [|auto].
          destruct Ho as (Hr' & _ & Hread); split; [apply Ha; reflexivity|split; [exact Hr'|split; [exact (Hp a x eq_refl)|]]].
          pose proof (Hp a x eq_refl) as Ep; unfold pok_exact, pt_current_path in Ep.
          rewrite Hread, Ep.
          replace ((length (pt_path s) <? cap) || (length (pt_path s) =? 0)) with true; [reflexivity|].
          destruct Hcap as [->|[-> E0]]; [rewrite (proj2 (Nat.ltb_lt _ _) Hlen); reflexivity|rewrite E0; reflexivity].
      + destruct (conv_nodeck cap id sv s _ s' Hrel Er Ed Hn) as (sv' & Hv & Hrel' & Hl & Ho).
        exists sv', s', cap, id; split; [exact Hv|split; [exact Hrel'|split; [exact HR'|split]]].
        * destruct Hcap as [->|[-> E0]]; [left; reflexivity|right; split; [reflexivity|]].
          rewrite E0 in Hl; cbn in Hl; destruct (pt_path s'); [reflexivity|cbn in Hl; lia].
        * destruct o as [[a x]|]; cbn [option_map] in Ho; [|auto].
          destruct Ho as (Hr' & Hread); split; [apply Ha; reflexivity|split; [exact Hr'|split; [exact (Hp a x eq_refl)|]]].
          pose proof (Hp a x eq_refl) as Ep; unfold pok_exact, pt_current_path in Ep; rewrite Hread, Ep; reflexivity.
  Qed.

  Definition okx (x : pos Nd) : Prop := length (pos_path x) < grow 0 /\ Forall small (pos_path x).
  Definition mbase (qg : list nat * G) (x : pos Nd) : (list nat * G) * B :=
    let '(g', b) := f (snd qg) (map N.of_nat (st (fst qg) (pos_path x))) (nval gv (pos_here x)) in ((pos_path x, g'), b).
  Definition mvis (qg : list nat * G) (x : pos Nd) : (list nat * G) * outcome B := let '(g1, v) := mbase qg x in (g1, Keep v true).

  Definition mp_R (P0 : list nat) (s : vtrack Nd I C * G) (qg : list nat * G) (d r : list (tree (pos Nd))) : Prop :=
    exists s0 cap id, rel inv cap id (fst s) s0 /\ base_R into_iter sl T P0 s0 tt d r /\ snd s = snd qg /\ caps cap s0 /\
      (pt_deck s0 <> None -> length (pt_path s0) < grow 0) /\ (pt_root s0 <> None -> fst qg = []) /\
      (d ++ r = [] \/ rev (pt_path s0) = map wrap (fst qg)) /\ Forall small (fst qg) /\ Forall okx (flat_map preorder (d ++ r)).

  Lemma small_seen q p : Forall small q -> Forall small p -> map wrap (st q p) = map N.of_nat (st q p).
  Proof.
    rewrite !Forall_forall; intros Hq Hp; apply map_ext_in; intros i Hi; apply wrap_small.
    destruct (st_small _ _ _ Hi) as [H|[H|H]]; auto.
  Qed.

  (** One call, before the closure. *)
  Lemma mp_step P0 sv g qg d r : mp_R P0 (sv, g) qg d r ->
    match d ++ r with
    | [] => exists sv', (fun k => vnext k sv) ⇓ Ok (None, sv') /\ mp_R P0 (sv', g) qg [] []
    | TNode x ts :: r' => exists sv', (fun k => vnext k sv) ⇓ Ok (Some (nval gv (pos_here x)), sv') /\ vec_list (vt_path sv') = xseg x /\
        vec_read (vt_path sv') (vec_slice (vt_path sv)) = Ok (map N.of_nat (st (fst qg) (pos_path x))) /\
        vt_root sv' = None /\
        forall g', mp_R P0 (sv', g') (pos_path x, g') ts r'
    end.
  Proof.
    intros (s0 & cap & id & Hrel & HR & Eg & Hcap & Hd & Hr & Hq & Hsq & Hok); cbn [fst snd] in *.
    destruct (d ++ r) as [|[x ts] r'] eqn:Edr.
    - destruct (adv P0 cap id sv s0 d r None [] [] tt Hrel HR Hcap Hd) as (sv' & s' & cap' & id' & Hv & Hrel' & HR' & Hcap' & Hd'); [rewrite Edr; reflexivity|].
      exists sv'; split; [exact Hv|]; exists s', cap', id'; cbn [fst snd app flat_map].
      repeat (split; [first [assumption|congruence]|]); split; [|split; [left; reflexivity|split; [exact Hsq|constructor]]].
      intros Hr'; exfalso; apply Hr'; destruct HR' as [(n & _ & _ & E)|(fs & E & _)]; [discriminate|exact E].
    - destruct (adv P0 cap id sv s0 d r (Some (nval gv (pos_here x), x)) ts r' tt Hrel HR Hcap Hd) as (sv' & s' & cap' & id' & Hv & Hrel' & HR' & Hcap' & _ & Hr' & Ep & Hread);
        [rewrite Edr; reflexivity|].
      cbn [flat_map preorder app] in Hok; inversion Hok as [|? ? [Hx1 Hx2] Hok']; subst.
      destruct Hq as [Hq|Hq]; [discriminate|].
      exists sv'; split; [exact Hv|split; [|split; [|split]]].
      + destruct Hrel' as (_ & _ & _ & (lft & ->) & _); rewrite vec_list_of; exact Ep.
      + rewrite Hread, <- small_seen by assumption; f_equal; destruct (pt_root s0) as [n|].
        * rewrite Hq; rewrite (Hr ltac:(discriminate)), st_nil; reflexivity.
        * rewrite Hq; apply seen_wrap.
      + destruct Hrel' as (-> & _); exact Hr'.
      + intros g'; exists s', cap', id'; cbn [fst snd].
        repeat (split; [first [assumption|congruence]|]).
        assert (El : length (pt_path s') = length (pos_path x)) by (rewrite <- (rev_length (pt_path s')), Ep; apply map_length).
        split; [rewrite El; auto|split; [congruence|split; [right; exact Ep|split; [exact Hx2|]]]].
        rewrite flat_map_app; exact Hok'.
  Qed.

  Lemma mp_prune P0 s qg d r : mp_R P0 s qg d r -> mp_R P0 (vt_prune (fst s), snd s) qg [] r.
  Proof.
    intros (s0 & cap & id & (E1 & E2 & E3 & E4 & E5) & HR & Eg & Hcap & Hd & Hr & Hq & Hsq & Hok).
    exists (pt_prune s0), cap, id; cbn [fst snd].
    split; [|split; [|split; [exact Eg|split; [exact Hcap|split; [cbn; congruence|split; [exact Hr|split; [|split; [exact Hsq|]]]]]]]].
    - split; [exact E1|split; [reflexivity|split; [exact E3|split; [exact E4|exact E5]]]].
    - exact (sim_prune _ _ _ _ (Hsim P0 s0) _ _ _ _ HR).
    - destruct Hq as [Hq|Hq]; [left; apply app_eq_nil in Hq as [_ ->]; reflexivity|right; exact Hq].
    - rewrite flat_map_app in Hok; apply Forall_app in Hok as [_ Hok]; exact Hok.
  Qed.

  Lemma mp_sim P0 s0 g0 : simulates (mpipe grow gv into_iter vbody f s0 g0) mvis pok_exact (mp_R P0).
  Proof.
    split; [|intros s qg d r; apply mp_prune|reflexivity].
    intros [sv g] qg d r HR o d' r' qg' E; pose proof (mp_step P0 sv g qg d r HR) as Hs.
    assert (Eg : g = snd qg) by (destruct HR as (? & ? & ? & _ & _ & Eg & _); exact Eg).
    destruct (d ++ r) as [|[x ts] l].
    - cbn in E; injection E as <- <- <- <-; destruct Hs as (sv' & [F HF] & HR').
      exists (sv', g); split; [|split; [exact HR'|discriminate]].
      exists F; intros k Hk; cbn; unfold map_path_next; cbn [fst snd p_next]; rewrite HF by exact Hk; reflexivity.
    - cbn [vstep] in E; unfold mvis, mbase in E; destruct Hs as (sv' & [F HF] & Ep & Hread & _ & HR').
      destruct (f (snd qg) _ _) as [g' b] eqn:Ef; injection E as <- <- <- <-.
      exists (sv', g'); split; [|split; [apply HR'|intros a y Ey; injection Ey as _ <-; exact Ep]].
      exists F; intros k Hk; cbn; unfold map_path_next; cbn [fst snd p_next]; rewrite HF by exact Hk; cbn [bindR].
      rewrite Hread; cbn [bindR]; rewrite Eg, Ef; reflexivity.
  Qed.

  Lemma mp_init n g : Forall okx (preorder (T [] [] n)) -> mp_R [] (vt_new n (vec_new 0), g) ([], g) [] [T [] [] n].
  Proof.
    intros Hok; exists (pt_new n []), 0, 0; cbn [fst snd].
    split; [split; [reflexivity|split; [reflexivity|split; [reflexivity|split; [exists []; reflexivity|apply Hinit]]]]|].
    split; [apply (base_R_init into_iter sl T [] n)|]; split; [reflexivity|split; [right; auto|split; [cbn; congruence|split; [reflexivity|split; [right; reflexivity|split; [constructor|]]]]]].
    cbn; rewrite app_nil_r; exact Hok.
  Qed.

  (** *** A collection of one tree *)
  Definition mc_R (n : Nd) (s : vctrack Nd I C * G) (qg : list nat * G) (d r : list (tree (pos Nd))) : Prop :=
    fst s = vc_new [n] /\ snd s = snd qg /\ fst qg = [] /\ d = [] /\ r = [T [0] [] n] /\ Forall okx (preorder (T [0] [] n)) \/
    exists sv, fst s = mkVc [] 1%N (Some sv) /\ mp_R [0] (sv, snd s) qg d r.

  Lemma mc_sim n g0 : simulates (cpipe grow gv into_iter vbody f [n] g0) mvis pok_exact (mc_R n).
  Proof.
    split; [|intros s qg d r|intros [[ts c [sv|]] g]; reflexivity].
    - intros [vc g] qg d r HR o d' r' qg' E; destruct HR as [(Evc & Eg & Eq & -> & -> & Hok)|(sv & Evc & HR)]; cbn [fst snd] in *; subst vc.
      + pose proof (sim_next _ _ _ _ (Hsim [0] (pt_new n (map wrap [0]))) _ tt [] [T [0] [] n] (base_R_init into_iter sl T [0] n)) as Hb.
        destruct (Hroot [0] [] n) as (ts & ET); rewrite ET in *; cbn [app vstep base_vis] in Hb, E; unfold mvis, mbase in E.
        cbn [pos_path pos_here] in E; rewrite Eq, st_nil, <- Eg in E; cbn [map] in E.
        destruct (Hb _ _ _ _ eq_refl) as (s' & Hn & HR' & _); clear Hb; cbn [option_map fst pos_here] in Hn.
        set (s1 := mkPt None (rev (map wrap [0])) (Some (snd (gv n))) [] : ptrack Nd I C).
        assert (Es : s' = s1).
        { destruct Hn as [F HF]; specialize (HF F (le_n F)); cbn [p_next base_pipe] in HF; unfold pt_next_with, pt_new in HF; cbn [pt_root pt_path pt_stack] in HF.
          unfold s1; destruct (gv n) as [v ch]; injection HF as _ <-; reflexivity. }
        subst s'; set (sv1 := mkVt None (vec_of (rev (map wrap [0])) [] (grow 0) 1) (Some (snd (gv n))) [] : vtrack Nd I C).
        destruct (f g [] (nval gv n)) as [g' b] eqn:Ef; injection E as <- <- <- <-.
        exists (mkVc [] 1%N (Some sv1), g'); split; [|split].
        * exists 2; intros [|[|k]] Hk; try lia.
          cbn [p_next cpipe map_path]; unfold map_path_next, vc_next, vc_new; cbn [fst snd p_next loop vc_body vc_cur vc_trees vc_count vc_take fresh_id].
          replace (checked_succ 0) with (Ok 1%N) by reflexivity; cbn [bindR vc_body vc_cur vc_trees vc_count].
          change (vec_push grow (vec_new 0) 0%N) with (vec_of (rev (map wrap [0])) [] (grow 0) 1).
          unfold vt_next_with; cbn [vt_new vt_root vt_path vt_stack]; unfold sv1, nval in *; destruct (gv n) as [v ch]; cbn [bindR fst snd vc_slice vc_read vc_cur vec_read].
          cbn [fst] in Ef; rewrite Ef; reflexivity.
        * right; exists sv1; split; [reflexivity|]; exists s1, (grow 0), 1; cbn [fst snd].
          cbn [preorder] in Hok; inversion Hok as [|? ? [Hx1 Hx2] Hok']; subst; cbn [pos_path] in Hx1, Hx2.
          split; [split; [reflexivity|split; [reflexivity|split; [reflexivity|split; [exists []; reflexivity|apply Hinit]]]]|].
          split; [exact HR'|split; [reflexivity|split; [left; reflexivity|split; [intros _; exact Hx1|split; [cbn; congruence|split; [right; reflexivity|split; [exact Hx2|]]]]]]].
          rewrite app_nil_r; exact Hok'.
        * intros a x Ex; injection Ex as _ <-; cbn [p_path cpipe map_path fst vc_path vc_cur vt_path sv1]; rewrite vec_list_of; reflexivity.
      + pose proof (mp_step [0] sv g qg d r HR) as Hs.
        assert (Eg : g = snd qg) by (destruct HR as (? & ? & ? & _ & _ & Eg & _); exact Eg).
        destruct (d ++ r) as [|[x ts] l].
        * cbn in E; injection E as <- <- <- <-; destruct Hs as (sv' & [F HF] & HR').
          exists (mkVc [] 1%N (Some sv'), g); split; [|split; [right; exists sv'; auto|discriminate]].
          exists (S F); intros [|k] Hk; [lia|]; cbn [p_next cpipe map_path]; unfold map_path_next, vc_next; cbn [fst snd p_next loop vc_body vc_cur vc_trees vc_count].
          rewrite HF by lia; reflexivity.
        * cbn [vstep] in E; unfold mvis, mbase in E; destruct Hs as (sv' & [F HF] & Ep & Hread & _ & HR').
          destruct (f (snd qg) _ _) as [g' b] eqn:Ef; injection E as <- <- <- <-.
          exists (mkVc [] 1%N (Some sv'), g'); split; [|split; [right; exists sv'; auto|intros a y Ey; injection Ey as _ <-; exact Ep]].
          exists (S F); intros [|k] Hk; [lia|]; cbn [p_next cpipe map_path]; unfold map_path_next, vc_next; cbn [fst snd p_next loop vc_body vc_cur vc_trees vc_count vc_slice].
          rewrite HF by lia; cbn [bindR vc_read vc_cur]; rewrite Hread; cbn [bindR]; rewrite Eg, Ef; reflexivity.
    - destruct s as [vc g]; intros [(E1 & E2 & E3 & -> & E5)|(sv & E1 & HR)]; cbn [fst snd] in *; subst vc.
      + left; auto.
      + right; exists (vt_prune sv); split; [reflexivity|]; exact (mp_prune _ _ _ _ _ HR).
  Qed.

  Lemma mc_init n g : Forall okx (preorder (T [0] [] n)) -> mc_R n (vc_new [n], g) ([], g) [] [T [0] [] n].
  Proof. intros Hok; left; cbn; auto 10. Qed.
End One.

(** ** Results *)
Lemma stale_in (q p : list nat) i : In i (stale q p) -> In i q \/ In i p \/ (N.of_nat i <= usize_max)%N.
Proof.
  unfold stale; destruct (length q <? length p); intros H; [auto|]; apply in_app_or in H as [H|H]; [auto|].
  left; rewrite <- (firstn_skipn (length p) q); apply in_or_app; auto.
Qed.
Lemma bstale_in (q p : list nat) i : In i (bstale q p) -> In i q \/ In i p \/ (N.of_nat i <= usize_max)%N.
Proof.
  unfold bstale; destruct (length q <? length p); intros H; [auto|]; apply in_app_or in H as [H|H]; [auto|].
  apply repeat_spec in H; subst; right; right; unfold usize_max; lia.
Qed.
Lemma stale_nil p : stale [] p = [].
Proof. destruct p; reflexivity. Qed.
Lemma bstale_nil p : bstale [] p = [].
Proof. destruct p; reflexivity. Qed.

Section Trees.
  Context {Nd V B G A : Type} (grow : nat -> nat) (f : G -> list N -> V -> G * B) (c : chain B A).

  Section Nary.
    Context (gvc : Nd -> V * list Nd) (nt : Nd -> tree Nd).
    Hypothesis H : node_tree gvc nt.
    Notation T := (fun p ab n => annotate p ab (nt n)).

    Lemma n_okx n p0 : small_nodes gvc (nt n) -> Forall (fun i => (N.of_nat i <= usize_max)%N) p0 ->
      Forall (fun p => length p < grow 0) (map pos_path (preorder (annotate p0 [] (nt n)))) ->
      Forall (okx (Nd := Nd) grow) (preorder (annotate p0 [] (nt n))) /\
      forall x, In x (preorder (annotate p0 [] (nt n))) -> xpath x = map N.of_nat (pos_path x).
    Proof.
      intros Hs H0 Hd; rewrite Forall_map in Hd.
      assert (HX : forall x, In x (preorder (annotate p0 [] (nt n))) -> Forall (fun i => (N.of_nat i <= usize_max)%N) (pos_path x)).
      { intros x Hx; destruct (small_indexes gvc nt H n Hs p0 [] x Hx) as (q & -> & Hq); apply Forall_app; split; [exact H0|].
        eapply Forall_impl; [|exact Hq]; cbn; intros; lia. }
      split; [|intros x Hx; unfold xpath; apply map_ext_in; intros i Hi; apply wrap_small; specialize (HX x Hx); rewrite Forall_forall in HX; auto].
      apply Forall_forall; intros x Hx; rewrite Forall_forall in Hd; split; auto.
    Qed.

    Lemma map_path_chain n g : small_nodes gvc (nt n) -> Forall (fun p => length p < grow 0) (node_paths (nt n)) ->
      true_paths c = true -> (has_prune c = true -> (N.of_nat (length (preorder (nt n))) <= usize_max)%N) ->
      let P := map_path (vt_pipeline grow gvc n) (fun s => vec_slice (vt_path s)) (fun s => vec_read (vt_path s)) f g in
      let '((q, g', gs), o) := walk (after_map_path stale (nval gvc) f (@length nat) c) ([], g, clos_init c) (positions (nt n)) in
      exists s, collect_tree (tree_chain P c) ⇓ Ok (o, s) /\ snd (chain_first _ _ P c s) = g' /\ closures _ _ P c s = gs.
    Proof.
      intros Hs Hd Ht Hb P.
      destruct (n_okx n [] Hs ltac:(constructor) Hd) as (Hok & Hx).
      destruct (chain_sim0 P tree_depth [] (mbase gvc stale f) xpath xdepth pok_exact pok_len pok_exact_facts pok_len_facts
        (mp_R grow (fun l => l) (map Some) ninv T [])
        (mp_sim grow gvc (fun l => l) (map Some) pt_body vt_body ninv (@rev N) T (fun P0 s0 => nary_sim gvc nt P0 s0 H)
          nary_loop n_push (@rev_length N) over_rev_cons seen_n seen_n_child seen_n_other (fun _ _ _ => eq_refl) stale seen_n_wrap stale_in stale_nil f [] (vt_new n (vec_new 0)) g)
        ([], g) [] [positions (nt n)]
        (mp_init grow (fun l => l) (map Some) ninv T n_init n g Hok) c Ht) as (R & HR & Hcl & Hi).
      { intros Hp; split; [|constructor]; cbn [app]; unfold fsize; cbn [map]; unfold positions; rewrite tsize_annotate; cbn [list_sum fold_right].
        rewrite Nat.add_0_r; auto. }
      destruct (sim_items _ _ _ _ HR _ _ _ _ Hi) as (s & Hit & HR'); cbn [app] in Hit, HR'.
      set (w := walk (with_node (after_map_path stale (nval gvc) f (@length nat) c)) ([], g, clos_init c) (positions (nt n))).
      assert (Ew : walk_all (with_node (chain_vis0 (mbase gvc stale f) xpath xdepth c)) ([], g, clos_init c) [positions (nt n)] = (fst w, opt_list (snd w))).
      { unfold walk_all; rewrite walk_list_cons.
        rewrite (walk_ext_in _ (with_node (after_map_path stale (nval gvc) f (@length nat) c))).
        - fold w; destruct w as [gg o]; rewrite walk_list_nil; cbn; rewrite app_nil_r; reflexivity.
        - intros [[q g0] gs0] x Hxx; unfold with_node, chain_vis0, after_map_path, mbase; cbn [fst snd].
          destruct (f g0 _ _) as [g1 b]; rewrite (Hx x Hxx); unfold xdepth; destruct (visit_node c gs0 _ _ b) as [gs1 r]; reflexivity. }
      rewrite Ew in Hit, HR'; cbn [fst snd] in Hit, HR'.
      rewrite walk_visx; fold w.
      pose proof (walk_below (after_map_path stale (nval gvc) f (@length nat) c) (nt n) [] [] ([], g, clos_init c)) as Hbelow; fold (positions (nt n)) w in Hbelow.
      destruct w as [[[q g'] gs] o]; cbn [fst snd] in *.
      exists s; destruct (Hcl _ _ _ _ HR') as (E1 & d1 & r1 & (s0 & cap0 & id0 & _ & _ & E2 & _)); split; [|split; [exact E2|exact E1]].
      eapply collect_ok; [| |exact Hit].
      - intros p x; destruct (has_prune c); [auto|]; intros Hp; apply pok_exact_facts in Hp as [_ Hp]; exact Hp.
      - destruct o as [t|]; [apply Hbelow; reflexivity|exact I].
    Qed.

    Lemma map_path_each_chain n g : small_nodes gvc (nt n) -> Forall (fun p => S (length p) < grow 0) (node_paths (nt n)) ->
      true_paths c = true -> (has_prune c = true -> (N.of_nat (length (preorder (nt n))) <= usize_max)%N) ->
      let P := map_path_each grow f gvc g [n] in
      let C := each_chain P c in
      let '((q, g', gs), o) := walk (after_map_path stale (nval gvc) f (fun p => pred (length p)) c) ([], g, clos_init c) (annotate [0] [] (nt n)) in
      forall k, exists s ahead, calls (trees_next C) k (trees_new C) ⇓ Ok (map (nth_error (opt_list o)) (seq 0 k), (s, ahead, tt)) /\
        (1 < k -> snd (chain_first _ _ P c s) = g' /\ closures _ _ P c s = gs).
    Proof.
      intros Hs Hd Ht Hb P C.
      destruct (n_okx n [0] Hs) as (Hok & Hx).
      { constructor; [unfold usize_max; lia|constructor]. }
      { rewrite paths_first, Forall_map; exact Hd. }
      assert (Hrt : Forall rooted (flat_map preorder [annotate [0] [] (nt n)])).
      { cbn; rewrite app_nil_r; apply Forall_forall; intros x Hxx; eapply in_annotate_rooted; exact Hxx. }
      destruct (chain_sim0 P coll_depth [0%N] (mbase gvc stale f) xpath (fun x => N.of_nat (cdepth x)) pok_exact1 pok_len1 pok_exact1_facts pok_len1_facts
        _ (simulates_keeps _ _ _ _ rooted
        (mc_sim grow gvc (fun l => l) (map Some) pt_body vt_body ninv (@rev N) T (fun P0 s0 => nary_sim gvc nt P0 s0 H) (n_root gvc nt H)
          nary_loop n_init n_push (@rev_length N) over_rev_cons seen_n seen_n_child seen_n_other (fun _ _ _ => eq_refl) stale seen_n_wrap stale_in stale_nil f n g))
        ([], g) [] [annotate [0] [] (nt n)]
        (conj (mc_init grow (fun l => l) (map Some) ninv T n g Hok) Hrt) c Ht) as (R & HR & Hcl & Hi).
      { intros Hp; cbn [app]; unfold fsize; cbn [map]; rewrite tsize_annotate; cbn [list_sum fold_right]; rewrite Nat.add_0_r.
        split; [auto|]; constructor; [|constructor]; rewrite N.add_0_l; auto. }
      destruct (sim_items _ _ _ _ HR _ _ _ _ Hi) as (s & Hit & HR'); cbn [app] in Hit, HR'.
      set (vis := after_map_path stale (nval gvc) f (fun p => pred (length p)) c) in *.
      set (w := walk (with_node vis) ([], g, clos_init c) (annotate [0] [] (nt n))).
      assert (Ew : walk_all (with_node (chain_vis0 (mbase gvc stale f) xpath (fun x => N.of_nat (cdepth x)) c)) ([], g, clos_init c) [annotate [0] [] (nt n)] = (fst w, opt_list (snd w))).
      { unfold walk_all; rewrite walk_list_cons.
        rewrite (walk_ext_in _ (with_node vis)).
        - fold w; destruct w as [gg o]; rewrite walk_list_nil; cbn; rewrite app_nil_r; reflexivity.
        - intros [[q g0] gs0] x Hxx; unfold with_node, chain_vis0, vis, after_map_path, mbase; cbn [fst snd].
          destruct (f g0 _ _) as [g1 b]; rewrite (Hx x Hxx); unfold cdepth; destruct (visit_node c gs0 _ _ b) as [gs1 r]; reflexivity. }
      rewrite Ew in Hit, HR'; cbn [fst snd] in Hit, HR'.
      rewrite walk_visx; fold w.
      pose proof (walk_below vis (nt n) [0] [] ([], g, clos_init c)) as Hbelow; fold w in Hbelow.
      destruct w as [[[q g'] gs] o]; cbn [fst snd] in *.
      intros k; destruct (trees_all C _ (pok_len1_any (has_prune c) Nd) (fun i => R i (q, g', gs) [] []) (sim_ended _ _ _ _ _ HR) (opt_list o) s) with (k := k) as (i & ahead & E & Hk).
      - destruct o as [t|]; constructor; [|constructor]; exists 0; apply Hbelow; reflexivity.
      - exact HR'.
      - exact Hit.
      - exists i, ahead; split; [destruct o; exact E|]; intros Hlt.
        destruct (Hcl _ _ _ _ (Hk ltac:(destruct o; cbn; lia))) as (E1 & d1 & r1 & HM & _); split; [|exact E1].
        destruct HM as [(_ & E2 & _)|(sv & _ & s0 & cap0 & id0 & _ & _ & E2 & _)]; exact E2.
    Qed.
  End Nary.

  Section Binary.
    Context (gvcb : Nd -> V * (option Nd * option Nd)) (bt : Nd -> btree Nd).
    Hypothesis H : node_btree gvcb bt.
    Notation T := (fun p ab n => flat (bannotate p ab (bt n))).

    Lemma b_okx n p0 : Forall (fun i => (N.of_nat i <= usize_max)%N) p0 ->
      Forall (fun p => length p < grow 0) (map pos_path (preorder (flat (bannotate p0 [] (bt n))))) ->
      Forall (okx (Nd := Nd) grow) (preorder (flat (bannotate p0 [] (bt n)))) /\
      forall x, In x (preorder (flat (bannotate p0 [] (bt n)))) -> xpath x = map N.of_nat (pos_path x).
    Proof.
      intros H0 Hd; rewrite Forall_map in Hd.
      assert (HX : forall x, In x (preorder (flat (bannotate p0 [] (bt n)))) -> Forall (fun i => (N.of_nat i <= usize_max)%N) (pos_path x)).
      { intros x Hx; destruct (bannotate_indexes _ _ _ _ Hx) as (q & -> & Hq); apply Forall_app; split; [exact H0|].
        eapply Forall_impl; [|exact Hq]; cbn; unfold usize_max; intros; lia. }
      split; [|intros x Hx; unfold xpath; apply map_ext_in; intros i Hi; apply wrap_small; specialize (HX x Hx); rewrite Forall_forall in HX; auto].
      apply Forall_forall; intros x Hx; rewrite Forall_forall in Hd; split; auto.
    Qed.

    Lemma bmap_path_chain n g : Forall (fun p => length p < grow 0) (bnode_paths (bt n)) ->
      let P := map_path (vtb_pipeline grow gvcb n) (fun s => vec_slice (vt_path s)) (fun s => vec_read (vt_path s)) f g in
      let '((q, g', gs), o) := bwalk (after_map_path bstale (nval gvcb) f (@length nat) c) ([], g, clos_init c) (bpositions (bt n)) in
      exists s, bcollect_tree (btree_chain P c) ⇓ Ok (o, s) /\ snd (chain_first_binary _ P c s) = g' /\ closures_binary _ P c s = gs.
    Proof.
      intros Hd P.
      destruct (b_okx n [] ltac:(constructor) Hd) as (Hok & Hx).
      destruct (bchain_sim0 P tree_depth (mbase gvcb bstale f) xpath xdepth pok_exact pok_len pok_exact_facts pok_len_facts
        (mp_R grow pair_iter (fun l => l) binv T [])
        (mp_sim grow gvcb pair_iter (fun l => l) ptb_body vtb_body binv (fun l => repeat 1%N (length l)) T (fun P0 s0 => binary_sim gvcb bt P0 s0 H)
          binary_loop b_push (fun l => repeat_length 1%N (length l)) over_rep_cons seen_b seen_b_child seen_b_other (fun _ _ _ => eq_refl) bstale seen_b_wrap bstale_in bstale_nil f [] (vt_new n (vec_new 0)) g)
        ([], g) [] [flat (bpositions (bt n))]
        (mp_init grow pair_iter (fun l => l) binv T b_init n g Hok) c) as (R & HR & Hcl & Hi).
      destruct (sim_items _ _ _ _ HR _ _ _ _ Hi) as (s & Hit & HR'); cbn [app] in Hit, HR'.
      set (vis := after_map_path bstale (nval gvcb) f (@length nat) c) in *.
      set (w := bwalk (with_node vis) ([], g, clos_init c) (bpositions (bt n))).
      assert (Ew : walk_all (with_node (chain_vis0 (mbase gvcb bstale f) xpath xdepth c)) ([], g, clos_init c) [flat (bpositions (bt n))] =
                   (fst w, opt_list (option_map flat (snd w)))).
      { unfold walk_all; rewrite walk_list_cons.
        rewrite (walk_ext_in _ (with_node vis)).
        - rewrite walk_flat; fold w; destruct w as [gg o]; rewrite walk_list_nil; cbn; rewrite app_nil_r; reflexivity.
        - intros [[q g0] gs0] x Hxx; unfold with_node, chain_vis0, vis, after_map_path, mbase; cbn [fst snd].
          destruct (f g0 _ _) as [g1 b]; rewrite (Hx x Hxx); unfold xdepth; destruct (visit_node c gs0 _ _ b) as [gs1 r]; reflexivity. }
      rewrite Ew in Hit, HR'; cbn [fst snd] in Hit, HR'.
      rewrite bwalk_visx; fold w.
      pose proof (bwalk_below vis (bt n) [] [] ([], g, clos_init c)) as Hbelow; fold (bpositions (bt n)) w in Hbelow.
      destruct w as [[[q g'] gs] o]; cbn [fst snd] in *.
      exists s; destruct (Hcl _ _ _ _ HR') as (E1 & d1 & r1 & (s0 & cap0 & id0 & _ & _ & E2 & _)); split; [|split; [exact E2|exact E1]].
      eapply bcollect_ok; [| | |exact Hit]; try (intros p x Hp; apply pok_exact_facts in Hp; tauto).
      destruct o as [t|]; [apply Hbelow; reflexivity|exact I].
    Qed.

    Lemma bmap_path_each_chain n g : Forall (fun p => S (length p) < grow 0) (bnode_paths (bt n)) ->
      let P := bmap_path_each grow f gvcb g [n] in
      let C := each_chain_binary P c in
      let '((q, g', gs), o) := bwalk (after_map_path bstale (nval gvcb) f (fun p => pred (length p)) c) ([], g, clos_init c) (bannotate [0] [] (bt n)) in
      forall k, exists s ahead, calls (btrees_next C) k (trees_new C) ⇓ Ok (map (nth_error (opt_list o)) (seq 0 k), (s, ahead, tt)) /\
        (1 < k -> snd (chain_first_binary _ P c s) = g' /\ closures_binary _ P c s = gs).
    Proof.
      intros Hd P C.
      destruct (b_okx n [0]) as (Hok & Hx).
      { constructor; [unfold usize_max; lia|constructor]. }
      { rewrite bpaths_first, Forall_map; exact Hd. }
      assert (Hrt : Forall rooted (flat_map preorder [flat (bannotate [0] [] (bt n))])).
      { cbn [flat_map]; rewrite app_nil_r; apply Forall_forall; intros x Hxx; eapply in_bannotate_rooted; exact Hxx. }
      destruct (bchain_sim0 P coll_depth (mbase gvcb bstale f) xpath (fun x => N.of_nat (cdepth x)) pok_exact1 pok_len1 pok_exact1_facts pok_len1_facts
        _ (simulates_keeps _ _ _ _ rooted
        (mc_sim grow gvcb pair_iter (fun l => l) ptb_body vtb_body binv (fun l => repeat 1%N (length l)) T (fun P0 s0 => binary_sim gvcb bt P0 s0 H) (b_root gvcb bt H)
          binary_loop b_init b_push (fun l => repeat_length 1%N (length l)) over_rep_cons seen_b seen_b_child seen_b_other (fun _ _ _ => eq_refl) bstale seen_b_wrap bstale_in bstale_nil f n g))
        ([], g) [] [flat (bannotate [0] [] (bt n))]
        (conj (mc_init grow pair_iter (fun l => l) binv T n g Hok) Hrt) c) as (R & HR & Hcl & Hi).
      destruct (sim_items _ _ _ _ HR _ _ _ _ Hi) as (s & Hit & HR'); cbn [app] in Hit, HR'.
      set (vis := after_map_path bstale (nval gvcb) f (fun p => pred (length p)) c) in *.
      set (w := bwalk (with_node vis) ([], g, clos_init c) (bannotate [0] [] (bt n))).
      assert (Ew : walk_all (with_node (chain_vis0 (mbase gvcb bstale f) xpath (fun x => N.of_nat (cdepth x)) c)) ([], g, clos_init c) [flat (bannotate [0] [] (bt n))] =
                   (fst w, opt_list (option_map flat (snd w)))).
      { unfold walk_all; rewrite walk_list_cons.
        rewrite (walk_ext_in _ (with_node vis)).
        - rewrite walk_flat; fold w; destruct w as [gg o]; rewrite walk_list_nil; cbn; rewrite app_nil_r; reflexivity.
        - intros [[q g0] gs0] x Hxx; unfold with_node, chain_vis0, vis, after_map_path, mbase; cbn [fst snd].
          destruct (f g0 _ _) as [g1 b]; rewrite (Hx x Hxx); unfold cdepth; destruct (visit_node c gs0 _ _ b) as [gs1 r]; reflexivity. }
      rewrite Ew in Hit, HR'; cbn [fst snd] in Hit, HR'.
      rewrite bwalk_visx; fold w.
      pose proof (bwalk_below vis (bt n) [0] [] ([], g, clos_init c)) as Hbelow; fold w in Hbelow.
      destruct w as [[[q g'] gs] o]; cbn [fst snd] in *.
      intros k; destruct (btrees_all C _ (exact1_len1 Nd) (fun i => R i (q, g', gs) [] []) (sim_ended _ _ _ _ _ HR) (exact1_path Nd) (opt_list o) s) with (k := k) as (i & ahead & E & Hk).
      - destruct o as [t|]; constructor; [|constructor]; exists 0; apply Hbelow; reflexivity.
      - exact HR'.
      - destruct o; exact Hit.
      - exists i, ahead; split; [destruct o; exact E|]; intros Hlt.
        destruct (Hcl _ _ _ _ (Hk ltac:(destruct o; cbn; lia))) as (E1 & d1 & r1 & HM & _); split; [|exact E1].
        destruct HM as [(_ & E2 & _)|(sv & _ & s0 & cap0 & id0 & _ & _ & E2 & _)]; exact E2.
    Qed.
  End Binary.
End Trees.
