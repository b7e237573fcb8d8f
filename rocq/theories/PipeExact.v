(** * PipeExact: n-ary chains, with the paths which their stages report. *)
From Verif Require Import Prelim PrelimFacts Spec SpecFacts SpecPipe SpecDrift ModelNode NodeFacts ModelPre ModelPipe ProofsPlain Slots
  PipeCore PipeBase PipeChain PipeEnd ProofsPipe PipeFinal.

Lemma bump_last_length v : length (bump_last v) = length v.
Proof. induction v as [|x [|y v] IH]; [reflexivity|reflexivity|]; cbn in *; f_equal; exact IH. Qed.

Lemma drift_length d v : length (drift d v) = d.
Proof.
  unfold drift; destruct (Nat.ltb_spec (length v) d).
  - rewrite app_length, repeat_length; lia.
  - destruct (Nat.ltb_spec d (length v)); [|lia].
    rewrite bump_last_length, firstn_length; lia.
Qed.

Lemma bump_last_firstn k v : k < length v -> firstn k (bump_last v) = firstn k v.
Proof.
  revert k; induction v as [|x [|y v] IH]; intros k Hk; [cbn in Hk; lia|cbn in Hk; replace k with 0 by lia; reflexivity|].
  destruct k as [|k]; [reflexivity|].
  change (bump_last (x :: y :: v)) with (x :: bump_last (y :: v)); cbn [firstn]; f_equal; apply IH; cbn in *; lia.
Qed.

Lemma drift_prefix k d v : k < d -> k <= length v -> firstn k (drift d v) = firstn k v.
Proof.
  intros Hk Hl; unfold drift; destruct (Nat.ltb_spec (length v) d).
  - rewrite firstn_app; replace (k - length v) with 0 by lia; cbn; apply app_nil_r.
  - destruct (Nat.ltb_spec d (length v)); [|reflexivity].
    rewrite bump_last_firstn by (rewrite firstn_length; lia).
    rewrite firstn_firstn; f_equal; lia.
Qed.

Lemma succ_last_bump k v : vec_ok (S k) v -> succ_last v = Ok (bump_last v) /\ vec_ok k (bump_last v).
Proof.
  intros Hv; induction Hv as [|x v Hx Hv IH]; [split; [reflexivity|constructor]|].
  destruct v as [|y v].
  - cbn; rewrite checked_succ_lt by lia; split; [reflexivity|]; constructor; [lia|constructor].
  - destruct IH as [E H']; split.
    + change (succ_last (x :: y :: v)) with (w <- succ_last (y :: v) ;; Ok (x :: w)); rewrite E; reflexivity.
    + change (bump_last (x :: y :: v)) with (x :: bump_last (y :: v)); constructor; [lia|exact H'].
Qed.

Lemma prune_resize_drift k len pruned path : (N.of_nat (S k) <= usize_max)%N -> length pruned = length path ->
  vec_ok (S k) pruned -> vec_ok (S k) path ->
  exists pruned', prune_resize len pruned path = Ok (pruned', drift len path) /\
    length pruned' = len /\ vec_ok (S k) pruned' /\ vec_ok k (drift len path).
Proof.
  intros Hk El Hp Hq; unfold prune_resize, drift; rewrite El.
  destruct (Nat.ltb_spec (length path) len).
  - eexists; repeat split.
    + rewrite app_length, repeat_length; lia.
    + apply vec_ok_repeat; [lia|exact Hp].
    + apply vec_ok_repeat; [lia|]; eapply vec_ok_le; [|exact Hq]; lia.
  - destruct (Nat.ltb_spec len (length path)).
    + destruct (succ_last_bump k (firstn len path)) as (E & Hv'); [apply vec_ok_firstn; exact Hq|].
      rewrite E; cbn; eexists; repeat split.
      * rewrite firstn_length; lia.
      * apply vec_ok_firstn; exact Hp.
      * exact Hv'.
    + eexists; repeat split; [lia|exact Hp|]; eapply vec_ok_le; [|exact Hq]; lia.
Qed.

(** ** A pipeline performs a walk and reports the paths [pth] *)
Definition segs_ok (p : list N) : Prop := Forall (fun y => (y <= usize_max)%N) p.

Record simx {A G X : Type} (P : pipe A) (vis : G -> X -> G * outcome A) (pth : G -> X -> list N) (len : X -> nat)
    (R : p_state P -> G -> list (tree X) -> list (tree X) -> Prop) : Prop := mkSimx {
  sx_next : forall s g d r, R s g d r ->
    forall o d' r' g', vstep vis g (d ++ r) = (o, d', r', g') ->
    exists s', (fun f => p_next P f s) ⇓ Ok (option_map fst o, s') /\ R s' g' d' r' /\
      (forall a x, o = Some (a, x) -> p_path P s' = pth g' x /\ length (p_path P s') = len x /\ segs_ok (p_path P s'));
  sx_prune : forall s g d r, R s g d r -> R (p_prune P s) g [] r;
  sx_path : forall s, p_path P (p_prune P s) = p_path P s
}.

Section XMap.
  Context {A B G H X : Type} (inner : pipe A) (f : H -> A -> H * B) (h0 : H).
  Context (vis : G -> X -> G * outcome A) (pth : G -> X -> list N) (len : X -> nat)
    (R : p_state inner -> G -> list (tree X) -> list (tree X) -> Prop).
  Hypothesis Hsim : simx inner vis pth len R.

  Lemma xmap_sim : simx (map_tree inner f h0) (vthen vis (map_stage f)) (fun gh x => pth (fst gh) x) len (map_R inner f h0 R).
  Proof.
    destruct Hsim as [H1 H2 H3]; split.
    - intros [s h'] [g h] d r [HR Eh] o d' r' g' E; cbn in HR, Eh; subst h'.
      rewrite vstep_then in E.
      destruct (vstep vis g (d ++ r)) as [[[o1 d1] r1] g1] eqn:E1.
      destruct (H1 s g d r HR _ _ _ _ E1) as (s1 & Hc & HR1 & Hp).
      destruct o1 as [[a x]|].
      + unfold map_stage in E; destruct (f h a) as [h1 b] eqn:Ef; injection E as <- <- <- <-.
        exists (s1, h1); split; [|split].
        * cbn; unfold map_next; eapply conv_bind; [exact Hc|]; cbn; rewrite Ef; now_conv.
        * split; [exact HR1|reflexivity].
        * intros b' x' E; injection E as <- <-; apply (Hp a x eq_refl).
      + injection E as <- <- <- <-; exists (s1, h); split; [|split].
        * cbn; unfold map_next; eapply conv_bind; [exact Hc|]; now_conv.
        * destruct (vstep_size vis g (d ++ r) _ _ _ _ E1) as [-> ->]; split; [exact HR1|reflexivity].
        * intros; discriminate.
    - intros [s h'] [g h] d r [HR Eh]; split; [apply (H2 _ _ _ _ HR)|exact Eh].
    - intros [s h]; apply H3.
  Qed.
End XMap.

Section XDepth.
  Context {A G X : Type} (inner : pipe A) (depth_of : list N -> Res N) (lim : N) (depth : X -> N).
  Context (vis : G -> X -> G * outcome A) (pth : G -> X -> list N) (len : X -> nat)
    (R : p_state inner -> G -> list (tree X) -> list (tree X) -> Prop).
  Hypothesis Hsim : simx inner vis pth len R.
  Hypothesis Hdepth : forall p x, length p = len x -> depth_of p = Ok (depth x).

  Lemma xdepth_sim : simx (prune_depth inner depth_of lim) (vdepth lim depth vis) pth len R.
  Proof.
    destruct Hsim as [H1 H2 H3]; split; [|exact H2|exact H3].
    intros s g d r HR o d' r' g' E; rewrite vstep_depth in E.
    destruct (vstep vis g (d ++ r)) as [[[o1 d1] r1] g1] eqn:E1.
    destruct (H1 s g d r HR _ _ _ _ E1) as (s1 & Hc & HR1 & Hp).
    destruct o1 as [[a x]|]; injection E as <- <- <- <-.
    - specialize (Hp a x eq_refl).
      exists (if (depth x =? lim)%N then p_prune inner s1 else s1); split; [|split].
      + cbn; unfold prune_depth_next; eapply conv_bind; [exact Hc|]; cbn.
        rewrite (Hdepth _ _ (proj1 (proj2 Hp))); now_conv.
      + destruct (depth x =? lim)%N; [apply (H2 _ _ _ _ HR1)|exact HR1].
      + intros a' x' E; injection E as <- <-; cbn; destruct (depth x =? lim)%N; [rewrite H3|]; exact Hp.
    - exists s1; split; [|split].
      + cbn; unfold prune_depth_next; eapply conv_bind; [exact Hc|]; now_conv.
      + exact HR1.
      + intros; discriminate.
  Qed.
End XDepth.

Section XPrune.
  Context {A G H X : Type} (inner : pipe A) (f : H -> list N -> A -> H * bool).
  Context (vis : G -> X -> G * outcome A) (pth : G -> X -> list N) (len : X -> nat)
    (R : p_state inner -> G -> list (tree X) -> list (tree X) -> Prop).
  Hypothesis Hsim : simx inner vis pth len R.

  Definition xprune_vis (gh : G * (H * list N)) (x : X) : (G * (H * list N)) * outcome A :=
    match vis (fst gh) x with
    | (g1, Drop) => ((g1, snd gh), Drop)
    | (g1, Keep a down) =>
        let '(h1, b) := f (fst (snd gh)) (pth g1 x) a in
        ((g1, (h1, drift (len x) (snd (snd gh)))), if b then Drop else Keep a down)
    end.

  Lemma vstep_xprune todo : forall g h v,
    vstep xprune_vis (g, (h, v)) todo =
    match vstep vis g todo with
    | (None, _, _, g1) => (None, [], [], (g1, (h, v)))
    | (Some (a, x), d, r, g1) =>
        let '(h1, b) := f h (pth g1 x) a in
        if b then vstep xprune_vis (g1, (h1, drift (len x) v)) r
        else (Some (a, x), d, r, (g1, (h1, drift (len x) v)))
    end.
  Proof.
    induction todo as [|[x ts] todo IH]; intros g h v; cbn; [reflexivity|].
    unfold xprune_vis at 1; cbn [fst snd].
    destruct (vis g x) as [g1 [|a down]]; [apply IH|].
    destruct (f h (pth g1 x) a) as [h1 [|]]; reflexivity.
  Qed.

  Variables (h0 : H) (start : list N).
  Definition xprune_R (s : p_state (prune_from inner f start h0)) (gh : G * (H * list N)) (d r : list (tree X)) : Prop :=
    R (pr_inner s) (fst gh) d r /\ pr_clos s = fst (snd gh) /\ length (pr_pruned s) = length (pr_path s) /\
    (N.of_nat (fsize (d ++ r)) <= usize_max)%N /\ vec_ok (fsize (d ++ r)) (pr_pruned s) /\ vec_ok (fsize (d ++ r)) (pr_path s) /\
    (pr_path s = snd (snd gh) \/ d ++ r = []).

  Lemma xprune_sim : simx (prune_from inner f start h0) xprune_vis (fun gh _ => snd (snd gh)) len xprune_R.
  Proof.
    destruct Hsim as [H1 H2 H3]; split.
    - intros [s h' pruned path] [g [h v]] d r (HR & Eh & El & Hs & Hv1 & Hv2 & Hpv) o d' r' g' E; cbn in HR, Eh, El, Hs, Hv1, Hv2, Hpv; subst h'.
      cbn [p_next prune_from p_path].
      remember (length (d ++ r)) as n eqn:En.
      revert s g h v d r pruned path HR El Hs Hv1 Hv2 Hpv En E.
      induction n as [n IH] using lt_wf_ind; intros s g h v d r pruned path HR El Hs Hv1 Hv2 Hpv En E.
      rewrite vstep_xprune in E.
      destruct (vstep vis g (d ++ r)) as [[[o1 d1] r1] g1] eqn:E1.
      destruct (H1 s g d r HR _ _ _ _ E1) as (s1 & Hc & HR1 & Hp).
      pose proof (vstep_size vis g (d ++ r) _ _ _ _ E1) as Hsz.
      destruct o1 as [[a x]|].
      + destruct (Hp a x eq_refl) as (Hp1 & Hp2 & _).
        destruct Hpv as [->|Hpv]; [|rewrite Hpv in E1; discriminate].
        destruct (fsize (d ++ r)) as [|k] eqn:Ek; [lia|].
        destruct (prune_resize_drift k (len x) pruned v) as (pruned1 & Er & Hl1 & Hv1' & Hv2');
          [lia|exact El|exact Hv1|exact Hv2|].
        pose proof (drift_length (len x) v) as Hdl.
        assert (Hr1 : fsize r1 <= k) by (rewrite fsize_app in Hsz; lia).
        destruct (f h (pth g1 x) a) as [h1 [|]] eqn:Ef.
        * pose proof (vstep_len vis g (d ++ r) _ _ _ _ E1) as Hlen; cbn in Hlen.
          assert (Hbump : exists pruned2, (if 0 <? len x then succ_at (len x - 1) pruned1 else Ok pruned1) = Ok pruned2 /\
                    length pruned2 = len x /\ vec_ok k pruned2).
          { destruct (Nat.ltb_spec 0 (len x)).
            - destruct (succ_at_ok k pruned1 (len x - 1)) as (v' & Ev & Elv & Hv'); [lia|exact Hv1'|].
              exists v'; repeat split; [exact Ev|lia|exact Hv'].
            - exists pruned1; repeat split; [lia|]; eapply vec_ok_le; [|exact Hv1']; lia. }
          destruct Hbump as (pruned2 & Eb & Elb & Hvb).
          destruct (IH (length r1) ltac:(lia) (p_prune inner s1) g1 h1 (drift (len x) v) [] r1 pruned2 (drift (len x) v)) as (s' & Hs' & HR' & Hp'); auto.
          { apply (H2 _ _ _ _ HR1). }
          { lia. }
          { cbn [app]; lia. }
          { cbn [app]; eapply vec_ok_le; [exact Hr1|exact Hvb]. }
          { cbn [app]; eapply vec_ok_le; [exact Hr1|exact Hv2']. }
          exists s'; split; [|split; [exact HR'|exact Hp']].
          eapply loop_step; [|exact Hs'].
          unfold prune_body; cbn [pr_inner pr_clos pr_pruned pr_path]; eapply conv_bind; [exact Hc|]; cbn [option_map fst].
          rewrite Hp2, Er; cbn [bindR]; rewrite Hp1, Ef, Hdl, Eb; now_conv.
        * injection E as <- <- <- <-; exists (mkPrune s1 h1 pruned1 (drift (len x) v)); split; [|split].
          -- apply loop_done; unfold prune_body; cbn [pr_inner pr_clos pr_pruned pr_path]; eapply conv_bind; [exact Hc|]; cbn [option_map fst].
             rewrite Hp2, Er; cbn [bindR]; rewrite Hp1, Ef; now_conv.
          -- unfold xprune_R; cbn [pr_inner pr_clos pr_pruned pr_path fst snd]; split; [exact HR1|].
             split; [reflexivity|]; split; [lia|]; split; [lia|]; split; [eapply vec_ok_le; [|exact Hv1']; lia|].
             split; [eapply vec_ok_le; [|exact Hv2']; lia|left; reflexivity].
          -- intros a' x' E; injection E as <- <-; cbn; split; [reflexivity|]; split; [exact Hdl|].
             eapply Forall_impl; [|exact Hv2']; intros y Hy; cbv beta in Hy |- *; lia.
      + injection E as <- <- <- <-; destruct Hsz as [-> ->]; exists (mkPrune s1 h [] []); split; [|split].
        * apply loop_done; unfold prune_body; cbn [pr_inner pr_clos pr_pruned pr_path]; eapply conv_bind; [exact Hc|]; now_conv.
        * unfold xprune_R; cbn; split; [exact HR1|]; split; [reflexivity|]; split; [reflexivity|].
          split; [unfold usize_max; lia|]; split; [constructor|]; split; [constructor|]; right; reflexivity.
        * intros; discriminate.
    - intros [s h' pruned path] [g [h v]] d r (HR & Eh & El & Hs & Hv1 & Hv2 & Hpv); unfold xprune_R; cbn [pr_inner pr_clos pr_pruned pr_path fst snd app p_prune prune_from] in *.
      assert (fsize r <= fsize (d ++ r)) by (rewrite fsize_app; lia).
      split; [apply (H2 _ _ _ _ HR)|]; split; [exact Eh|]; split; [exact El|]; split; [lia|].
      split; [eapply vec_ok_le; [|exact Hv1]; assumption|]; split; [eapply vec_ok_le; [|exact Hv2]; assumption|].
      destruct Hpv as [Hpv|Hpv]; [left; exact Hpv|right]; destruct d; [exact Hpv|discriminate].
    - reflexivity.
  Qed.
End XPrune.

(** ** Whole chains *)
Lemma simx_ext {A G X} (P : pipe A) (v v' : G -> X -> G * outcome A) pth len R :
  (forall g x, v g x = v' g x) -> simx P v pth len R -> simx P v' pth len R.
Proof.
  intros H [H1 H2 H3]; split; auto.
  intros s g d r HR o d' r' g' E; rewrite <- (vstep_ext v v') in E by exact H; eauto.
Qed.

Section XChain.
  Context {V X : Type} (P : pipe V) (depth_of : list N -> Res N) (start : list N).
  Context (val : X -> V) (path : X -> list N) (depth : X -> N) (pokE : list N -> X -> Prop).
  Hypothesis HE : forall p x, pokE p x -> p = path x /\ segs_ok p.
  Hypothesis HL : forall p x, length p = length (path x) -> depth_of p = Ok (depth x).

  Context (R0 : p_state P -> unit -> list (tree X) -> list (tree X) -> Prop).
  Hypothesis Hsim : simulates P (fun g x => (g, Keep (val x) true)) pokE R0.
  Context (d0 r0 : list (tree X)).
  Hypothesis Hinit : R0 (p_init P) tt d0 r0.

  Definition dvis {A} (c : chain V A) (g : dclos c) (x : X) : dclos c * outcome A :=
    dvisit c g (path x) (depth x) (val x).

  Lemma xchain_sim {A} (c : chain V A) :
    (has_prune c = true -> (N.of_nat (fsize (d0 ++ r0)) <= usize_max)%N /\ vec_ok (fsize (d0 ++ r0)) start) ->
    exists R : p_state (run_chain depth_of start P c) -> dclos c -> list (tree X) -> list (tree X) -> Prop,
      simx (run_chain depth_of start P c) (dvis c) (fun g x => reported c g (path x)) (fun x => length (path x)) R /\
      (forall s g d r, R s g d r -> closures depth_of start P c s = dforget c g) /\
      R (p_init (run_chain depth_of start P c)) (dclos_init start c) d0 r0.
  Proof.
    intros Hb; induction c as [|A B G c IH g f|A G c IH g f|A G c IH g f|A c IH lim].
    - exists R0; split; [|split; [intros s [] d r _; reflexivity|exact Hinit]].
      destruct Hsim as [H1 H2 H3]; split; auto.
      intros s g d r HR o d' r' g' E; destruct (H1 s g d r HR _ _ _ _ E) as (s' & Hc & HR' & Hp).
      exists s'; split; [exact Hc|]; split; [exact HR'|].
      intros a x Eo; apply Hp, HE in Eo as [Ep Hs]; cbn [run_chain] in *; rewrite Ep in *; auto.
    - destruct (IH Hb) as (R & HR & Hcl & Hi).
      exists (map_R (run_chain depth_of start P c) f g R); split; [|split].
      + eapply simx_ext; [|apply (xmap_sim (run_chain depth_of start P c) f g _ _ _ _ HR)].
        intros [gs h] x; unfold vthen, map_stage, dvis; cbn.
        destruct (dvisit c gs (path x) (depth x) (val x)) as [g1 [|a down]]; [reflexivity|].
        destruct (f h a); rewrite andb_true_r; reflexivity.
      + intros s [gs h] d r [H1 H2]; cbn in H1, H2; apply Hcl in H1; subst; cbn; f_equal; exact H1.
      + split; [exact Hi|reflexivity].
    - destruct IH as (R & HR & Hcl & Hi); [intros _; apply Hb; reflexivity|].
      destruct (Hb eq_refl) as (Hb1 & Hb2).
      exists (xprune_R (run_chain depth_of start P c) (fun g _ a => f g a) R g []); split; [|split].
      + eapply simx_ext; [|apply (xprune_sim (run_chain depth_of start P c) (fun g _ a => f g a) _ _ _ _ HR)].
        intros [gs [h v]] x; unfold xprune_vis, dvis; cbn.
        destruct (dvisit c gs (path x) (depth x) (val x)) as [g1 [|a down]]; [reflexivity|].
        destruct (f h a) as [h1 [|]]; reflexivity.
      + intros s [gs [h v]] d r (H1 & H2 & _); cbn in H1, H2; apply Hcl in H1; cbn; f_equal; [exact H1|exact H2].
      + split; [exact Hi|]; cbn; repeat split; [exact Hb1|constructor|constructor|left; reflexivity].
    - destruct IH as (R & HR & Hcl & Hi); [intros _; apply Hb; reflexivity|].
      destruct (Hb eq_refl) as (Hb1 & Hb2).
      exists (xprune_R (run_chain depth_of start P c) f R g start); split; [|split].
      + eapply simx_ext; [|apply (xprune_sim (run_chain depth_of start P c) f _ _ _ _ HR)].
        intros [gs [h v]] x; unfold xprune_vis, dvis; cbn.
        destruct (dvisit c gs (path x) (depth x) (val x)) as [g1 [|a down]]; [reflexivity|].
        destruct (f h (reported c g1 (path x)) a) as [h1 [|]]; reflexivity.
      + intros s [gs [h v]] d r (H1 & H2 & _); cbn in H1, H2; apply Hcl in H1; cbn; f_equal; [exact H1|exact H2].
      + split; [exact Hi|]; cbn; repeat split; [exact Hb1|exact Hb2|exact Hb2|left; reflexivity].
    - destruct (IH Hb) as (R & HR & Hcl & Hi).
      exists R; split; [|split; [exact Hcl|exact Hi]].
      eapply simx_ext; [|apply xdepth_sim with (vis := dvis c) (depth := depth)].
      + intros gs x; unfold vdepth, dvis; cbn; reflexivity.
      + exact HR.
      + intros p x Hp; apply HL; exact Hp.
  Qed.
End XChain.

(** ** What such a pipeline emits, with the reported paths *)
Definition with_rep {G X B} (visit : G -> X -> G * outcome B) (pth : G -> X -> list N) (g : G) (x : X) : G * outcome (B * (X * list N)) :=
  match visit g x with
  | (g', Drop) => (g', Drop)
  | (g', Keep b down) => (g', Keep (b, (x, pth g' x)) down)
  end.

Lemma walk_vstep_path {G X A} (vis : G -> X -> G * outcome A) pth g todo :
  match vstep vis g todo with
  | (None, _, _, g') => walk_all (with_rep vis pth) g todo = (g', [])
  | (Some (a, x), d, r, g') =>
      let '(g1, o1) := walk_all (with_rep vis pth) g' d in
      let '(g2, o2) := walk_all (with_rep vis pth) g1 r in
      walk_all (with_rep vis pth) g todo = (g2, TNode (a, (x, pth g' x)) o1 :: o2)
  end.
Proof.
  unfold walk_all; revert g; induction todo as [|[x ts] todo IH]; intros g; [reflexivity|].
  rewrite walk_list_cons, walk_node; cbn [vstep].
  replace (with_rep vis pth g x) with (match vis g x with (g', Drop) => (g', Drop) | (g', Keep a down) => (g', Keep (a, (x, pth g' x)) down) end) by reflexivity.
  destruct (vis g x) as [g1 [|a down]].
  - specialize (IH g1).
    destruct (vstep vis g1 todo) as [[[[[a y]|] d] r] g'] eqn:E.
    + destruct (walk_list (walk (with_rep vis pth)) g' d) as [g2 o1], (walk_list (walk (with_rep vis pth)) g2 r) as [g3 o2].
      rewrite IH; reflexivity.
    + rewrite IH; reflexivity.
  - destruct down.
    + destruct (walk_list (walk (with_rep vis pth)) g1 ts) as [g2 o1].
      destruct (walk_list (walk (with_rep vis pth)) g2 todo) as [g3 o2]; reflexivity.
    + rewrite walk_list_nil; destruct (walk_list (walk (with_rep vis pth)) g1 todo) as [g3 o2]; reflexivity.
Qed.

Definition pok_rep {X} (p : list N) (xq : X * list N) : Prop := p = snd xq /\ segs_ok p.

Lemma simx_items {A X} (P : pipe A) {G} (vis : G -> X -> G * outcome A) pth len R : simx P vis pth len R ->
  forall s g d r, R s g d r ->
  exists s', items P pok_rep s (flat_map preorder (snd (walk_all (with_rep vis pth) g (d ++ r)))) s' /\
             R s' (fst (walk_all (with_rep vis pth) g (d ++ r))) [] [].
Proof.
  intros Hsim s g d r HR; remember (fsize (d ++ r)) as n eqn:En.
  revert s g d r HR En; induction n as [n IH] using lt_wf_ind; intros s g d r HR En.
  pose proof (walk_vstep_path vis pth g (d ++ r)) as Hw.
  destruct (vstep vis g (d ++ r)) as [[[o d1] r1] g1] eqn:E.
  pose proof (vstep_size vis g (d ++ r) _ _ _ _ E) as Hsz.
  destruct (sx_next _ _ _ _ _ Hsim _ _ _ _ HR _ _ _ _ E) as (s1 & Hc & HR1 & Hp).
  destruct o as [[a x]|].
  - destruct (IH (fsize (d1 ++ r1)) ltac:(lia) s1 g1 d1 r1 HR1 eq_refl) as (s' & Hit & HR').
    unfold walk_all in Hit, HR', Hw |- *; rewrite walk_list_app in Hit, HR'.
    destruct (walk_list (walk (with_rep vis pth)) g1 d1) as [g2 o1].
    destruct (walk_list (walk (with_rep vis pth)) g2 r1) as [g3 o2].
    rewrite Hw; cbn in Hit, HR' |- *.
    exists s'; split; [|exact HR'].
    destruct (Hp a x eq_refl) as (Hp1 & _ & Hp3).
    eapply it_cons; [exact Hc|split; [exact Hp1|exact Hp3]|].
    rewrite <- flat_map_app; exact Hit.
  - rewrite Hw; cbn; exists s1; split; [apply it_nil; exact Hc|].
    destruct Hsz as [-> ->]; exact HR1.
Qed.

(** Items under another name. *)
Lemma items_map {A X Y} (P : pipe A) (pok : list N -> X -> Prop) (pok' : list N -> Y -> Prop) (h : X -> Y) :
  (forall p x, pok p x -> pok' p (h x)) -> forall s l s', items P pok s l s' -> items P pok' s (map (fun ax => (fst ax, h (snd ax))) l) s'.
Proof. intros Hh s l s'; induction 1; cbn [map fst snd]; [apply it_nil; assumption|eapply it_cons; eauto]. Qed.

(** A reported path as the position of a node. *)
Definition rep_pos (p : list N) : pos unit := mkPos (map N.to_nat p) [] tt.
Lemma rep_xpath p : segs_ok p -> p = xpath (rep_pos p).
Proof.
  intros H; unfold xpath, rep_pos; cbn [pos_path]; rewrite map_map; rewrite <- (map_id p) at 1; apply map_ext_in; intros y Hy.
  unfold segs_ok in H; rewrite Forall_forall in H; specialize (H y Hy).
  rewrite wrap_small; rewrite N2Nat.id; [reflexivity|exact H].
Qed.

(** ** The reported paths of the nodes of the result extend those of their parents *)
Fixpoint ext_paths {A} (p : list N) (t : tree (A * list N)) : Prop :=
  match t with
  | TNode (a, q) ts => q = p /\
      (fix all l := match l with [] => True | t :: l' => (exists i, ext_paths (p ++ [i]) t) /\ all l' end) ts
  end.
Lemma ext_paths_node {A} p (a : A) q ts : ext_paths p (TNode (a, q) ts) <-> q = p /\ Forall (fun t => exists i, ext_paths (p ++ [i]) t) ts.
Proof.
  cbn; split; intros [H1 H2]; (split; [exact H1|]).
  - induction ts as [|t ts IH]; constructor; [tauto|apply IH; tauto].
  - induction H2; auto.
Qed.

Lemma ext_below {A} (t : tree (A * list N)) : forall p, ext_paths p t ->
  below (map N.to_nat p) (tree_map (fun ap => (fst ap, rep_pos (snd ap))) t).
Proof.
  induction t as [[a q] ts IH] using tree_ind'; intros p H; apply ext_paths_node in H as [-> H].
  cbn [tree_map fst snd]; apply below_node; split; [reflexivity|].
  rewrite Forall_forall in *; intros t Ht; apply in_map_iff in Ht as (u & <- & Hu).
  destruct (H u Hu) as (i & Hi); exists (N.to_nat i); specialize (IH u Hu _ Hi).
  rewrite map_app in IH; exact IH.
Qed.

Section Cursor.
  Context {G X A : Type} (vis : G -> X -> G * outcome A) (pth : G -> X -> list N) (cur : G -> list N) (len : X -> nat).
  Hypothesis Hpth : forall g x, pth g x = cur g.
  Hypothesis Hdrop : forall g x g', vis g x = (g', Drop) -> cur g' = cur g \/ cur g' = drift (len x) (cur g).
  Hypothesis Hkeep : forall g x g' a dn, vis g x = (g', Keep a dn) -> cur g' = drift (len x) (cur g).

  (** All nodes of the tree have the depth they should have, the root [k]. *)
  Fixpoint deep (k : nat) (t : tree X) : Prop :=
    match t with
    | TNode x ts => len x = k /\ (fix all l := match l with [] => True | t :: l' => deep (S k) t /\ all l' end) ts
    end.
  Lemma deep_node k x ts : deep k (TNode x ts) <-> len x = k /\ Forall (deep (S k)) ts.
  Proof.
    cbn; split; intros [H1 H2]; (split; [exact H1|]).
    - induction ts as [|t ts IH]; constructor; [tauto|apply IH; tauto].
    - induction H2; auto.
  Qed.

  Notation rel := (fun axq : A * (X * list N) => (fst axq, snd (snd axq))).

  Lemma walk_ext_paths t : forall k g p, deep (S k) t -> k <= length (cur g) -> firstn k (cur g) = p ->
    let '(g', o) := walk (with_rep vis pth) g t in
    k <= length (cur g') /\ firstn k (cur g') = p /\
    match o with Some t' => exists i, ext_paths (p ++ [i]) (tree_map rel t') | None => True end.
  Proof.
    induction t as [x ts IH] using tree_ind'; intros k g p Hd Hl Hp; apply deep_node in Hd as [Hx Hd].
    rewrite walk_node.
    replace (with_rep vis pth g x) with (match vis g x with (g', Drop) => (g', Drop) | (g', Keep a down) => (g', Keep (a, (x, pth g' x)) down) end) by reflexivity.
    destruct (vis g x) as [g1 [|a down]] eqn:Ev.
    - apply Hdrop in Ev; split; [|split; [|exact I]]; destruct Ev as [->| ->]; auto.
      + rewrite drift_length; lia.
      + rewrite drift_prefix; [exact Hp|lia|exact Hl].
    - apply Hkeep in Ev; rewrite Hx in Ev.
      assert (E1 : exists i, cur g1 = p ++ [i]).
      { pose proof (drift_length (S k) (cur g)) as Hl1; rewrite <- Ev in Hl1.
        assert (Hpre : firstn k (cur g1) = p) by (rewrite Ev, drift_prefix; [exact Hp|lia|exact Hl]).
        rewrite <- (firstn_skipn k (cur g1)), Hpre.
        assert (Hs : length (skipn k (cur g1)) = 1) by (rewrite skipn_length; lia).
        destruct (skipn k (cur g1)) as [|i [|]]; cbn in Hs; try lia; exists i; reflexivity. }
      destruct E1 as (i & E1).
      assert (Hkids : forall ts', Forall (fun t => forall k g p, deep (S k) t -> k <= length (cur g) -> firstn k (cur g) = p ->
                let '(g', o) := walk (with_rep vis pth) g t in
                k <= length (cur g') /\ firstn k (cur g') = p /\
                match o with Some t' => exists i, ext_paths (p ++ [i]) (tree_map rel t') | None => True end) ts' ->
                forall k g p, Forall (deep (S k)) ts' -> k <= length (cur g) -> firstn k (cur g) = p ->
                let '(g', os) := walk_list (walk (with_rep vis pth)) g ts' in
                k <= length (cur g') /\ firstn k (cur g') = p /\ Forall (fun t' => exists i, ext_paths (p ++ [i]) (tree_map rel t')) os).
      { clear; intros ts' IH; induction IH as [|t ts' Ht _ IHl]; intros k g p Hd Hl Hp.
        - rewrite walk_list_nil; repeat split; auto.
        - inversion Hd as [|? ? Hd1 Hd2]; subst; rewrite walk_list_cons.
          specialize (Ht k g _ Hd1 Hl eq_refl); destruct (walk (with_rep vis pth) g t) as [g1 o]; destruct Ht as (Hl1 & Hp1 & Ho).
          specialize (IHl k g1 _ Hd2 Hl1 Hp1); destruct (walk_list (walk (with_rep vis pth)) g1 ts') as [g2 os]; destruct IHl as (Hl2 & Hp2 & Hos).
          split; [exact Hl2|]; split; [exact Hp2|]; apply Forall_app; split; [|exact Hos].
          destruct o; constructor; [exact Ho|constructor]. }
      assert (Hlp : length p = k) by (rewrite <- Hp, firstn_length; lia).
      destruct down.
      + specialize (Hkids ts IH (S k) g1 (p ++ [i]) Hd).
        destruct (walk_list (walk (with_rep vis pth)) g1 ts) as [g2 os].
        destruct Hkids as (Hl2 & Hp2 & Hos).
        { rewrite E1, app_length; cbn; lia. }
        { rewrite E1; apply firstn_all2; rewrite app_length; cbn; lia. }
        split; [lia|]; split.
        * replace k with (min k (S k)) by lia; rewrite <- firstn_firstn, Hp2, firstn_app, <- Hlp, firstn_all, Nat.sub_diag; cbn; apply app_nil_r.
        * exists i; cbn [tree_map fst snd]; apply ext_paths_node; split; [rewrite Hpth, E1; reflexivity|].
          apply Forall_map; exact Hos.
      + split; [rewrite E1, app_length; lia|]; split.
        * rewrite E1, firstn_app, <- Hlp, firstn_all, Nat.sub_diag; cbn; apply app_nil_r.
        * exists i; cbn; rewrite Hpth, E1; auto.
  Qed.

  Lemma walk_list_ext_paths ts : forall k g p, Forall (deep (S k)) ts -> k <= length (cur g) -> firstn k (cur g) = p ->
    let '(g', os) := walk_list (walk (with_rep vis pth)) g ts in
    k <= length (cur g') /\ firstn k (cur g') = p /\ Forall (fun t' => exists i, ext_paths (p ++ [i]) (tree_map rel t')) os.
  Proof.
    induction ts as [|t ts IHl]; intros k g p Hd Hl Hp.
    - rewrite walk_list_nil; repeat split; auto.
    - inversion Hd as [|? ? Hd1 Hd2]; subst; rewrite walk_list_cons.
      pose proof (walk_ext_paths t k g _ Hd1 Hl eq_refl) as Ht; destruct (walk (with_rep vis pth) g t) as [g1 o]; destruct Ht as (Hl1 & Hp1 & Ho).
      specialize (IHl k g1 _ Hd2 Hl1 Hp1); destruct (walk_list (walk (with_rep vis pth)) g1 ts) as [g2 os]; destruct IHl as (Hl2 & Hp2 & Hos).
      split; [exact Hl2|]; split; [exact Hp2|]; apply Forall_app; split; [|exact Hos].
      destruct o; constructor; [exact Ho|constructor].
  Qed.

  (** The root of one tree has the empty path. *)
  Lemma walk_ext_root t g : deep 0 t -> forall t', snd (walk (with_rep vis pth) g t) = Some t' -> ext_paths [] (tree_map rel t').
  Proof.
    destruct t as [x ts]; intros Hd t'; apply deep_node in Hd as [Hx Hd]; rewrite walk_node.
    replace (with_rep vis pth g x) with (match vis g x with (g', Drop) => (g', Drop) | (g', Keep a down) => (g', Keep (a, (x, pth g' x)) down) end) by reflexivity.
    destruct (vis g x) as [g1 [|a down]] eqn:Ev; [discriminate|].
    apply Hkeep in Ev; rewrite Hx in Ev.
    assert (E0 : cur g1 = []) by (rewrite Ev; apply length_zero_iff_nil, drift_length).
    destruct down.
    - pose proof (walk_list_ext_paths ts 0 g1 [] Hd ltac:(lia) eq_refl) as Hw.
      destruct (walk_list (walk (with_rep vis pth)) g1 ts) as [g2 os]; destruct Hw as (_ & _ & Hos).
      cbn; intros E; injection E as <-; cbn [tree_map fst snd]; apply ext_paths_node; split; [rewrite Hpth; exact E0|].
      apply Forall_map; exact Hos.
    - cbn; intros E; injection E as <-; cbn; rewrite Hpth; auto.
  Qed.
End Cursor.
