(** * ProofsMapPathPruneSim: chains with a prune whose path vector is a buffer, and map_path on top of them. *)
From Verif Require Import Prelim PrelimFacts Spec SpecFacts SpecPipe SpecDrift SpecMapPathPrune SpecObs ModelNode NodeFacts ModelPre ModelPipe ModelMapPath
  ModelMapPathPrune ProofsPlain Slots PipeCore PipeBase PipeChain PipeEnd ProofsPipe PipeFinal PipeExact ProofsExact ProofsMapPath ProofsMapPathEnd ProofsMapPathChain
  ProofsMapPathPrune.

Lemma simx_iso {A G G' X} (P : pipe A) (to : G -> G') (from : G' -> G) (vis : G -> X -> G * outcome A) (vis' : G' -> X -> G' * outcome A) pth pth' len R :
  (forall g, from (to g) = g) -> (forall g, to (from g) = g) ->
  (forall g x, vis' g x = let '(g1, o) := vis (from g) x in (to g1, o)) -> (forall g x, pth' g x = pth (from g) x) ->
  simx P vis pth len R -> simx P vis' pth' len (fun s g d r => R s (from g) d r).
Proof.
  intros Hft Htf Hv H4 [H1 H2 H3]; split; [|intros s g d r; apply H2|exact H3].
  intros s g d r HR o d' r' g' E; destruct (d ++ r) as [|t l] eqn:Edr.
  - cbn in E; injection E as <- <- <- <-.
    destruct (H1 s (from g) d r HR None [] [] (from g)) as (s' & Hc & HR' & Hp); [rewrite Edr; reflexivity|]; exists s'; split; [exact Hc|split; [exact HR'|intros; discriminate]].
  - rewrite (vstep_iso to from vis vis' Hft Hv) in E by discriminate.
    destruct (vstep vis (from g) (t :: l)) as [[[o1 d1] r1] g1] eqn:E1; injection E as <- <- <- <-.
    rewrite <- Edr in E1; destruct (H1 _ _ _ _ HR _ _ _ _ E1) as (s' & Hc & HR' & Hp); exists s'; rewrite Hft; split; [exact Hc|split; [exact HR'|]].
    intros a x Eo; rewrite H4, Hft; eauto.
Qed.

(** ** A prune stage *)
Section VPrune.
  Variable grow : nat -> nat.
  Hypothesis Hgrow : forall c, c < grow c.
  Context {A G H X : Type} (inner : pipe A) (f : H -> list N -> A -> H * bool).
  Context (vis : G -> X -> G * outcome A) (pth : G -> X -> list N) (len : X -> nat)
    (R : p_state inner -> G -> list (tree X) -> list (tree X) -> Prop).
  Hypothesis Hsim : simx inner vis pth len R.

  Definition vvis (g : G * (H * list N) * pointer) (x : X) : (G * (H * list N) * pointer) * outcome A :=
    let '(gh, o) := xprune_vis f vis pth len (fst g) x in
    ((gh, pointer_after grow (snd (snd (fst g))) (snd (snd gh)) (snd g)), o).

  (** All nodes that are left out before the stage. *)
  Fixpoint skips (v : list N) (k : nat) (p : pointer) : pointer :=
    match k with 0 => p | S k' => skips v k' (pointer_after grow v v p) end.

  Lemma vstep_vprune todo : forall g h v p, exists k,
    vstep vvis ((g, (h, v)), p) todo =
    match vstep vis g todo with
    | (None, _, _, g1) => (None, [], [], ((g1, (h, v)), skips v k p))
    | (Some (a, x), d, r, g1) =>
        let '(h1, b) := f h (pth g1 x) a in
        let p1 := pointer_after grow v (drift (len x) v) (skips v k p) in
        if b then vstep vvis ((g1, (h1, drift (len x) v)), p1) r
        else (Some (a, x), d, r, ((g1, (h1, drift (len x) v)), p1))
    end.
  Proof.
    induction todo as [|[x ts] todo IH]; intros g h v p; cbn; [exists 0; reflexivity|].
    unfold vvis at 1; unfold xprune_vis at 1; cbn [fst snd].
    destruct (vis g x) as [g1 [|a down]]; [|exists 0; destruct (f h (pth g1 x) a) as [h1 [|]]; reflexivity].
    unfold vvis at 1; unfold xprune_vis at 1; cbn [fst snd].
    destruct (IH g1 h v (pointer_after grow v v p)) as (k & E); exists (S k); exact E.
  Qed.

  Definition vprune_R (s : vprune_st inner) (g : G * (H * list N) * pointer) (d r : list (tree X)) : Prop :=
    let gh := fst g in
    R (vp_inner s) (fst gh) d r /\ vp_clos s = fst (snd gh) /\ vec_wf (vp_path s) /\ length (vp_pruned s) = v_len (vp_path s) /\
    (N.of_nat (fsize (d ++ r)) <= usize_max)%N /\ vec_ok (fsize (d ++ r)) (vp_pruned s) /\ vec_ok (fsize (d ++ r)) (vec_list (vp_path s)) /\
    (vec_list (vp_path s) = snd (snd gh) /\ ptr_ok (vp_path s) (snd g) \/ d ++ r = []).

  Lemma skips_ok path k : vec_wf path -> forall p, ptr_ok path p -> ptr_ok path (skips (vec_list path) k p).
  Proof. intros Hw; induction k as [|k IH]; intros p Hp; cbn; [exact Hp|]; apply IH, ptr_same; assumption. Qed.

  Definition good_path (path : vec) (g : G * (H * list N) * pointer) : Prop := vec_list path = snd (snd (fst g)) /\ ptr_ok path (snd g).

  Lemma vprune_step start h0 : forall s g d r, vprune_R s g d r ->
    forall o d' r' g', vstep vvis g (d ++ r) = (o, d', r', g') ->
    exists s', (fun f0 => p_next (vprune grow inner f start h0) f0 s) ⇓ Ok (option_map fst o, s') /\ vprune_R s' g' d' r' /\
      (forall a x, o = Some (a, x) -> (vec_list (vp_path s') = snd (snd (fst g')) /\ length (vec_list (vp_path s')) = len x /\ segs_ok (vec_list (vp_path s'))) /\ good_path (vp_path s') g').
  Proof.
    destruct Hsim as [H1 H2 H3].
    - intros [s h' pruned path] [[g [h v]] p] d r (HR & Eh & Hw & El & Hs & Hv1 & Hv2 & Hpv) o d' r' g' E; cbn in HR, Eh, Hw, El, Hs, Hv1, Hv2, Hpv; subst h'.
      cbn [p_next vprune p_path].
      remember (length (d ++ r)) as n eqn:En.
      revert s g h v p d r pruned path HR Hw El Hs Hv1 Hv2 Hpv En E.
      induction n as [n IH] using lt_wf_ind; intros s g h v p d r pruned path HR Hw El Hs Hv1 Hv2 Hpv En E.
      destruct (vstep_vprune (d ++ r) g h v p) as (kk & Ek); rewrite Ek in E; clear Ek.
      destruct (vstep vis g (d ++ r)) as [[[o1 d1] r1] g1] eqn:E1.
      destruct (H1 s g d r HR _ _ _ _ E1) as (s1 & Hc & HR1 & Hp).
      pose proof (vstep_size vis g (d ++ r) _ _ _ _ E1) as Hsz.
      destruct o1 as [[a x]|].
      + destruct (Hp a x eq_refl) as (Hp1 & Hp2 & _).
        destruct Hpv as [[Ev Hptr]|Hpv]; [|rewrite Hpv in E1; discriminate]; subst v.
        destruct (fsize (d ++ r)) as [|k] eqn:Ek; [lia|].
        destruct (vprune_resize_facts grow k (len x) pruned path) as (pruned1 & path1 & Er & Hl1 & Hv1' & Hw1 & Ed & Hv2' & Hpu & Hbuf);
          [exact Hgrow|lia|exact Hw|exact El|exact Hv1|exact Hv2|].
        assert (Hdl : v_len path1 = len x) by (rewrite <- (vec_list_len _ Hw1), Ed; apply drift_length).
        assert (Hr1 : fsize r1 <= k) by (rewrite fsize_app in Hsz; lia).
        assert (Hptr1 : ptr_ok path1 (pointer_after grow (vec_list path) (drift (len x) (vec_list path)) (skips (vec_list path) kk p))).
        { rewrite <- Ed; apply ptr_step; auto; [apply skips_ok; assumption| |]; rewrite Hdl; assumption. }
        destruct (f h (pth g1 x) a) as [h1 [|]] eqn:Ef.
        * pose proof (vstep_len vis g (d ++ r) _ _ _ _ E1) as Hlen; cbn in Hlen.
          assert (Hbump : exists pruned2, (if 0 <? len x then succ_at (len x - 1) pruned1 else Ok pruned1) = Ok pruned2 /\
                    length pruned2 = len x /\ vec_ok k pruned2).
          { destruct (Nat.ltb_spec 0 (len x)).
            - destruct (succ_at_ok k pruned1 (len x - 1)) as (v' & Ev & Elv & Hv'); [lia|exact Hv1'|].
              exists v'; repeat split; [exact Ev|lia|exact Hv'].
            - exists pruned1; repeat split; [lia|]; eapply vec_ok_le; [|exact Hv1']; lia. }
          destruct Hbump as (pruned2 & Eb & Elb & Hvb).
          destruct (IH (length r1) ltac:(lia) (p_prune inner s1) g1 h1 (drift (len x) (vec_list path))
            (pointer_after grow (vec_list path) (drift (len x) (vec_list path)) (skips (vec_list path) kk p)) [] r1 pruned2 path1) as (s' & Hs' & HR' & Hp'); auto.
          { apply (H2 _ _ _ _ HR1). }
          { lia. }
          { cbn [app]; lia. }
          { cbn [app]; eapply vec_ok_le; [exact Hr1|exact Hvb]. }
          { cbn [app]; eapply vec_ok_le; [exact Hr1|exact Hv2']. }
          exists s'; split; [|split; [exact HR'|exact Hp']].
          eapply loop_step; [|exact Hs'].
          unfold vprune_body; cbn [vp_inner vp_clos vp_pruned vp_path]; eapply conv_bind; [exact Hc|]; cbn [option_map fst].
          rewrite Hp2, Er; cbn [bindR]; rewrite Hp1, Ef, Hdl, Eb; now_conv.
        * injection E as <- <- <- <-; exists (mkVprune s1 h1 pruned1 path1); split; [|split].
          -- apply loop_done; unfold vprune_body; cbn [vp_inner vp_clos vp_pruned vp_path]; eapply conv_bind; [exact Hc|]; cbn [option_map fst].
             rewrite Hp2, Er; cbn [bindR]; rewrite Hp1, Ef; now_conv.
          -- unfold vprune_R; cbn [vp_inner vp_clos vp_pruned vp_path fst snd]; split; [exact HR1|].
             split; [reflexivity|]; split; [exact Hw1|]; split; [lia|]; split; [lia|]; split; [eapply vec_ok_le; [|exact Hv1']; lia|].
             split; [eapply vec_ok_le; [|exact Hv2']; lia|left; split; [exact Ed|exact Hptr1]].
          -- intros a' x' E; injection E as <- <-; split; [|split; [exact Ed|exact Hptr1]]; cbn; split; [exact Ed|]; split; [rewrite vec_list_len; assumption|].
             eapply Forall_impl; [|exact Hv2']; intros y Hy; cbv beta in Hy |- *; lia.
      + injection E as <- <- <- <-; destruct Hsz as [-> ->]; exists (mkVprune s1 h [] (vec_release path)); split; [|split].
        * apply loop_done; unfold vprune_body; cbn [vp_inner vp_clos vp_pruned vp_path]; eapply conv_bind; [exact Hc|]; now_conv.
        * unfold vprune_R; cbn; split; [exact HR1|]; split; [reflexivity|]; split; [split; cbn; lia|]; split; [reflexivity|].
          split; [unfold usize_max; lia|]; split; [constructor|]; split; [constructor|]; right; reflexivity.
        * intros; discriminate.
  Qed.

  Lemma vprune_sim start h0 : simx (vprune grow inner f start h0) vvis (fun g _ => snd (snd (fst g))) len vprune_R.
  Proof.
    pose proof Hsim as [H1 H2 H3]; split.
    - intros s g d r HR o d' r' g' E; destruct (vprune_step start h0 s g d r HR o d' r' g' E) as (s' & Hc & HR' & Hp); exists s'; split; [exact Hc|split; [exact HR'|]].
      intros a x Eo; apply (Hp a x Eo).
    - intros [s h' pruned path] [[g [h v]] p] d r (HR & Eh & Hw & El & Hs & Hv1 & Hv2 & Hpv); unfold vprune_R; cbn [vp_inner vp_clos vp_pruned vp_path fst snd app p_prune vprune] in *.
      assert (fsize r <= fsize (d ++ r)) by (rewrite fsize_app; lia).
      split; [apply (H2 _ _ _ _ HR)|]; split; [exact Eh|]; split; [exact Hw|]; split; [exact El|]; split; [lia|].
      split; [eapply vec_ok_le; [|exact Hv1]; assumption|]; split; [eapply vec_ok_le; [|exact Hv2]; assumption|].
      destruct Hpv as [Hpv|Hpv]; [left; exact Hpv|right]; destruct d; [exact Hpv|discriminate].
    - reflexivity.
  Qed.

  Lemma vprune_retake s gh p d r : vprune_R s (gh, p) d r -> vprune_R s (gh, retaken (snd (snd gh)) p) d r.
  Proof.
    intros (HR & Eh & Hw & El & Hs & Hv1 & Hv2 & Hpv); repeat (split; [assumption|]).
    destruct Hpv as [[E Hp]|E]; [left|right; exact E]; cbn [fst snd] in *; split; [exact E|]; rewrite <- E; apply ptr_retake; assumption.
  Qed.
End VPrune.

(** ** A chain with a prune *)
Section MemChain.
  Variable grow : nat -> nat.
  Hypothesis Hgrow : forall c, c < grow c.
  Context {V X : Type} (P : pipe V) (depth_of : list N -> Res N) (start : list N).
  Context (val : X -> V) (path : X -> list N) (depth : X -> N) (pokE : list N -> X -> Prop).
  Hypothesis HE : forall p x, pokE p x -> p = path x /\ segs_ok p.
  Hypothesis HL : forall p x, length p = length (path x) -> depth_of p = Ok (depth x).
  Context (R0 : p_state P -> unit -> list (tree X) -> list (tree X) -> Prop).
  Hypothesis Hsim : simulates P (fun g x => (g, Keep (val x) true)) pokE R0.
  Context (d0 r0 : list (tree X)).
  Hypothesis Hinit : R0 (p_init P) tt d0 r0.
  Hypothesis Hbound : (N.of_nat (fsize (d0 ++ r0)) <= usize_max)%N.
  Hypothesis Hstart : vec_ok (fsize (d0 ++ r0)) start.

  Definition mvis {A} (c : chain V A) (g : dclos c * pointer) (x : X) : (dclos c * pointer) * outcome A :=
    let '(gs, o) := dvis val path depth c (fst g) x in
    ((gs, pointer_after grow (reported c (fst g) []) (reported c gs []) (snd g)), o).

  Record mem_sim {A} (c : chain V A) (R : p_state (mp_pipe (mem_chain grow depth_of start P c)) -> dclos c * pointer -> list (tree X) -> list (tree X) -> Prop) : Prop := mkMs {
    ms_sim : simx (mp_pipe (mem_chain grow depth_of start P c)) (mvis c) (fun g x => reported c (fst g) (path x)) (fun x => length (path x)) R;
    ms_clos : forall s g d r, R s g d r -> mem_closures grow depth_of start P c s = dforget c (fst g);
    ms_ptr : forall s g d r, R s g d r -> d ++ r = [] \/ ptr_ok (mp_vec (mem_chain grow depth_of start P c) s) (snd g);
    ms_list : forall s, p_path (mp_pipe (mem_chain grow depth_of start P c)) s = vec_list (mp_vec (mem_chain grow depth_of start P c) s);
    ms_some : forall s g d r, R s g d r -> forall a x d' r' g' s', vstep (mvis c) g (d ++ r) = (Some (a, x), d', r', g') ->
      (fun f => p_next (mp_pipe (mem_chain grow depth_of start P c)) f s) ⇓ Ok (Some a, s') ->
      vec_list (mp_vec (mem_chain grow depth_of start P c) s') = reported c (fst g') [] /\ ptr_ok (mp_vec (mem_chain grow depth_of start P c) s') (snd g');
    ms_keep : forall s, mp_vec (mem_chain grow depth_of start P c) (p_prune (mp_pipe (mem_chain grow depth_of start P c)) s) = mp_vec (mem_chain grow depth_of start P c) s;
    ms_wf : forall s g d r, R s g d r -> vec_wf (mp_vec (mem_chain grow depth_of start P c) s);
    ms_now : forall s g d r, R s g d r -> d ++ r = [] \/ vec_list (mp_vec (mem_chain grow depth_of start P c) s) = reported c (fst g) [];
    ms_retake : forall s g p d r, R s (g, p) d r -> R s (g, retaken (reported c g []) p) d r;
    ms_init : R (p_init (mp_pipe (mem_chain grow depth_of start P c))) (dclos_init start c, first_pointer grow (reported c (dclos_init start c) [])) d0 r0
  }.

  Definition swap {Y Z W : Type} (g : Y * Z * W) : Y * W * Z := let '(y, z, w) := g in (y, w, z).

  Lemma vprune_start {A G} st (c : chain V A) (g : G) f (R : _ -> _ -> _ -> _ -> Prop) : R (p_init (run_chain depth_of start P c)) (dclos_init start c) d0 r0 -> vec_ok (fsize (d0 ++ r0)) st ->
    vprune_R (run_chain depth_of start P c) R (p_init (vprune grow (run_chain depth_of start P c) f st g)) ((dclos_init start c, (g, st)), first_pointer grow st) d0 r0.
  Proof.
    intros Hi Hs; destruct (vec_from_facts grow st Hgrow) as (H1 & H2 & H3 & H4); pose proof (vec_list_len _ H1) as E; rewrite H2 in E.
    unfold vprune_R; cbn [p_init vprune vp_inner vp_clos vp_pruned vp_path fst snd]; rewrite H2.
    repeat (split; [first [exact Hi|reflexivity|exact H1|exact E|exact Hbound|exact Hs]|]); left; split; [reflexivity|exact H4].
  Qed.

  Lemma mem_chain_sim {A} (c : chain V A) : has_prune c = true -> exists R, mem_sim c R.
  Proof.
    assert (Hin : forall B (c : chain V B), exists R : p_state (run_chain depth_of start P c) -> dclos c -> list (tree X) -> list (tree X) -> Prop,
      simx (run_chain depth_of start P c) (dvis val path depth c) (fun g x => reported c g (path x)) (fun x => length (path x)) R /\
      (forall s g d r, R s g d r -> closures depth_of start P c s = dforget c g) /\ R (p_init (run_chain depth_of start P c)) (dclos_init start c) d0 r0).
    { intros B c0; apply (xchain_sim P depth_of start val path depth pokE HE HL R0 Hsim d0 r0 Hinit c0).
      intros _; split; [exact Hbound|exact Hstart]. }
    induction c as [|A B G c IH g f|A G c IH g f|A G c IH g f|A c IH lim]; cbn [has_prune]; intros Hp; try discriminate.
    - destruct (IH Hp) as (R & [S1 S2 S3 S4 S9 S10 S5 S6 S7 S8]).
      exists (fun s g' d r => map_R (mp_pipe (mem_chain grow depth_of start P c)) f g R s (swap g') d r); split.
      + eapply (simx_iso _ swap swap); [intros [[? ?] ?]; reflexivity|intros [[? ?] ?]; reflexivity| | |apply (xmap_sim _ f g _ _ _ _ S1)].
        * intros [[gs h] p] x; unfold vthen, map_stage, mvis, dvis, swap; cbn [dvisit fst snd reported].
          destruct (dvisit c gs (path x) (depth x) (val x)) as [g1 [|a down]]; [reflexivity|].
          destruct (f h a); rewrite andb_true_r; reflexivity.
        * intros [[gs h] p] x; reflexivity.
      + intros s [[gs h] p] d r [H1 H2]; cbn in H1, H2; apply S2 in H1; subst; cbn; f_equal; exact H1.
      + intros s [[gs h] p] d r [H1 H2]; apply (S3 _ _ _ _ H1).
      + intros s; apply S4.
      + intros [s h'] [[gs h] p] d r [H1 H2] a x d' r' g' [s' h''] E Hc; cbn in H1, H2; subst h'.
        destruct (d ++ r) as [|t l] eqn:Edr; [discriminate|].
        rewrite (vstep_iso swap swap (vthen (mvis c) (map_stage f)) (mvis (c_map c g f))) in E; [|intros [[? ?] ?]; reflexivity| |discriminate].
        2:{ intros [[gs1 h1] p1] x1; unfold vthen, map_stage, mvis, dvis, swap; cbn [dvisit fst snd reported].
            destruct (dvisit c gs1 (path x1) (depth x1) (val x1)) as [g1 [|a1 down]]; [reflexivity|]; destruct (f h1 a1); rewrite andb_true_r; reflexivity. }
        cbn [swap] in E; rewrite vstep_then in E; rewrite <- Edr in *.
        destruct (vstep (mvis c) (gs, p) (d ++ r)) as [[[o1 d1] r1] [gs1 p1]] eqn:E1.
        destruct (sx_next _ _ _ _ _ S1 _ _ _ _ H1 _ _ _ _ E1) as (s1 & Hc1 & HR1 & _).
        destruct o1 as [[a1 x1]|]; [|discriminate].
        unfold map_stage in E; destruct (f h a1) as [h1 b1] eqn:Ef; injection E as <- <- <- <- <-.
        assert (Hc2 : (fun f0 => p_next (map_tree (mp_pipe (mem_chain grow depth_of start P c)) f g) f0 (s, h)) ⇓ Ok (Some b1, (s1, h1))).
        { cbn; unfold map_next; eapply conv_bind; [exact Hc1|]; cbn; rewrite Ef; now_conv. }
        pose proof (conv_fun _ _ _ Hc Hc2) as E2; injection E2 as -> ->.
        exact (S9 _ _ _ _ H1 _ _ _ _ _ _ E1 Hc1).
      + intros s; apply S10.
      + intros s [[gs h] p] d r [H1 H2]; apply (S5 _ _ _ _ H1).
      + intros s [[gs h] p] d r [H1 H2]; apply (S6 _ _ _ _ H1).
      + intros s [gs h] p d r [H1 H2]; split; [apply S7; exact H1|exact H2].
      + split; [exact S8|reflexivity].
    - destruct (Hin _ c) as (R & HR & Hcl & Hi).
      exists (vprune_R (run_chain depth_of start P c) R); split.
      + refine (simx_iso _ (fun g => g) (fun g => g) _ _ _ _ _ _ (fun _ => eq_refl) (fun _ => eq_refl) _ _ (vprune_sim grow Hgrow (run_chain depth_of start P c) (fun g _ a => f g a) _ _ _ _ HR [] g)).
        * intros [[gs [h v]] p] x; unfold vvis, xprune_vis, mvis, dvis; cbn [fst snd dvisit reported].
          destruct (dvisit c gs (path x) (depth x) (val x)) as [g1 [|a down]]; [reflexivity|].
          destruct (f h a) as [h1 [|]]; reflexivity.
        * intros [[gs [h v]] p] x; reflexivity.
      + intros s [[gs [h v]] p] d r (H1 & H2 & _); cbn in H1, H2; apply Hcl in H1; cbn; f_equal; [exact H1|exact H2].
      + intros s [[gs [h v]] p] d r (_ & _ & _ & _ & _ & _ & _ & [[_ Hq]|Hq]); [right; exact Hq|left; exact Hq].
      + reflexivity.
      + intros s gg d r HR0 a x d' r' g' s' E Hc.
        assert (E' : vstep (vvis grow (fun g _ a => f g a) (dvis val path depth c) (fun g x => reported c g (path x)) (fun x => length (path x))) gg (d ++ r) = (Some (a, x), d', r', g')).
        { rewrite <- E; apply vstep_ext; intros [[gs [h v]] p] y; unfold vvis, xprune_vis, mvis, dvis; cbn [fst snd dvisit reported].
          destruct (dvisit c gs (path y) (depth y) (val y)) as [g1 [|a1 down]]; [reflexivity|].
          destruct (f h a1) as [h1 [|]]; reflexivity. }
        destruct (vprune_step grow Hgrow (run_chain depth_of start P c) (fun g _ a => f g a) _ _ _ _ HR [] g s gg d r HR0 _ _ _ _ E') as (s2 & Hc2 & _ & Hg).
        pose proof (conv_fun _ _ _ Hc Hc2) as E2; injection E2 as ->; destruct (Hg a x eq_refl) as (_ & Hg1 & Hg2); destruct g' as [[gs [h v]] p]; split; [exact Hg1|exact Hg2].
      + reflexivity.
      + intros s gg d r (_ & _ & Hw & _); exact Hw.
      + intros s [[gs [h v]] p] d r (_ & _ & _ & _ & _ & _ & _ & [[Hq _]|Hq]); [right; exact Hq|left; exact Hq].
      + intros s [gs [h v]] p d r HR'; apply vprune_retake; exact HR'.
      + apply (vprune_start [] c g (fun g _ a => f g a) R Hi); constructor.
    - destruct (Hin _ c) as (R & HR & Hcl & Hi).
      exists (vprune_R (run_chain depth_of start P c) R); split.
      + refine (simx_iso _ (fun g => g) (fun g => g) _ _ _ _ _ _ (fun _ => eq_refl) (fun _ => eq_refl) _ _ (vprune_sim grow Hgrow (run_chain depth_of start P c) f _ _ _ _ HR start g)).
        * intros [[gs [h v]] p] x; unfold vvis, xprune_vis, mvis, dvis; cbn [fst snd dvisit reported].
          destruct (dvisit c gs (path x) (depth x) (val x)) as [g1 [|a down]]; [reflexivity|].
          destruct (f h (reported c g1 (path x)) a) as [h1 [|]]; reflexivity.
        * intros [[gs [h v]] p] x; reflexivity.
      + intros s [[gs [h v]] p] d r (H1 & H2 & _); cbn in H1, H2; apply Hcl in H1; cbn; f_equal; [exact H1|exact H2].
      + intros s [[gs [h v]] p] d r (_ & _ & _ & _ & _ & _ & _ & [[_ Hq]|Hq]); [right; exact Hq|left; exact Hq].
      + reflexivity.
      + intros s gg d r HR0 a x d' r' g' s' E Hc.
        assert (E' : vstep (vvis grow f (dvis val path depth c) (fun g x => reported c g (path x)) (fun x => length (path x))) gg (d ++ r) = (Some (a, x), d', r', g')).
        { rewrite <- E; apply vstep_ext; intros [[gs [h v]] p] y; unfold vvis, xprune_vis, mvis, dvis; cbn [fst snd dvisit reported].
          destruct (dvisit c gs (path y) (depth y) (val y)) as [g1 [|a1 down]]; [reflexivity|].
          destruct (f h (reported c g1 (path y)) a1) as [h1 [|]]; reflexivity. }
        destruct (vprune_step grow Hgrow (run_chain depth_of start P c) f _ _ _ _ HR start g s gg d r HR0 _ _ _ _ E') as (s2 & Hc2 & _ & Hg).
        pose proof (conv_fun _ _ _ Hc Hc2) as E2; injection E2 as ->; destruct (Hg a x eq_refl) as (_ & Hg1 & Hg2); destruct g' as [[gs [h v]] p]; split; [exact Hg1|exact Hg2].
      + reflexivity.
      + intros s gg d r (_ & _ & Hw & _); exact Hw.
      + intros s [[gs [h v]] p] d r (_ & _ & _ & _ & _ & _ & _ & [[Hq _]|Hq]); [right; exact Hq|left; exact Hq].
      + intros s [gs [h v]] p d r HR'; apply vprune_retake; exact HR'.
      + apply (vprune_start start c g f R Hi); exact Hstart.
    - destruct (IH Hp) as (R & [S1 S2 S3 S4 S9 S10 S5 S6 S7 S8]).
      exists R; split; auto.
      2:{ intros s g d r HR a x d' r' g' s' E Hc.
          rewrite (vstep_ext (mvis (c_prune_depth c lim)) (vdepth lim depth (mvis c))) in E.
          2:{ intros [gs p] y; unfold vdepth, mvis, dvis; cbn [dvisit fst snd reported]; destruct (dvisit c gs (path y) (depth y) (val y)) as [g1 [|a1 down]]; reflexivity. }
          rewrite vstep_depth in E; cbn [dclos] in E, g, g'; destruct (vstep (mvis c) g (d ++ r)) as [[[o1 d1] r1] g1] eqn:E1.
          destruct (sx_next _ _ _ _ _ S1 _ _ _ _ HR _ _ _ _ E1) as (s1 & Hc1 & _ & Hp1).
          destruct o1 as [[a1 x1]|]; [|discriminate]; injection E as Ea Ex _ _ Eg; subst a1 x1 g1.
          destruct (Hp1 a x eq_refl) as (_ & Hl & _).
          assert (Hc2 : (fun f => p_next (prune_depth (mp_pipe (mem_chain grow depth_of start P c)) depth_of lim) f s) ⇓ Ok (Some a, if (depth x =? lim)%N then p_prune (mp_pipe (mem_chain grow depth_of start P c)) s1 else s1)).
          { cbn [p_next prune_depth]; unfold prune_depth_next; eapply conv_bind; [exact Hc1|]; cbn [option_map fst]; rewrite (HL _ _ Hl); now_conv. }
          pose proof (conv_fun _ _ _ Hc Hc2) as E2; injection E2 as ->.
          cbn [mem_chain mp_vec]; destruct (depth x =? lim)%N; [rewrite S10|]; exact (S9 _ _ _ _ HR _ _ _ _ _ _ E1 Hc1). }
      refine (simx_ext _ _ _ _ _ _ _ (xdepth_sim (mp_pipe (mem_chain grow depth_of start P c)) depth_of lim depth (mvis c) _ _ _ S1 HL)).
      intros [gs p] x; unfold vdepth, mvis, dvis; cbn [dvisit fst snd reported].
      destruct (dvisit c gs (path x) (depth x) (val x)) as [g1 [|a down]]; reflexivity.
  Qed.
End MemChain.
