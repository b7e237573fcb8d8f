(** * ProofsMapPathPruneEnd: map_path behind an n-ary prune, and the stages after it. *)
From Verif Require Import Prelim PrelimFacts Spec SpecFacts SpecPipe SpecDrift SpecMapPathPrune SpecObs ModelNode NodeFacts ModelPre ModelPipe ModelMapPath
  ModelMapPathPrune ProofsPlain Slots PipeCore PipeBase PipeChain PipeEnd ProofsPipe PipeFinal PipeExact ProofsExact ProofsMapPath ProofsMapPathEnd ProofsMapPathChain
  ProofsMapPathPrune ProofsMapPathPruneSim ProofsMapPathPruneUb.

Lemma read_ptr v p : ptr_ok v p -> vec_read v (taken p, length (shown p)) = if dangling p then UB else Ok (shown p).
Proof.
  intros (_ & Hb & _ & Hs); unfold vec_read, dangling; cbn [fst snd]; rewrite Hb.
  destruct (shown p) as [|y l] eqn:E; [reflexivity|]; cbn [length Nat.ltb Nat.leb andb].
  destruct (Nat.eqb_spec (taken p) (v_id v)) as [Et|Et]; cbn [negb]; [f_equal; apply Hs; exact Et|reflexivity].
Qed.

Lemma pointer_after_shape grow v d p : length (shown (pointer_after grow v d p)) = length (shown p) /\ taken (pointer_after grow v d p) = taken p.
Proof.
  unfold pointer_after; destruct (pushes grow (length d - length v) (length v) (room p) (buffer p)); cbn; split; [|reflexivity].
  rewrite firstn_length, app_length, skipn_length; lia.
Qed.

(** ** The stage *)
Section Stage.
  Variable grow : nat -> nat.
  Context {V A B G X : Type} (P : pipe V) (depth_of : list N -> Res N) (start : list N) (val : X -> V) (path : X -> list N) (depth : X -> N).
  Context (d0 r0 : list (tree X)) (c : chain V A) (f : G -> list N -> A -> G * B) (g0 : G).
  Hypothesis Hprune : has_prune c = true.
  Notation Q := (mem_chain grow depth_of start P c).
  Context (R : p_state (mp_pipe Q) -> dclos c * pointer -> list (tree X) -> list (tree X) -> Prop).
  Notation mv := (mvis grow val path depth c).
  Hypothesis HR : mem_sim grow P depth_of start val path depth d0 r0 c R.

  Definition hvis (st : dclos c * pointer * G * bool) (x : X) : (dclos c * pointer * G * bool) * outcome B :=
    let '(gp, g, freed) := st in
    match mv gp x with
    | (gp', Drop) => ((gp', g, freed), Drop)
    | (gp', Keep a dn) =>
        let '(g', b) := f g (shown (snd gp')) a in
        ((fst gp', retaken (reported c (fst gp') []) (snd gp'), g', freed || dangling (snd gp')), Keep b dn)
    end.

  Lemma vstep_hvis todo : forall gp g freed,
    vstep hvis (gp, g, freed) todo =
    match vstep mv gp todo with
    | (None, _, _, gp') => (None, [], [], (gp', g, freed))
    | (Some (a, x), d, r, gp') =>
        let '(g', b) := f g (shown (snd gp')) a in
        (Some (b, x), d, r, (fst gp', retaken (reported c (fst gp') []) (snd gp'), g', freed || dangling (snd gp')))
    end.
  Proof.
    induction todo as [|[x ts] todo IH]; intros gp g freed; cbn [vstep]; [reflexivity|].
    unfold hvis at 1; destruct (mv gp x) as [gp' [|a dn]]; [apply IH|].
    destruct (f g (shown (snd gp')) a) as [g' b]; reflexivity.
  Qed.

  Lemma vstep_shape todo : forall gp o d r gp', vstep mv gp todo = (o, d, r, gp') ->
    length (shown (snd gp')) = length (shown (snd gp)) /\ taken (snd gp') = taken (snd gp).
  Proof.
    induction todo as [|[x ts] todo IH]; intros gp o d r gp' E; cbn [vstep] in E; [injection E as _ _ _ <-; auto|].
    destruct (mv gp x) as [gp1 out] eqn:Em.
    assert (Hs : length (shown (snd gp1)) = length (shown (snd gp)) /\ taken (snd gp1) = taken (snd gp)).
    { unfold mvis in Em; destruct (dvis val path depth c (fst gp) x) as [gs o1]; injection Em as <- _; cbn [snd]; apply pointer_after_shape. }
    destruct out as [|a dn]; [|injection E as _ _ _ <-; exact Hs].
    destruct (IH _ _ _ _ _ E) as [E1 E2]; destruct Hs as [<- <-]; auto.
  Qed.

  Notation mpp := (map_path (mp_pipe Q) (fun s => vec_slice (mp_vec Q s)) (fun s => vec_read (mp_vec Q s)) f g0).

  Definition hR (s : p_state mpp) (st : dclos c * pointer * G * bool) (d r : list (tree X)) : Prop :=
    let '(gp, g, freed) := st in
    R (fst s) gp d r /\ snd s = g /\ freed = false /\
    (d ++ r = [] \/ (length (shown (snd gp)) = v_len (mp_vec Q (fst s)) /\ taken (snd gp) = v_id (mp_vec Q (fst s)))).

  Lemma stage_sim : simu mpp hvis (fun st _ => reported c (fst (fst (fst st))) []) (fun x => length (path x)) (fun st => snd st) hR.
  Proof.
    destruct HR as [S1 S2 S3 S4 S9 S10 S5 S6 S7 S8]; split.
    - intros [[gp g] fr] x Hu; cbn [snd] in Hu; subst fr; unfold hvis; destruct (mv gp x) as [gp' [|a dn]]; [reflexivity|].
      destruct (f g (shown (snd gp')) a); reflexivity.
    - intros s [[gp g] fr] d r (_ & _ & Hf & _); exact Hf.
    - intros [s g1] [[gp g] fr] d r (H1 & Eg & -> & Hq) o d' r' g' E; cbn [fst snd] in *; subst g1.
      rewrite vstep_hvis in E; destruct (vstep mv gp (d ++ r)) as [[[o1 d1] r1] gp1] eqn:E1.
      destruct (sx_next _ _ _ _ _ S1 _ _ _ _ H1 _ _ _ _ E1) as (s1 & Hc & HR1 & Hp).
      destruct o1 as [[a x]|].
      + destruct Hq as [Hq|[Hq1 Hq2]]; [rewrite Hq in E1; discriminate|].
        destruct (S9 _ _ _ _ H1 _ _ _ _ _ _ E1 Hc) as [Hl Hptr].
        destruct (vstep_shape _ _ _ _ _ _ E1) as [Es1 Es2].
        pose proof (read_ptr _ _ Hptr) as Hread; rewrite Es1, Es2, Hq1, Hq2 in Hread.
        destruct (f g (shown (snd gp1)) a) as [g2 b] eqn:Ef; injection E as <- <- <- <-; cbn [snd orb].
        destruct (dangling (snd gp1)) eqn:Ed.
        * cbn [p_next map_path]; unfold map_path_next; eapply conv_bind; [exact Hc|]; cbn [option_map fst]; unfold vec_slice; cbn [fst]; rewrite Hread; now_conv.
        * exists (s1, g2); split; [|split].
          -- cbn [p_next map_path]; unfold map_path_next; eapply conv_bind; [exact Hc|]; cbn [option_map fst snd]; unfold vec_slice; cbn [fst]; rewrite Hread; cbn [bindR]; rewrite Ef; now_conv.
          -- unfold hR; cbn [fst snd]; split; [destruct gp1; apply S7; exact HR1|]; split; [reflexivity|]; split; [reflexivity|]; right.
             unfold retaken; cbn [shown taken fst snd]; rewrite <- Hl; split; [apply vec_list_len; apply (S5 _ _ _ _ HR1)|apply Hptr].
          -- intros b' x' Eo; injection Eo as <- <-; cbn [p_path map_path fst snd]; destruct (Hp a x eq_refl) as (P1 & P2 & P3).
             split; [rewrite P1; apply reported_const; exact Hprune|split; assumption].
      + injection E as <- <- <- <-; cbn [snd]; exists (s1, g); split; [|split].
        * cbn [p_next map_path]; unfold map_path_next; eapply conv_bind; [exact Hc|]; now_conv.
        * destruct (vstep_size mv gp (d ++ r) _ _ _ _ E1) as [-> ->]; unfold hR; cbn [fst snd]; repeat split; auto.
        * intros; discriminate.
    - intros [s g1] [[gp g] fr] d r (H1 & Eg & Hf & Hq); unfold hR; cbn [fst snd p_prune map_path] in *; split; [apply (sx_prune _ _ _ _ _ S1 _ _ _ _ H1)|].
      split; [exact Eg|]; split; [exact Hf|]; rewrite S10; destruct Hq as [Hq|Hq]; [left; destruct d; [exact Hq|discriminate]|right; exact Hq].
    - intros [s g1]; cbn [p_prune p_path map_path fst]; apply (sx_path _ _ _ _ _ S1).
  Qed.

  Lemma stage_init : hR (p_init mpp) (dclos_init start c, first_pointer grow (reported c (dclos_init start c) []), g0, false) d0 r0.
  Proof.
    destruct HR as [S1 S2 S3 S4 S9 S10 S5 S6 S7 S8]; unfold hR; cbn [fst snd p_init map_path]; split; [exact S8|]; split; [reflexivity|]; split; [reflexivity|].
    destruct (S3 _ _ _ _ S8) as [E|(_ & Hb & _)]; [left; exact E|]; destruct (S6 _ _ _ _ S8) as [E|E]; [left; exact E|right].
    cbn [fst snd] in E, Hb |- *; rewrite <- vec_list_len by (apply (S5 _ _ _ _ S8)); rewrite E, <- Hb.
    unfold first_pointer; destruct (pushes grow _ 0 0 0); split; reflexivity.
  Qed.
End Stage.

(** ** The stages after it *)
Section UChain.
  Context {B G X : Type} (P : pipe B) (vis : G -> X -> G * outcome B) (pth : G -> list N) (path : X -> list N) (depth : X -> N) (ub : G -> bool) (depth_of : list N -> Res N) (start : list N).
  Context (R0 : p_state P -> G -> list (tree X) -> list (tree X) -> Prop).
  Hypothesis Hsim : simu P vis (fun g _ => pth g) (fun x => length (path x)) ub R0.
  Hypothesis Hlen : forall g x g' b dn, vis g x = (g', Keep b dn) -> length (pth g') = length (path x).
  Hypothesis HL : forall p x, length p = length (path x) -> depth_of p = Ok (depth x).
  Context (g0 : G) (d0 r0 : list (tree X)).
  Hypothesis Hinit : R0 (p_init P) g0 d0 r0.
  Hypothesis Hbound : (N.of_nat (fsize (d0 ++ r0)) <= usize_max)%N.
  Hypothesis Hstart : vec_ok (fsize (d0 ++ r0)) start.

  Definition uvis {A} (c : chain B A) (g : G * dclos c) (x : X) : (G * dclos c) * outcome A :=
    match vis (fst g) x with
    | (g1, Drop) => ((g1, snd g), Drop)
    | (g1, Keep b dn) =>
        let '(gs, o) := dvisit c (snd g) (pth g1) (depth x) b in
        ((g1, gs), match o with Drop => Drop | Keep a dn' => Keep a (dn && dn') end)
    end.

  Definition rot {Y Z W : Type} (g : Y * Z * W) : Y * (Z * W) := let '(y, z, w) := g in (y, (z, w)).
  Definition unrot {Y Z W : Type} (g : Y * (Z * W)) : Y * Z * W := let '(y, (z, w)) := g in (y, z, w).

  Lemma uchain_sim {A} (c : chain B A) :
    exists R : p_state (run_chain depth_of start P c) -> G * dclos c -> list (tree X) -> list (tree X) -> Prop,
      simu (run_chain depth_of start P c) (uvis c) (fun g x => reported c (snd g) (pth (fst g))) (fun x => length (path x)) (fun g => ub (fst g)) R /\
      (forall s g d r, R s g d r -> closures depth_of start P c s = dforget c (snd g) /\ R0 (chain_first depth_of start P c s) (fst g) d r) /\
      R (p_init (run_chain depth_of start P c)) (g0, dclos_init start c) d0 r0.
  Proof.
    induction c as [|A B' H c IH g f|A H c IH g f|A H c IH g f|A c IH lim].
    - exists (fun s g d r => R0 s (fst g) d r); split; [|split; [intros s [g []] d r HR; split; [reflexivity|exact HR]|exact Hinit]].
      refine (simu_iso _ (fun g => (g, tt)) fst _ _ _ _ _ _ _ _ (fun _ => eq_refl) _ _ _ _ Hsim).
      + intros [g []]; reflexivity.
      + intros [g []] x; unfold uvis; cbn [dvisit fst snd]; destruct (vis g x) as [g1 [|b dn]]; [reflexivity|]; rewrite andb_true_r; reflexivity.
      + reflexivity.
      + reflexivity.
    - destruct IH as (R & HR & Hcl & Hi).
      exists (fun s g' d r => map_R (run_chain depth_of start P c) f g R s (unrot g') d r); split; [|split].
      + refine (simu_iso _ rot unrot _ _ _ _ _ _ _ _ _ _ _ _ _ (umap_sim (run_chain depth_of start P c) f g _ _ _ _ _ HR)).
        * intros [[? ?] ?]; reflexivity.
        * intros [? [? ?]]; reflexivity.
        * intros [g1 [gs h]] x; unfold vthen, map_stage, uvis, rot, unrot; cbn [dvisit fst snd reported].
          destruct (vis g1 x) as [g2 [|b dn]]; [reflexivity|].
          destruct (dvisit c gs (pth g2) (depth x) b) as [gs' [|a dn']]; [reflexivity|].
          destruct (f h a); rewrite andb_true_r; reflexivity.
        * intros [? [? ?]] x; reflexivity.
        * intros [? [? ?]]; reflexivity.
      + intros s [g1 [gs h]] d r [H1 H2]; cbn in H1, H2; destruct (Hcl _ _ _ _ H1) as [E1 E2]; split; [cbn; f_equal; [exact E1|exact H2]|exact E2].
      + split; [exact Hi|reflexivity].
    - destruct IH as (R & HR & Hcl & Hi).
      exists (fun s g' d r => xprune_R (run_chain depth_of start P c) (fun g _ a => f g a) R g [] s (unrot g') d r); split; [|split].
      + refine (simu_iso _ rot unrot _ _ _ _ _ _ _ _ _ _ _ _ _ (uprune_sim (run_chain depth_of start P c) (fun g _ a => f g a) _ _ _ _ _ HR g [])).
        * intros [[? ?] ?]; reflexivity.
        * intros [? [? ?]]; reflexivity.
        * intros [g1 [gs [h v]]] x; unfold xprune_vis, uvis, rot, unrot; cbn [dvisit fst snd reported].
          destruct (vis g1 x) as [g2 [|b dn]] eqn:Ev; [reflexivity|].
          destruct (dvisit c gs (pth g2) (depth x) b) as [gs' [|a dn']]; [reflexivity|].
          rewrite (Hlen _ _ _ _ _ Ev); destruct (f h a) as [h1 [|]]; reflexivity.
        * intros [? [? [? ?]]] x; reflexivity.
        * intros [? [? ?]]; reflexivity.
      + intros s [g1 [gs [h v]]] d r (H1 & H2 & _); cbn in H1, H2; destruct (Hcl _ _ _ _ H1) as [E1 E2]; split; [cbn; f_equal; [exact E1|exact H2]|exact E2].
      + split; [exact Hi|]; cbn; repeat split; [exact Hbound|constructor|constructor|left; reflexivity].
    - destruct IH as (R & HR & Hcl & Hi).
      exists (fun s g' d r => xprune_R (run_chain depth_of start P c) f R g start s (unrot g') d r); split; [|split].
      + refine (simu_iso _ rot unrot _ _ _ _ _ _ _ _ _ _ _ _ _ (uprune_sim (run_chain depth_of start P c) f _ _ _ _ _ HR g start)).
        * intros [[? ?] ?]; reflexivity.
        * intros [? [? ?]]; reflexivity.
        * intros [g1 [gs [h v]]] x; unfold xprune_vis, uvis, rot, unrot; cbn [dvisit fst snd reported].
          destruct (vis g1 x) as [g2 [|b dn]] eqn:Ev; [reflexivity|].
          destruct (dvisit c gs (pth g2) (depth x) b) as [gs' [|a dn']]; [reflexivity|].
          rewrite (Hlen _ _ _ _ _ Ev); cbn [fst snd]; destruct (f h (reported c gs' (pth g2)) a) as [h1 [|]]; reflexivity.
        * intros [? [? [? ?]]] x; reflexivity.
        * intros [? [? ?]]; reflexivity.
      + intros s [g1 [gs [h v]]] d r (H1 & H2 & _); cbn in H1, H2; destruct (Hcl _ _ _ _ H1) as [E1 E2]; split; [cbn; f_equal; [exact E1|exact H2]|exact E2].
      + split; [exact Hi|]; cbn; repeat split; [exact Hbound|exact Hstart|exact Hstart|left; reflexivity].
    - destruct IH as (R & HR & Hcl & Hi).
      exists R; split; [|split; [exact Hcl|exact Hi]].
      refine (simu_iso _ (fun g => g) (fun g => g) _ _ _ _ _ _ _ _ (fun _ => eq_refl) (fun _ => eq_refl) _ (fun _ _ => eq_refl) (fun _ => eq_refl) (udepth_sim (run_chain depth_of start P c) depth_of lim depth _ _ _ _ _ HR HL)).
      intros [g1 gs] x; unfold vdepth, uvis; cbn [dvisit fst snd].
      destruct (vis g1 x) as [g2 [|b dn]]; [reflexivity|].
      destruct (dvisit c gs (pth g2) (depth x) b) as [gs' [|a dn']]; [reflexivity|]; rewrite andb_assoc; reflexivity.
  Qed.
End UChain.

(** ** What such a pipeline emits *)
Lemma walk_mono {A G X} (v : G -> X -> G * outcome A) (u : G -> bool) : (forall g x, u g = true -> u (fst (v g x)) = true) ->
  forall t g, u g = true -> u (fst (walk v g t)) = true.
Proof.
  intros Hm t; induction t as [x ts IH] using tree_ind'; intros g Hu; rewrite walk_node; specialize (Hm g x Hu).
  destruct (v g x) as [g1 [|a [|]]]; cbn [fst] in *; try exact Hm.
  assert (Hl : u (fst (walk_list (walk v) g1 ts)) = true).
  { clear - IH Hm; revert g1 Hm; induction IH as [|t ts Ht _ IHl]; intros g1 Hm; [rewrite walk_list_nil; exact Hm|].
    rewrite walk_list_cons; specialize (Ht g1 Hm); destruct (walk v g1 t) as [g2 o]; specialize (IHl g2 Ht); destruct (walk_list (walk v) g2 ts); exact IHl. }
  destruct (walk_list (walk v) g1 ts); exact Hl.
Qed.
Lemma walk_list_mono {A G X} (v : G -> X -> G * outcome A) (u : G -> bool) : (forall g x, u g = true -> u (fst (v g x)) = true) ->
  forall ts g, u g = true -> u (fst (walk_list (walk v) g ts)) = true.
Proof.
  intros Hm ts; induction ts as [|t ts IHl]; intros g Hu; [rewrite walk_list_nil; exact Hu|].
  rewrite walk_list_cons; pose proof (walk_mono v u Hm t g Hu) as Ht; destruct (walk v g t) as [g2 o]; specialize (IHl g2 Ht); destruct (walk_list (walk v) g2 ts); exact IHl.
Qed.

Lemma simu_items {A X} (P : pipe A) {G} (vis : G -> X -> G * outcome A) pth len ub R : simu P vis pth len ub R ->
  forall s g d r, R s g d r ->
  let w := walk_all (with_rep vis pth) g (d ++ r) in
  if ub (fst w) then exists l rest, blows P pok_rep s l /\ flat_map preorder (snd w) = l ++ rest
  else exists s', items P pok_rep s (flat_map preorder (snd w)) s' /\ R s' (fst w) [] [].
Proof.
  intros Hsim s g d r HR; remember (fsize (d ++ r)) as n eqn:En.
  assert (Hm : forall g x, ub g = true -> ub (fst (with_rep vis pth g x)) = true).
  { intros g1 x Hu; unfold with_rep; pose proof (su_mono _ _ _ _ _ _ Hsim g1 x Hu) as Hm; destruct (vis g1 x) as [g2 [|b dn]]; exact Hm. }
  revert s g d r HR En; induction n as [n IH] using lt_wf_ind; intros s g d r HR En.
  pose proof (walk_vstep_path vis pth g (d ++ r)) as Hw.
  destruct (vstep vis g (d ++ r)) as [[[o d1] r1] g1] eqn:E.
  pose proof (vstep_size vis g (d ++ r) _ _ _ _ E) as Hsz.
  pose proof (su_next _ _ _ _ _ _ Hsim _ _ _ _ HR _ _ _ _ E) as Hn.
  destruct (ub g1) eqn:Eu.
  - assert (Hu : ub (fst (walk_all (with_rep vis pth) g (d ++ r))) = true).
    { destruct o as [[a x]|]; [|rewrite Hw; exact Eu].
      unfold walk_all in Hw |- *; pose proof (walk_list_mono _ ub Hm d1 g1 Eu) as U1; destruct (walk_list (walk (with_rep vis pth)) g1 d1) as [g2 o1].
      pose proof (walk_list_mono _ ub Hm r1 g2 U1) as U2; destruct (walk_list (walk (with_rep vis pth)) g2 r1) as [g3 o2]; rewrite Hw; exact U2. }
    cbv zeta; rewrite Hu; exists []; eexists; split; [apply bl_now; exact Hn|reflexivity].
  - destruct Hn as (s1 & Hc & HR1 & Hp).
    destruct o as [[a x]|].
    + specialize (IH (fsize (d1 ++ r1)) ltac:(lia) s1 g1 d1 r1 HR1 eq_refl).
      cbv zeta in IH |- *; unfold walk_all in IH, Hw |- *; rewrite walk_list_app in IH.
      destruct (walk_list (walk (with_rep vis pth)) g1 d1) as [g2 o1].
      destruct (walk_list (walk (with_rep vis pth)) g2 r1) as [g3 o2].
      rewrite Hw; cbn [fst snd] in IH |- *.
      destruct (Hp a x eq_refl) as (Hp1 & _ & Hp3).
      cbn [flat_map preorder app]; rewrite <- flat_map_app.
      destruct (ub g3).
      * destruct IH as (l & rest & Hb & El); exists ((a, (x, pth g1 x)) :: l), rest; split; [|cbn; f_equal; exact El].
        eapply bl_step; [exact Hc|split; [exact Hp1|exact Hp3]|exact Hb].
      * destruct IH as (s' & Hit & HR'); exists s'; split; [|exact HR'].
        eapply it_cons; [exact Hc|split; [exact Hp1|exact Hp3]|exact Hit].
    + cbv zeta; rewrite Hw; cbn [fst snd flat_map]; rewrite Eu; exists s1; split; [apply it_nil; exact Hc|].
      destruct Hsz as [-> ->]; exact HR1.
Qed.
