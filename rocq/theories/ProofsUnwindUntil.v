(** * ProofsUnwindUntil: the iterators that a panic leaves in a wrong state, up to that panic.

    As in ProofsUnwind, the iterators of the other files run on [tot gvc]; the two states are equal, up to [Some], as
    long as no call has let a panic through. *)
From Verif Require Import Prelim PrelimFacts FuelMono Spec SpecFacts SpecObs ModelNode NodeFacts ModelBfs ModelPre ModelPost ModelIn ModelLeaves ModelUnwind SpecUnwind.
From Verif Require Import Slots ProofsPlain ProofsPre ProofsPost ProofsIn ProofsTree ProofsLeaves BfsCore ProofsBfs ProofsEdit ProofsUnwind.

Lemma nth_error_tl {A} (l : list A) i : nth_error (tl l) i = nth_error l (S i).
Proof. destruct l as [|a l]; [destruct i|]; reflexivity. Qed.

Lemma until_sim {S1 S2 A B} (next1 : nat -> S1 -> Res (option A * S1)) (next2 : nat -> S2 -> Res (option (outcome B) * S2))
    (h : A -> outcome B) (R : S1 -> S2 -> Prop) :
  (forall s1 s2 o s1', R s1 s2 -> (fun fu => next1 fu s1) ⇓ Ok (o, s1') ->
     exists s2', (fun fu => next2 fu s2) ⇓ Ok (option_map h o, s2') /\ (option_map h o <> Some Unwound -> R s1' s2')) ->
  forall s1 s2 l, R s1 s2 -> yields next1 s1 l -> yields_until_panic next2 s2 (map h l).
Proof.
  intros Hsim s1 s2 l HR Hy k; revert s1 s2 l HR Hy; induction k as [|k IH]; intros s1 s2 l HR Hy Hk; [exists s2; apply calls_0|].
  destruct (yields_step_inv _ _ _ Hy) as (s1' & Hn & Hy').
  destruct (Hsim _ _ _ _ HR Hn) as (s2' & Hn2 & HR').
  assert (Eh : option_map h (hd_error l) = nth_error (map h l) 0) by (destruct l; reflexivity).
  rewrite Eh in *; destruct k as [|k].
  - exists s2'; cbn [seq map]; eapply calls_S; [exact Hn2|apply calls_0].
  - destruct (IH s1' s2' (tl l)) as (s' & Hc).
    + apply HR', Hk; lia.
    + exact Hy'.
    + intros i Hi; rewrite <- map_tl, nth_error_tl; apply Hk; lia.
    + exists s'; cbn [seq map]; eapply calls_S; [exact Hn2|].
      change (nth_error (map h l) 1 :: map (nth_error (map h l)) (seq 2 k)) with (map (nth_error (map h l)) (seq 1 (S k))).
      rewrite <- seq_shift, map_map.
      rewrite (map_ext (fun x => nth_error (map h l) (S x)) (nth_error (map h (tl l)))); [exact Hc|].
      intros i; rewrite <- map_tl, nth_error_tl; reflexivity.
Qed.

Lemma until_step {S1 S2 A B} (adv1 : nat -> S1 -> Res S1) (get1 : S1 -> option A) (adv2 : nat -> S2 -> Res (ran S2)) (get2 : S2 -> option B)
    (lift : S2 -> S1) (hit : S1 -> Prop) (h : A -> outcome B) :
  (forall F s x, adv1 F (lift s) = Ok x -> exists r, adv2 F s = Ok r /\ match r with Done s2 => x = lift s2 | Raised _ => hit x end) ->
  (forall s, option_map h (get1 (lift s)) = option_map Got (get2 s)) ->
  (forall x, hit x -> option_map h (get1 x) = Some Unwound) ->
  (forall s, more (fun f => adv2 f s)) ->
  forall s1 s o s1', s1 = lift s -> (fun fu => s' <- adv1 fu s1 ;; Ok (get1 s', s')) ⇓ Ok (o, s1') ->
    exists s2', (fun fu => r <- adv2 fu s ;; Ok (observe get2 r)) ⇓ Ok (option_map h o, s2') /\
      (option_map h o <> Some Unwound -> s1' = lift s2').
Proof.
  intros Hadv Hget Hhit Hm s1 s o s1' -> [F HF]; specialize (HF F (le_n F)).
  destruct (adv1 F (lift s)) as [x| | |] eqn:E; try discriminate HF; cbn [bindR] in HF; injection HF as <- <-.
  destruct (Hadv F s x E) as (r & E2 & Hr).
  exists (snd (observe get2 r)); split.
  - apply (more_conv _ F); [apply (more_bind _ (fun _ => _)); [apply Hm|intros; apply more_const]| |discriminate].
    rewrite E2; cbn [bindR]; destruct r as [s2|s2]; cbn [observe snd].
    + subst x; rewrite Hget; reflexivity.
    + rewrite (Hhit x Hr); reflexivity.
  - destruct r as [s2|s2]; cbn [observe snd]; [intros _; exact Hr|intros H; exfalso; apply H, Hhit, Hr].
Qed.

Section Until.
  Context {Nd V : Type}.
  Variable gvc : Nd -> option (V * list Nd).
  Notation tot := (tot gvc).

  (** The context as seen. *)
  Definition got_context {C} (c : tree_context (option V) C) : outcome (tree_context V C) :=
    match got_slice (c_ancestors c) with Got l => Got (mkCtx (c_path c) l (c_children c)) | Unwound => Unwound end.

  Lemma seen_got_context p : got_context (context_at tot p) = seen_context gvc p.
  Proof.
    unfold got_context, context_at, seen_context; cbn [c_ancestors c_path c_children].
    pose proof (seen_slice gvc p) as E; unfold ancestors_at in E; rewrite E; unfold seen_ancestors, nkids, ProofsUnwind.tot.
    destruct (gvc (pos_here p)) as [[v c]|]; reflexivity.
  Qed.

  (** The items of the total iterator after a call that lets a panic through. *)
  Definition topped (items : list (option V)) : Prop := exists l, items = None :: map Some l.

  Lemma slice_some v (l : list V) : Some (got_slice (rev (Some v :: map Some l))) = Some (Got (rev (v :: l))).
  Proof. f_equal; apply got_slice_some. Qed.
  Lemma context_some {C} P (ch : option C) v (l : list V) :
    Some (got_context (mkCtx P (rev (Some v :: map Some l)) ch)) = Some (Got (mkCtx P (rev (v :: l)) ch)).
  Proof. f_equal; unfold got_context; cbn [c_ancestors c_path c_children]; rewrite got_slice_some; reflexivity. Qed.
  Lemma slice_none (l : list V) : Some (got_slice (rev (None :: map Some l))) = Some Unwound.
  Proof. f_equal; apply got_slice_none. Qed.
  Lemma context_none {C} P (ch : option C) (l : list V) : Some (got_context (mkCtx P (rev (None :: map Some l)) ch)) = Some Unwound.
  Proof. f_equal; unfold got_context; cbn [c_ancestors]; rewrite got_slice_none; reflexivity. Qed.

  (** ** Postorder with ancestors *)
  Definition posta_lift (s : post_iter Nd V) : post_iter Nd (option V) := mkPost (po_root s) (map Some (po_items s)) (po_stack s).

  Lemma posta_loop f st it r1 : loop (posta_body tot) f (map Some it, st) = Ok r1 ->
    exists r2, loop (uposta_body gvc) f (it, st) = Ok r2 /\
      match r2 with Done (it', st') => r1 = (map Some it', st') | Raised _ => topped (fst r1) end.
  Proof.
    intros E.
    refine (ProofsUnwind.loop_sim (posta_body tot) (uposta_body gvc) (fun a b => a = (map Some (fst b), snd b))
      (fun r1 r2 => match r2 with Done (it', st') => r1 = (map Some it', st') | Raised _ => topped (fst r1) end) _ f (map Some it, st) (it, st) r1 eq_refl E).
    clear; intros f s1 [it st] ->; cbn [fst snd]; unfold posta_body, uposta_body, ProofsUnwind.tot.
    destruct st as [|[|n t] rest].
    - split; intros x E; [discriminate E|injection E as <-]; eexists; split; reflexivity.
    - split; intros x E; [discriminate E|injection E as <-]; eexists; split; reflexivity.
    - destruct (gvc n) as [[v c]|]; split; intros x E; try discriminate E; injection E as <-.
      + left; eexists; split; reflexivity.
      + right; eexists; split; [reflexivity|]; intros [|f'] r1 E; [discriminate E|].
        cbn in E; injection E as <-; eexists; reflexivity.
  Qed.

  Lemma posta_until nt n : fnode_tree gvc nt ->
    yields_until_panic (uposta_next gvc) (post_new n) (map (seen_ancestors gvc) (postorder (positions (nt n)))).
  Proof.
    intros H; rewrite <- (map_ext _ _ (seen_slice gvc)), <- map_map.
    apply (until_sim (posta_next tot) _ got_slice (fun a b => a = posta_lift b)) with (s1 := post_new n); [|reflexivity|apply posta_yields, node_tot, H].
    apply (until_step (posta_advance tot) posta_get (uposta_advance gvc) posta_get posta_lift (fun x => topped (po_items x))).
    - intros F [r it st] x E; unfold posta_advance, uposta_advance, posta_lift in *; cbn [po_root po_items po_stack] in *.
      assert (Hgo : forall it0 st0, ('(items, stack) <- loop (posta_body tot) F (map Some it0, st0) ;; Ok (mkPost None items stack)) = Ok x ->
        exists r, (r <- loop (uposta_body gvc) F (it0, st0) ;; match r with Done (items, stack) => Ok (Done (mkPost None items stack)) | Raised (items, stack) => Ok (Raised (mkPost None items stack)) end) = Ok r /\
          match r with Done s2' => x = posta_lift s2' | Raised _ => topped (po_items x) end).
      { clear E; intros it0 st0 E; destruct (loop (posta_body tot) F (map Some it0, st0)) as [[it1 st1]| | |] eqn:El; try discriminate E.
        cbn in E; injection E as <-.
        destruct (posta_loop F st0 it0 _ El) as (r2 & -> & Hr); destruct r2 as [[it2 st2]|[it2 st2]]; cbn [bindR].
        - injection Hr as -> ->; eexists; split; reflexivity.
        - eexists; split; [reflexivity|exact Hr]. }
      destruct r as [root|].
      + unfold ProofsUnwind.tot in E at 1; destruct (gvc root) as [[v c]|] eqn:Er.
        * exact (Hgo (v :: it) (c :: st) E).
        * eexists; split; [reflexivity|]; destruct F as [|F]; [discriminate E|]; cbn in E; injection E as <-; eexists; reflexivity.
      + rewrite map_tl in E; exact (Hgo (tl it) st E).
    - intros [r [|v it] st]; [reflexivity|exact (slice_some v it)].
    - intros [r it st] [l E]; cbn in E; subst it; exact (slice_none l).
    - intros s; unfold uposta_advance.
      destruct (match po_root s with Some _ => _ | None => _ end) as [[it st]|]; [|apply more_const].
      apply (more_bind _ (fun _ => _)); [|intros [[? ?]|[? ?]]; apply more_const].
      apply more_flat; intros f g [? ?]; reflexivity.
  Qed.

  (** ** Leaves of depth-first iterators with ancestors *)
  Definition da_lift (s : daleaves Nd V) : daleaves Nd (option V) := mkDa (da_root s) (map Some (da_items s)) (da_old s) (da_new s).

  Lemma da_loop f b s x : loop (daleaves_body tot) f (b, da_lift s) = Ok x ->
    exists r, loop (udaleaves_body gvc) f (b, s) = Ok r /\ match r with Done s2 => x = da_lift s2 | Raised _ => topped (da_items x) end.
  Proof.
    intros E.
    refine (ProofsUnwind.loop_sim (daleaves_body tot) (udaleaves_body gvc) (fun a b => a = (fst b, da_lift (snd b)))
      (fun x r => match r with Done s2 => x = da_lift s2 | Raised _ => topped (da_items x) end) _ f (b, da_lift s) (b, s) x eq_refl E).
    clear; intros f s1 [b [r it old new]] ->; cbn [fst snd]; unfold daleaves_body, udaleaves_body, ProofsUnwind.tot, da_lift; cbn [da_root da_items da_old da_new].
    assert (Hcase : forall new', 
      let b1 := (if b then Ok (inr (mkDa r (map Some it) old new')) else
          match old with
          | (n :: top) :: rest => let '(value, children) := match gvc n with Some (v, c) => (Some v, c) | None => (None, []) end in
              Ok (inl (true, mkDa r (value :: map Some it) (top :: rest) (children :: new')))
          | _ => match tl (map Some it) with [] => Ok (inr (mkDa r (tl (map Some it)) (tl old) new')) | _ :: _ => Ok (inl (b, mkDa r (tl (map Some it)) (tl old) new')) end
          end) : Res (bool * daleaves Nd (option V) + daleaves Nd (option V)) in
      let b2 := (if b then Ok (inr (Done (mkDa r it old new'))) else
          match old with
          | (n :: top) :: rest => match gvc n with
              | Some (value, children) => Ok (inl (true, mkDa r (value :: it) (top :: rest) (children :: new')))
              | None => Ok (inr (Raised (mkDa r it (top :: rest) new'))) end
          | _ => match tl it with [] => Ok (inr (Done (mkDa r (tl it) (tl old) new'))) | _ :: _ => Ok (inl (b, mkDa r (tl it) (tl old) new')) end
          end) : Res (bool * daleaves Nd V + ran (daleaves Nd V)) in
      (forall s1', b1 = Ok (inl s1') ->
        (exists s2', b2 = Ok (inl s2') /\ s1' = (fst s2', da_lift (snd s2'))) \/
        (exists r2, b2 = Ok (inr r2) /\ forall f' r1, loop (daleaves_body tot) f' s1' = Ok r1 -> match r2 with Done s2 => r1 = da_lift s2 | Raised _ => topped (da_items r1) end)) /\
      (forall r1, b1 = Ok (inr r1) -> exists r2, b2 = Ok (inr r2) /\ match r2 with Done s2 => r1 = da_lift s2 | Raised _ => topped (da_items r1) end)).
    { intros new' b1 b2; subst b1 b2; destruct b.
      - split; intros x E; [discriminate E|injection E as <-]; eexists; split; reflexivity.
      - destruct old as [|[|n top] rest].
        + rewrite map_tl; destruct (tl it); cbn [map]; (split; intros x E; try discriminate E; injection E as <-); [eexists; split; reflexivity|left; eexists; split; reflexivity].
        + rewrite map_tl; destruct (tl it); cbn [map]; (split; intros x E; try discriminate E; injection E as <-); [eexists; split; reflexivity|left; eexists; split; reflexivity].
        + destruct (gvc n) as [[v c]|]; split; intros x E; try discriminate E; injection E as <-.
          * left; eexists; split; reflexivity.
          * right; eexists; split; [reflexivity|]; intros [|f'] r1 E; [discriminate E|].
            cbn in E; injection E as <-; eexists; reflexivity. }
    destruct new as [|[|n top] rest]; [exact (Hcase [])|exact (Hcase rest)|].
    destruct (gvc n) as [[v c]|]; split; intros x E; try discriminate E; injection E as <-.
    - left; eexists; split; reflexivity.
    - right; eexists; split; [reflexivity|]; intros [|f'] r1 E; [discriminate E|].
      cbn in E; injection E as <-; eexists; reflexivity.
  Qed.

  Lemma daleaves_until nt n : fnode_tree gvc nt ->
    yields_until_panic (udaleaves_next gvc) (mkDa (Some n) [] [] [])
      (map (seen_ancestors gvc) (filter (fun p => leaf_or_panic gvc (pos_here p)) (preorder (positions (nt n))))).
  Proof.
    intros H; rewrite <- (map_ext _ _ (seen_slice gvc)), <- map_map.
    rewrite (filter_ext (fun p => leaf_or_panic gvc (pos_here p)) (fun p => is_leaf tot (pos_here p))).
    2:{ intros p; unfold leaf_or_panic, is_leaf, nkids, ProofsUnwind.tot; destruct (gvc (pos_here p)) as [[v [|c cs]]|]; reflexivity. }
    apply (until_sim (daleaves_next tot) _ got_slice (fun a b => a = da_lift b)) with (s1 := mkDa (Some n) [] [] []);
      [|reflexivity|exact (daleaves_yields_fresh _ nt (node_tot gvc nt H) n)].
    apply (until_step (daleaves_advance tot) daleaves_get (udaleaves_advance gvc) daleaves_get da_lift (fun x => topped (da_items x))).
    - intros F [r it old new] x E; unfold daleaves_advance, udaleaves_advance, da_lift in *; cbn [da_root da_items da_old da_new] in *.
      destruct r as [root|].
      + unfold ProofsUnwind.tot in E at 1; destruct (gvc root) as [[v c]|] eqn:Er.
        * exact (da_loop F true (mkDa None (v :: it) old (c :: new)) x E).
        * eexists; split; [reflexivity|]; destruct F as [|F]; [discriminate E|]; cbn in E; injection E as <-; eexists; reflexivity.
      + rewrite map_tl in E; exact (da_loop F false (mkDa None (tl it) old new) x E).
    - intros [r [|v it] old new]; [reflexivity|exact (slice_some v it)].
    - intros [r it old new] [l E]; cbn in E; subst it; exact (slice_none l).
    - intros s; unfold udaleaves_advance; destruct (da_root s) as [r|]; [destruct (gvc r) as [[v c]|]; [|apply more_const]|];
        apply more_flat; intros f g [? ?]; reflexivity.
  Qed.

  (** ** Preorder with context *)
  Definition pc_lift (s : prec Nd V Nd (list Nd)) : prec Nd (option V) Nd (list Nd) :=
    mkPrec (pc_root s) (pc_stack s) (pc_path s) (map Some (pc_anc s)) (pc_children s).

  Lemma pc_loop f st pa an : loop prec_body f (st, pa, map Some an) =
    Rmap (fun '(n, (st', pa', an')) => (n, (st', pa', map (@Some V) an'))) (loop (@prec_body Nd V) f (st, pa, an)).
  Proof.
    revert st pa an; induction f as [|f IH]; intros st pa an; cbn [loop]; [reflexivity|].
    unfold prec_body at 1 3; destruct st as [|[|n t] rest]; [reflexivity|rewrite map_tl; apply IH|].
    destruct (incr_last pa); reflexivity.
  Qed.

  Lemma small_tot t : small_fnodes gvc t -> small_nodes tot t.
  Proof.
    apply Forall_impl; intros m Hm; unfold nkids, ProofsUnwind.tot; destruct (gvc m) as [[v c]|] eqn:E; [exact (Hm v c eq_refl)|].
    cbn; apply N.le_0_l.
  Qed.

  Lemma prec_until nt p n : fnode_tree gvc nt -> small_fnodes gvc (nt n) ->
    yields_until_panic (uprec_next gvc) (prec_new n (map N.of_nat p)) (map (seen_context gvc) (preorder (annotate p [] (nt n)))).
  Proof.
    intros H Hs; rewrite <- (map_ext _ _ seen_got_context), <- (map_map (context_at tot) got_context).
    apply (until_sim (prec_next tot) _ got_context (fun a b => a = pc_lift b)) with (s1 := prec_new n (map N.of_nat p));
      [|reflexivity|exact (prec_yields _ nt p n (node_tot gvc nt H) (small_tot _ Hs))].
    apply (until_step (prec_advance tot) prec_get (uprec_advance gvc) prec_get pc_lift (fun x => topped (pc_anc x))).
    - intros F [r st pa an ch] x E; unfold prec_advance, prec_advance_with, uprec_advance, pc_lift in *; cbn [pc_root pc_stack pc_path pc_anc pc_children] in *.
      destruct r as [root|].
      + unfold ProofsUnwind.tot in E; destruct (gvc root) as [[v c]|] eqn:Er; injection E as <-; eexists; (split; [reflexivity|]); [reflexivity|eexists; reflexivity].
      + destruct an as [|a an]; [cbn [map] in E; injection E as <-; eexists; split; reflexivity|].
        cbn [map] in E.
        assert (Hgo : forall st0 pa0 an0, ('(next, (stack, path, anc)) <- loop prec_body F (st0, pa0, map Some an0);;
            match next with Some node => let '(value, children) := tot node in Ok (mkPrec None stack path (value :: anc) (Some children)) | None => Ok (mkPrec None stack path [] None) end) = Ok x ->
          exists r, ('(next, (stack, path, anc)) <- loop prec_body F (st0, pa0, an0);;
            match next with Some node => match gvc node with Some (value, children) => Ok (Done (mkPrec None stack path (value :: anc) (Some children))) | None => Ok (Raised (mkPrec None stack path anc None)) end
            | None => Ok (Done (mkPrec None stack path [] None)) end) = Ok r /\ match r with Done s2 => x = pc_lift s2 | Raised _ => topped (pc_anc x) end).
        { clear E; intros st0 pa0 an0 E; rewrite pc_loop in E; destruct (loop prec_body F (st0, pa0, an0)) as [[next [[st1 pa1] an1]]| | |]; cbn [Rmap bindR] in E |- *; try discriminate E.
          destruct next as [m|]; [|injection E as <-; eexists; split; reflexivity].
          unfold ProofsUnwind.tot in E; destruct (gvc m) as [[v c]|]; injection E as <-; eexists; (split; [reflexivity|]); [reflexivity|eexists; reflexivity]. }
        destruct ch as [c|]; [exact (Hgo (c :: st) (usize_max :: pa) (a :: an) E)|exact (Hgo st _ an E)].
    - intros [r st pa [|v an] ch]; [reflexivity|exact (context_some _ _ v an)].
    - intros [r st pa an ch] [l E]; cbn in E; subst an; exact (context_none _ _ l).
    - intros s; unfold uprec_advance; destruct (pc_root s) as [r|]; [destruct (gvc r) as [[v c]|]; apply more_const|].
      destruct (pc_anc s); [apply more_const|].
      destruct (match pc_children s with Some _ => _ | None => _ end) as [[st pa] an].
      apply (more_bind _ (fun _ => _)); [apply more_flat; intros f g [[? ?] ?]; reflexivity|].
      intros [[m|] [[? ?] ?]]; [destruct (gvc m) as [[? ?]|]|]; apply more_const.
  Qed.

  (** ** Postorder with context *)
  Definition poc_lift (s : postc Nd V Nd (list Nd)) : postc Nd (option V) Nd (list Nd) :=
    mkPostc (ModelPost.pt_root s) (ModelPost.pt_stack s) (pt_conts s) (ModelPost.pt_path s) (map Some (pt_anc s)) (pt_children s).

  Lemma poc_loop f st co pa an r1 : loop (postc_body tot) f (st, co, pa, map Some an) = Ok r1 ->
    exists r2, loop (upostc_body gvc) f (st, co, pa, an) = Ok r2 /\
      match r2 with
      | (Done (st', co', pa', an'), c) => exists c', c = Some c' /\ r1 = (st', co', pa', map Some an', c')
      | (Raised _, _) => topped (snd (fst r1))
      end.
  Proof.
    intros E.
    refine (ProofsUnwind.loop_sim (postc_body tot) (upostc_body gvc) (fun a b => a = (fst (fst (fst b)), snd (fst (fst b)), snd (fst b), map Some (snd b)))
      (fun r1 r2 => match r2 with
      | (Done (st', co', pa', an'), c) => exists c', c = Some c' /\ r1 = (st', co', pa', map Some an', c')
      | (Raised _, _) => topped (snd (fst r1))
      end) _ f (st, co, pa, map Some an) (st, co, pa, an) r1 eq_refl E).
    clear; intros f s1 [[[st co] pa] an] ->; cbn [fst snd]; unfold postc_body, upostc_body, ProofsUnwind.tot.
    destruct st as [|[|n t] rest].
    - destruct co as [|c co]; split; intros x E; try discriminate E; injection E as <-; eexists; split; [reflexivity|eexists; split; reflexivity].
    - destruct co as [|c co]; split; intros x E; try discriminate E; injection E as <-; eexists; split; [reflexivity|eexists; split; reflexivity].
    - destruct (incr_last pa) as [pa'| | |]; cbn [bindR]; try (split; discriminate).
      destruct (gvc n) as [[v c]|]; split; intros x E; try discriminate E; injection E as <-.
      + left; eexists; split; reflexivity.
      + right; eexists; split; [reflexivity|]; intros [|f'] r1 E; [discriminate E|].
        cbn in E; injection E as <-; eexists; reflexivity.
  Qed.

  Lemma postc_until nt p n : fnode_tree gvc nt -> small_fnodes gvc (nt n) ->
    yields_until_panic (upostc_next gvc) (postc_new n (map N.of_nat p)) (map (seen_context gvc) (postorder (annotate p [] (nt n)))).
  Proof.
    intros H Hs; rewrite <- (map_ext _ _ seen_got_context), <- (map_map (context_at tot) got_context).
    apply (until_sim (postc_next tot) _ got_context (fun a b => a = poc_lift b)) with (s1 := postc_new n (map N.of_nat p));
      [|reflexivity|exact (postc_yields _ nt p n (node_tot gvc nt H) (small_tot _ Hs))].
    apply (until_step (postc_advance_with tot (fun l => l) (postc_body tot)) postc_get (upostc_advance gvc) postc_get poc_lift (fun x => topped (pt_anc x))).
    - intros F [r st co pa an ch] x E; unfold postc_advance_with, upostc_advance, poc_lift in *; cbn [ModelPost.pt_root ModelPost.pt_stack pt_conts ModelPost.pt_path pt_anc pt_children] in *.
      assert (Hgo : forall st0 co0 pa0 an0, ('((stack, conts, path, anc), c) <- loop (postc_body tot) F (st0, co0, pa0, map Some an0);; Ok (mkPostc None stack conts path anc (Some c))) = Ok x ->
        exists r, (r <- loop (upostc_body gvc) F (st0, co0, pa0, an0) ;; Ok (upostc_end ch r)) = Ok r /\ match r with Done s2 => x = poc_lift s2 | Raised _ => topped (pt_anc x) end).
      { clear E; intros st0 co0 pa0 an0 E; destruct (loop (postc_body tot) F _) as [r1| | |] eqn:El; try discriminate E.
        destruct (poc_loop F st0 co0 pa0 an0 r1 El) as (r2 & -> & Hr); destruct r1 as [[[[st1 co1] pa1] an1] c1]; cbn [bindR] in E |- *; injection E as <-.
        eexists; split; [reflexivity|]; destruct r2 as [[[[[st2 co2] pa2] an2]|[[[st2 co2] pa2] an2]] c2]; cbn [upostc_end].
        - destruct Hr as (c' & -> & E); injection E as -> -> -> -> ->; reflexivity.
        - exact Hr. }
      destruct r as [root|].
      + unfold ProofsUnwind.tot in E at 1; destruct (gvc root) as [[v c]|] eqn:Er.
        * exact (Hgo (c :: st) (c :: co) (usize_max :: pa) (v :: an) E).
        * eexists; split; [reflexivity|]; destruct F as [|F]; [discriminate E|]; cbn [loop postc_body bindR tl] in E; injection E as <-; eexists; reflexivity.
      + rewrite map_tl in E; destruct (tl an) as [|a an']; cbn [map] in E; [injection E as <-; eexists; split; reflexivity|].
        exact (Hgo st co pa (a :: an') E).
    - intros [r st co pa [|v an] ch]; [reflexivity|exact (context_some _ _ v an)].
    - intros [r st co pa an ch] [l E]; cbn in E; subst an; exact (context_none _ _ l).
    - assert (Hl : forall ch s, more (fun f => r <- loop (upostc_body gvc) f s ;; Ok (upostc_end ch r))).
      { intros ch s; apply (more_bind _ (fun _ => _)); [apply more_flat; intros f g [[[? ?] ?] ?]; reflexivity|intros; apply more_const]. }
      intros s; unfold upostc_advance; destruct (ModelPost.pt_root s) as [r|]; [destruct (gvc r) as [[v c]|]; [apply Hl|apply more_const]|].
      destruct (tl (pt_anc s)); [apply more_const|apply Hl].
  Qed.

  (** ** Breadth first with context *)
  Definition bc_lift (s : bfsc V Nd (list Nd)) : bfsc (option V) Nd (list Nd) :=
    mkBfsc (bc_is_root s) (cm Some (bc_cache s)) (map (cm Some) (bc_stack s)) (bc_queue s) (bc_path s) (map Some (bc_anc s)) (bc_children s) (bc_counter s).

  Lemma bc_loop f s x : loop (bfsc_body tot) f (bc_lift s) = Ok x ->
    exists r, loop (ubfsc_body gvc) f s = Ok r /\ match r with Done s2 => x = bc_lift s2 | Raised _ => topped (bc_anc x) end.
  Proof.
    intros E.
    refine (ProofsUnwind.loop_sim (bfsc_body tot) (ubfsc_body gvc) (fun a b => a = bc_lift b)
      (fun x r => match r with Done s2 => x = bc_lift s2 | Raised _ => topped (bc_anc x) end) _ f (bc_lift s) s x eq_refl E).
    clear; intros f s1 [ro ca st qu pa an ch cn] ->; unfold bfsc_body, ubfsc_body, bc_lift; cbn [bc_is_root bc_cache bc_stack bc_queue bc_path bc_anc bc_children bc_counter].
    pose proof (maybe_pop_cm (@Some V) (an, pa, ca, st)) as Ep; cbn [cst] in Ep; rewrite Ep; clear Ep.
    destruct (cmaybe_pop (an, pa, ca, st)) as [[[[an1 pa1] ca1] st1]| | |]; cbn [bindR Rmap cst]; try (split; discriminate).
    destruct qu as [|[|nd iter] qu]; [split; discriminate| |].
    - pose proof (to_next_cm (@Some V) f (an1, pa1, ca1, st1)) as Ep; cbn [cst] in Ep; rewrite Ep; clear Ep.
      destruct (cto_next_parent f (an1, pa1, ca1, st1)) as [[[[an2 pa2] ca2] st2]| | |]; cbn [bindR Rmap cst]; try (split; discriminate).
      destruct qu; split; intros x E; try discriminate E; injection E as <-; [eexists; split; reflexivity|left; eexists; split; reflexivity].
    - destruct (checked_succ cn) as [cn'| | |]; cbn [bindR]; try (split; discriminate).
      unfold ProofsUnwind.tot; destruct (gvc nd) as [[v c]|]; split; intros x E; try discriminate E; injection E as <-; eexists; (split; [reflexivity|]);
        [reflexivity|eexists; reflexivity].
  Qed.

  Lemma bfsc_until nt p n s : fnode_tree gvc nt -> small_fnodes gvc (nt n) -> ubfsc_start gvc n (map N.of_nat p) = Some s ->
    yields_until_panic (ubfsc_next gvc) s (map (seen_context gvc) (bfs (annotate p [] (nt n)))).
  Proof.
    intros H Hs Es; rewrite <- (map_ext _ _ seen_got_context), <- (map_map (context_at tot) got_context).
    apply (until_sim (bfsc_next tot) _ got_context (fun a b => a = bc_lift b)) with (s1 := bc_lift s); [|reflexivity|].
    2:{ unfold ubfsc_start in Es; destruct (gvc n) as [[v c]|] eqn:E; [injection Es as <-|discriminate Es].
        pose proof (bfsc_yields _ nt p n (node_tot gvc nt H) (small_tot _ Hs)) as Hy.
        replace (nval tot n) with (Some v) in Hy by (unfold nval, ProofsUnwind.tot; rewrite E; reflexivity).
        replace (nkids tot n) with c in Hy by (unfold nkids, ProofsUnwind.tot; rewrite E; reflexivity).
        exact Hy. }
    apply (until_step (bfsc_advance tot) bfsc_get (ubfsc_advance gvc) bfsc_get bc_lift (fun x => topped (bc_anc x))).
    - intros F [ro ca st qu pa an ch cn] x E; unfold bfsc_advance, bfsc_advance_with, ubfsc_advance, bc_lift in *; cbn [bc_is_root bc_cache bc_stack bc_queue bc_path bc_anc bc_children bc_counter] in *.
      destruct ro; [injection E as <-; eexists; split; reflexivity|].
      destruct an as [|a an]; cbn [map] in E; [injection E as <-; eexists; split; reflexivity|].
      destruct (unwrap ch) as [c| | |]; cbn [bindR] in E |- *; try discriminate E.
      exact (bc_loop F (mkBfsc false ca st (qu ++ [c]) pa (a :: an) None cn) x E).
    - intros [ro ca st qu pa [|v an] ch cn]; [reflexivity|exact (context_some _ _ v an)].
    - intros [ro ca st qu pa an ch cn] [l E]; cbn in E; subst an; exact (context_none _ _ l).
    - intros s0; unfold ubfsc_advance; destruct (bc_is_root s0); [apply more_const|]; destruct (bc_anc s0); [apply more_const|].
      destruct (unwrap (bc_children s0)) as [c| | |]; cbn [bindR]; try apply more_const.
      apply more_loop; intros s1; unfold ubfsc_body.
      destruct (cmaybe_pop _) as [[[[an1 pa1] ca1] st1]| | |]; cbn [bindR]; try apply more_const.
      destruct (bc_queue s1) as [|[|nd iter] qu]; [apply more_const| |].
      + apply (more_bind _ (fun _ => _)); [apply more_cto_next_parent|intros [[[? ?] ?] ?]; destruct qu; apply more_const].
      + destruct (checked_succ _); cbn [bindR]; try apply more_const.
  Qed.
End Until.
