(** * ProofsUnwind: iterators whose user code panics, by simulation.

    A node that panics is compared with a leaf whose value is [None]: the iterators of the other files, run on
    [tot gvc], give [None] where those of ModelUnwind let the panic through. *)
From Verif Require Import Prelim PrelimFacts FuelMono Spec SpecObs ModelNode ModelBfs ModelPre ModelPost ModelIn ModelLeaves ModelUnwind SpecUnwind.

Definition got {A} (o : option A) : outcome A := match o with Some a => Got a | None => Unwound end.

Lemma usim_yields {S1 S2 A B} (next1 : nat -> S1 -> Res (option A * S1)) (next2 : nat -> S2 -> Res (option B * S2)) (f : A -> B) (R : S1 -> S2 -> Prop) :
  (forall s1 s2 o s1', R s1 s2 -> (fun fu => next1 fu s1) ⇓ Ok (o, s1') ->
     exists s2', (fun fu => next2 fu s2) ⇓ Ok (option_map f o, s2') /\ R s1' s2') ->
  forall s1 s2 l, R s1 s2 -> yields next1 s1 l -> yields next2 s2 (map f l).
Proof.
  intros Hsim s1 s2 l HR Hy.
  apply (step_inv_yields _ (fun s2 l2 => exists s1 l1, R s1 s2 /\ yields next1 s1 l1 /\ l2 = map f l1)); [|exists s1, l; auto].
  clear s1 s2 l HR Hy; intros s2 l2 (s1 & l1 & HR & Hy & ->).
  destruct (yields_step_inv _ _ _ Hy) as (s1' & Hn & Hy').
  destruct (Hsim _ _ _ _ HR Hn) as (s2' & Hn2 & HR').
  exists s2'; split; [destruct l1; exact Hn2|].
  exists s1', (tl l1); split; [exact HR'|split; [exact Hy'|destruct l1; reflexivity]].
Qed.

(** A loop compared with a loop. *)
Lemma loop_sim {S1 R1 S2 R2} (b1 : nat -> S1 -> Res (S1 + R1)) (b2 : nat -> S2 -> Res (S2 + R2)) (R : S1 -> S2 -> Prop) (Q : R1 -> R2 -> Prop) :
  (forall f s1 s2, R s1 s2 ->
     (forall s1', b1 f s1 = Ok (inl s1') ->
        (exists s2', b2 f s2 = Ok (inl s2') /\ R s1' s2') \/
        (exists r2, b2 f s2 = Ok (inr r2) /\ forall f' r1, loop b1 f' s1' = Ok r1 -> Q r1 r2)) /\
     (forall r1, b1 f s1 = Ok (inr r1) -> exists r2, b2 f s2 = Ok (inr r2) /\ Q r1 r2)) ->
  forall f s1 s2 r1, R s1 s2 -> loop b1 f s1 = Ok r1 -> exists r2, loop b2 f s2 = Ok r2 /\ Q r1 r2.
Proof.
  intros H; induction f as [|f IH]; intros s1 s2 r1 HR E; cbn [loop] in *; [discriminate|].
  destruct (H f s1 s2 HR) as [Hl Hr].
  destruct (b1 f s1) as [[s1'|r]| | |]; try discriminate.
  - destruct (Hl _ eq_refl) as [(s2' & -> & HR')|(r2 & -> & HQ)]; [apply (IH _ _ _ HR' E)|].
    exists r2; split; [reflexivity|exact (HQ _ _ E)].
  - injection E as <-; destruct (Hr _ eq_refl) as (r2 & -> & HQ); eauto.
Qed.

(** Bodies that do not use fuel. *)
Definition flat_body {S R} (b : nat -> S -> Res (S + R)) : Prop := forall f g s, b f s = b g s.
Lemma more_flat {S R} (b : nat -> S -> Res (S + R)) : flat_body b -> forall s, more (fun f => loop b f s).
Proof. intros H; apply more_loop; intros s f g _ _; apply H. Qed.

Lemma loop_sim_conv {S1 R1 S2 R2} (b1 : nat -> S1 -> Res (S1 + R1)) (b2 : nat -> S2 -> Res (S2 + R2)) (R : S1 -> S2 -> Prop) (Q : R1 -> R2 -> Prop) :
  flat_body b2 ->
  (forall f s1 s2, R s1 s2 ->
     (forall s1', b1 f s1 = Ok (inl s1') ->
        (exists s2', b2 f s2 = Ok (inl s2') /\ R s1' s2') \/
        (exists r2, b2 f s2 = Ok (inr r2) /\ forall f' r1, loop b1 f' s1' = Ok r1 -> Q r1 r2)) /\
     (forall r1, b1 f s1 = Ok (inr r1) -> exists r2, b2 f s2 = Ok (inr r2) /\ Q r1 r2)) ->
  forall s1 s2 r1, R s1 s2 -> (fun f => loop b1 f s1) ⇓ Ok r1 -> exists r2, (fun f => loop b2 f s2) ⇓ Ok r2 /\ Q r1 r2.
Proof.
  intros Hb H s1 s2 r1 HR [F HF].
  destruct (loop_sim b1 b2 R Q H F s1 s2 r1 HR (HF F (le_n F))) as (r2 & E & HQ).
  exists r2; split; [|exact HQ].
  apply (more_conv (fun f => loop b2 f s2) F); [apply more_flat, Hb|exact E|discriminate].
Qed.

Lemma loop_inv_step {S R} (b : nat -> S -> Res (S + R)) s s' r : (forall f, b f s = Ok (inl s')) ->
  (fun f => loop b f s) ⇓ r -> (fun f => loop b f s') ⇓ r.
Proof.
  intros H [F HF]; exists F; intros f Hf; specialize (HF (Datatypes.S f)); cbn [loop] in HF.
  rewrite H in HF; apply HF; lia.
Qed.

Lemma conv_bind_inv {A B} (m : nat -> Res A) (k : nat -> A -> Res B) b : more m -> (fun f => bindR (m f) (k f)) ⇓ Ok b ->
  exists a, m ⇓ Ok a /\ (fun f => k f a) ⇓ Ok b.
Proof.
  intros Hm [F HF]; pose proof (HF F (le_n F)) as E; destruct (m F) as [a| | |] eqn:Em; cbn [bindR] in E; try discriminate.
  assert (Ha : m ⇓ Ok a) by (apply (more_conv m F); [exact Hm|exact Em|discriminate]).
  exists a; split; [exact Ha|]; destruct Ha as [G HG]; exists (F + G); intros f Hf.
  specialize (HF f ltac:(lia)); rewrite HG in HF by lia; exact HF.
Qed.

Lemma conv_const_inv {A} (r r' : Res A) : (fun _ : nat => r) ⇓ r' -> r = r'.
Proof. intros [F HF]; apply (HF F (le_n F)). Qed.

Section UNary.
  Context {Nd V : Type}.
  Variable gvc : Nd -> option (V * list Nd).

  Definition tot (n : Nd) : option V * list Nd :=
    match gvc n with Some (v, c) => (Some v, c) | None => (None, []) end.

  Lemma node_tot nt : fnode_tree gvc nt -> node_tree tot nt.
  Proof. intros H n; rewrite H; unfold tot; destruct (gvc n) as [[v c]|]; reflexivity. Qed.

  Lemma seen_tot n : got (nval tot n) = seen gvc n.
  Proof. unfold nval, tot, seen; destruct (gvc n) as [[v c]|]; reflexivity. Qed.

  (** ** Breadth first *)
  Definition strip (q : list (list Nd)) : list (list Nd) := filter (fun l => negb (is_nil l)) q.
  Lemma strip_app q q' : strip (q ++ q') = strip q ++ strip q'.
  Proof. apply filter_app. Qed.

  Definition ubfs_R (s1 s2 : bfs_iter Nd) : Prop :=
    bfs_root s1 = bfs_root s2 /\ strip (bfs_queue s1) = strip (bfs_queue s2).

  Lemma strip_strip q : strip (strip q) = strip q.
  Proof. induction q as [|[|n t] q IH]; cbn; [reflexivity|exact IH|unfold strip in *; rewrite IH; reflexivity]. Qed.
  Lemma strip_cons l q : strip (l :: strip q) = strip (l :: q).
  Proof. change (l :: strip q) with ([l] ++ strip q); change (l :: q) with ([l] ++ q); rewrite !strip_app, strip_strip; reflexivity. Qed.

  Arguments strip : simpl never.

  (** What the loops do, in terms of the queue without its empty iterators. *)
  Definition bfs_front (q : list (list Nd)) : option (option V) * list (list Nd) :=
    match q with
    | (n :: t) :: r => (Some (fst (tot n)), strip (t :: r) ++ strip [snd (tot n)])
    | _ => (None, [])
    end.
  Lemma bfs_loop1 q : exists q', (fun f => loop (bfs_next_body tot) f q) ⇓ Ok (fst (bfs_front (strip q)), mkBfs None q') /\
    strip q' = snd (bfs_front (strip q)).
  Proof.
    induction q as [|[|n t] r IH].
    - exists []; split; [apply loop_done, conv_eq; reflexivity|reflexivity].
    - destruct IH as (q' & H & E); exists q'; split; [|exact E].
      eapply loop_step; [apply conv_eq; reflexivity|exact H].
    - exists ((t :: r) ++ [snd (tot n)]); split; [change (strip ((n :: t) :: r)) with ((n :: t) :: strip r)|].
      + apply loop_done, conv_eq; intros; cbn; destruct (tot n); reflexivity.
      + change (strip ((n :: t) :: r)) with ((n :: t) :: strip r); cbn [bfs_front snd]; rewrite strip_cons; apply strip_app.
  Qed.
  Lemma bfs_loop2 q : exists q', (fun f => loop (ubfs_body gvc) f q) ⇓ Ok (option_map got (fst (bfs_front (strip q))), mkBfs None q') /\
    strip q' = snd (bfs_front (strip q)).
  Proof.
    induction q as [|[|n t] r IH].
    - exists []; split; [apply loop_done, conv_eq; reflexivity|reflexivity].
    - destruct IH as (q' & H & E); exists q'; split; [|exact E].
      eapply loop_step; [apply conv_eq; reflexivity|exact H].
    - change (strip ((n :: t) :: r)) with ((n :: t) :: strip r); cbn [bfs_front fst snd]; rewrite strip_cons; unfold tot; destruct (gvc n) as [[v c]|] eqn:E.
      + exists ((t :: r) ++ [c]); split; [apply loop_done, conv_eq; intros; cbn; rewrite E; reflexivity|apply strip_app].
      + exists (t :: r); split; [apply loop_done, conv_eq; intros; cbn; rewrite E; reflexivity|cbn [snd]; rewrite app_nil_r; reflexivity].
  Qed.

  Lemma ubfs_sim s1 s2 o s1' : ubfs_R s1 s2 -> (fun fu => bfs_next tot fu s1) ⇓ Ok (o, s1') ->
    exists s2', (fun fu => ubfs_next gvc fu s2) ⇓ Ok (option_map got o, s2') /\ ubfs_R s1' s2'.
  Proof.
    destruct s1 as [r1 q1], s2 as [r2 q2]; intros [E1 E2] Hn; cbn in E1, E2; subst r2.
    unfold bfs_next, ubfs_next in *; cbn [bfs_root bfs_queue] in *.
    destruct r1 as [root|].
    - unfold tot in Hn; destruct (gvc root) as [[v c]|]; apply conv_const_inv in Hn; injection Hn as <- <-;
        (eexists; split; [apply conv_eq; reflexivity|split; [reflexivity|]]; cbn [bfs_queue]).
      + rewrite !strip_app, E2; reflexivity.
      + rewrite strip_app, E2; apply app_nil_r.
    - destruct (bfs_loop1 q1) as (q1' & H1 & E1'); pose proof (conv_fun _ _ _ Hn H1) as E; injection E as -> ->.
      rewrite E2 in *; destruct (bfs_loop2 q2) as (q2' & H2 & E2').
      exists (mkBfs None q2'); split; [exact H2|split; [reflexivity|cbn; congruence]].
  Qed.

  Theorem ubfs_yields nt : fnode_tree gvc nt -> forall n, yields (bfs_next tot) (bfs_new n) (map (nval tot) (bfs (nt n))) ->
    yields (ubfs_next gvc) (bfs_new n) (map (seen gvc) (bfs (nt n))).
  Proof.
    intros Ht n Hy; rewrite <- (map_ext _ _ seen_tot), <- map_map.
    apply (usim_yields _ _ got ubfs_R ubfs_sim) with (1 := conj eq_refl eq_refl : ubfs_R (bfs_new n) (bfs_new n)) (2 := Hy).
  Qed.

  (** ** Preorder *)
  Definition upre_R (s1 s2 : pre_iter Nd) : Prop :=
    s1 = s2 \/ (pre_root s1 = None /\ pre_root s2 = None /\ pre_stack s1 = [] :: pre_stack s2).

  Lemma flat_pre : flat_body (@pre_next_body Nd).
  Proof. intros f g s; reflexivity. Qed.

  Lemma upre_sim s1 s2 o s1' : upre_R s1 s2 -> (fun fu => pre_next tot fu s1) ⇓ Ok (o, s1') ->
    exists s2', (fun fu => upre_next gvc fu s2) ⇓ Ok (option_map got o, s2') /\ upre_R s1' s2'.
  Proof.
    destruct s1 as [r1 st1], s2 as [r2 st2]; intros HR Hn; unfold upre_R, pre_next, upre_next in *; cbn [pre_root pre_stack] in *.
    destruct r1 as [root|].
    - destruct HR as [E|(E & _)]; [injection E as <- <-|discriminate E].
      unfold tot in Hn; destruct (gvc root) as [[v c]|]; apply conv_const_inv in Hn; injection Hn as <- <-;
        (eexists; split; [apply conv_eq; reflexivity|]); [left; reflexivity|right; repeat split].
    - apply (conv_bind_inv (fun f => loop pre_next_body f st1) (fun _ => _)) in Hn; [|apply more_flat, flat_pre].
      destruct Hn as ([next st] & Hl & Hk); apply conv_const_inv in Hk.
      assert (Hl2 : r2 = None /\ (fun f => loop pre_next_body f st2) ⇓ Ok (next, st)).
      { destruct HR as [E|(_ & -> & ->)]; [injection E as <- <-; auto|split; [reflexivity|]].
        apply (loop_inv_step _ ([] :: st2) st2); [reflexivity|exact Hl]. }
      destruct Hl2 as [-> Hl2].
      destruct next as [n|].
      + unfold tot in Hk; destruct (gvc n) as [[v c]|] eqn:E; injection Hk as <- <-;
          (eexists; split; [eapply (conv_bind _ _ (fun _ => _)); [exact Hl2|apply conv_eq; intros; cbn; rewrite E; reflexivity]|]);
          [left; reflexivity|right; repeat split].
      + injection Hk as <- <-; eexists; split; [eapply (conv_bind _ _ (fun _ => _)); [exact Hl2|apply conv_eq; reflexivity]|left; reflexivity].
  Qed.

  (** With ancestors *)
  Definition uprea_R (s1 : prea Nd (option V)) (s2 : prea Nd V) : Prop :=
    s1 = mkPrea (pa_root s2) (pa_stack s2) (map Some (pa_items s2)) \/
    (pa_root s2 = None /\ s1 = mkPrea None ([] :: pa_stack s2) (None :: map Some (pa_items s2))).

  (** The slice as seen. *)
  Definition got_slice (l : list (option V)) : outcome (list V) :=
    match last l None with Some _ => Got (flat_map opt_list l) | None => Unwound end.

  Lemma opt_list_somes (l : list V) : flat_map opt_list (map Some l) = l.
  Proof. induction l as [|v l IH]; cbn; [reflexivity|rewrite IH; reflexivity]. Qed.
  Lemma got_slice_some v (l : list V) : got_slice (rev (Some v :: map Some l)) = Got (rev (v :: l)).
  Proof.
    unfold got_slice; cbn [rev]; rewrite last_last; f_equal.
    rewrite flat_map_app, <- map_rev, opt_list_somes; reflexivity.
  Qed.
  Lemma got_slice_none (l : list V) : got_slice (rev (None :: map Some l)) = Unwound.
  Proof. unfold got_slice; cbn [rev]; rewrite last_last; reflexivity. Qed.

  Lemma values_tot ms : flat_map opt_list (map (nval tot) ms) = values gvc ms.
  Proof.
    induction ms as [|m ms IH]; cbn; [reflexivity|]; rewrite IH; unfold nval, tot; destruct (gvc m) as [[? ?]|]; reflexivity.
  Qed.
  Lemma seen_slice p : got_slice (ancestors_at tot p) = seen_ancestors gvc p.
  Proof.
    unfold got_slice, ancestors_at, seen_ancestors; rewrite values_tot, map_app; cbn [map]; rewrite last_last; unfold nval, tot.
    destruct (gvc (pos_here p)) as [[v c]|] eqn:E; reflexivity.
  Qed.

  Lemma map_tl {A B} (f : A -> B) l : tl (map f l) = map f (tl l).
  Proof. destruct l; reflexivity. Qed.

  Lemma prea_loop st : forall (items : list V), exists next st' items',
    (fun f => loop prea_body f (st, items)) ⇓ Ok (next, st', items') /\
    (fun f => loop (@prea_body Nd (option V)) f (st, map Some items)) ⇓ Ok (next, st', map Some items').
  Proof.
    induction st as [|[|n t] r IH]; intros items.
    - exists None, [], items; split; apply loop_done, conv_eq; reflexivity.
    - destruct (IH (tl items)) as (next & st' & items' & H1 & H2); exists next, st', items'; split.
      + eapply loop_step; [apply conv_eq; reflexivity|exact H1].
      + eapply loop_step; [apply conv_eq; reflexivity|rewrite map_tl; exact H2].
    - exists (Some n), (t :: r), items; split; apply loop_done, conv_eq; reflexivity.
  Qed.

  Lemma prea_get_got (s : prea Nd V) : option_map got_slice (prea_get (mkPrea (pa_root s) (pa_stack s) (map Some (pa_items s)))) = option_map Got (prea_get s).
  Proof.
    unfold prea_get; cbn [pa_items]; destruct (pa_items s) as [|v l]; [reflexivity|].
    cbn [map option_map]; f_equal; apply (got_slice_some v l).
  Qed.

  Lemma flat_prea {W} : flat_body (@prea_body Nd W).
  Proof. intros f g s; reflexivity. Qed.

  Lemma uprea_sim s1 s2 o s1' : uprea_R s1 s2 -> (fun fu => prea_next tot fu s1) ⇓ Ok (o, s1') ->
    exists s2', (fun fu => uprea_next gvc fu s2) ⇓ Ok (option_map got_slice o, s2') /\ uprea_R s1' s2'.
  Proof.
    destruct s2 as [r2 st2 it2]; intros HR Hn; unfold uprea_R, prea_next, uprea_next, prea_advance, uprea_advance in *.
    cbn [pa_root pa_stack pa_items] in *.
    assert (Hgot : forall st it v, option_map got_slice (prea_get (mkPrea None st (Some v :: map Some it))) = option_map Got (prea_get (mkPrea (Nd:=Nd) None st (v :: it)))).
    { intros; exact (prea_get_got (mkPrea None st (v :: it))). }
    assert (Hun : forall st it, option_map got_slice (prea_get (mkPrea (Nd:=Nd) None st (None :: map Some it))) = Some Unwound).
    { intros; unfold prea_get; cbn [pa_items option_map]; f_equal; apply got_slice_none. }
    destruct r2 as [root|].
    - destruct HR as [->|(E & _)]; [|discriminate E]; cbn [pa_root pa_stack pa_items] in Hn.
      unfold tot in Hn; destruct (gvc root) as [[v c]|]; apply conv_const_inv in Hn; injection Hn as <- <-.
      + eexists; split; [apply conv_eq; intros; cbn [bindR observe]; rewrite <- Hgot; reflexivity|left; reflexivity].
      + eexists; split; [apply conv_eq; intros; cbn [bindR observe]; rewrite Hun; reflexivity|right; split; reflexivity].
    - destruct (prea_loop st2 it2) as (next & st' & it' & H2 & H1).
      assert (Hn1 : (fun f => loop (@prea_body Nd (option V)) f (pa_stack s1, pa_items s1)) ⇓ Ok (next, st', map Some it') /\ pa_root s1 = None).
      { destruct HR as [->|(_ & ->)]; split; try reflexivity; [exact H1|].
        eapply loop_step; [apply conv_eq; reflexivity|exact H1]. }
      destruct Hn1 as [Hn1 E1]; rewrite E1 in Hn; clear HR.
      apply (conv_bind_inv _ (fun _ => _)) in Hn;
        [|apply (more_bind _ (fun _ => _)); [apply more_flat, flat_prea|intros; apply more_const]].
      destruct Hn as (s & Hn & Hk); apply conv_const_inv in Hk; injection Hk as <- <-.
      apply (conv_bind_inv (fun f => loop prea_body f (pa_stack s1, pa_items s1)) (fun _ => _)) in Hn; [|apply more_flat, flat_prea].
      destruct Hn as (x & Hl & Hk); pose proof (conv_fun _ _ _ Hl Hn1) as E; injection E as ->; cbn beta iota in Hk.
      apply conv_const_inv in Hk.
      assert (Hgo : forall r, (match next with None => Ok (Done (mkPrea None st' it')) | Some node => match gvc node with
                | Some (value, children) => Ok (Done (mkPrea None (children :: st') (value :: it'))) | None => Ok (Raised (mkPrea None st' it')) end end) = Ok r ->
        (fun fu => r0 <- ('(next, stack, items) <- loop prea_body fu (st2, it2);;
            match next with None => Ok (Done (mkPrea None stack items)) | Some node => match gvc node with
                | Some (value, children) => Ok (Done (mkPrea None (children :: stack) (value :: items))) | None => Ok (Raised (mkPrea None stack items)) end end);;
            Ok (observe prea_get r0)) ⇓ Ok (observe prea_get r)).
      { intros r Er; eapply (conv_bind _ _ (fun _ => _)); [|apply conv_eq; reflexivity].
        eapply (conv_bind _ _ (fun _ => _)); [exact H2|apply conv_eq; intros; exact Er]. }
      destruct next as [n|].
      + unfold tot in Hk; destruct (gvc n) as [[v c]|] eqn:E; injection Hk as <-.
        * eexists; split; [rewrite Hgot; exact (Hgo _ eq_refl)|left; reflexivity].
        * eexists; split; [rewrite Hun; exact (Hgo _ eq_refl)|right; split; reflexivity].
      + injection Hk as <-; exists (mkPrea None st' it'); split; [|left; reflexivity].
        pose proof (prea_get_got (mkPrea None st' it')) as Eg; cbn [pa_root pa_stack pa_items] in Eg; rewrite Eg; exact (Hgo _ eq_refl).
  Qed.

  (** ** Postorder *)
  Definition upost_R (s1 : post_iter Nd (option V)) (s2 : post_iter Nd V) : Prop :=
    s1 = mkPost (po_root s2) (map Some (po_items s2)) (po_stack s2).

  Lemma hd_got (l : list V) : option_map Got (hd_error l) = option_map got (hd_error (map Some l)).
  Proof. destruct l; reflexivity. Qed.

  Lemma upost_sim s1 s2 o s1' : upost_R s1 s2 -> (fun fu => post_next tot fu s1) ⇓ Ok (o, s1') ->
    exists s2', (fun fu => upost_next gvc fu s2) ⇓ Ok (option_map got o, s2') /\ upost_R s1' s2'.
  Proof.
    intros HR Hn.
    destruct (loop_sim_conv (post_next_body tot) (upost_body gvc) upost_R (fun r1 r2 => fst r2 = option_map got (fst r1) /\ upost_R (snd r1) (snd r2)))
      with (s1 := s1) (s2 := s2) (r1 := (o, s1')) as ([o2 s2'] & H2 & E & HR').
    - intros f g s; reflexivity.
    - clear; intros f s1 [r2 it st] ->; unfold post_next_body, upost_body, tot; cbn [po_root po_items po_stack].
      destruct r2 as [root|].
      + destruct (gvc root) as [[v c]|]; split; intros x E; try discriminate E; injection E as <-.
        * left; eexists; split; reflexivity.
        * right; eexists; split; [reflexivity|]; intros [|f'] r1 E; [discriminate E|].
          cbn in E; injection E as <-; split; reflexivity.
      + destruct st as [|[|n t] rest]; cbn [fst snd].
        * split; intros x E; [discriminate E|injection E as <-]; eexists; split; [reflexivity|].
          cbn [fst snd]; split; [apply hd_got|unfold upost_R; cbn; rewrite map_tl; reflexivity].
        * split; intros x E; [discriminate E|injection E as <-]; eexists; split; [reflexivity|].
          cbn [fst snd]; split; [apply hd_got|unfold upost_R; cbn; rewrite map_tl; reflexivity].
        * destruct (gvc n) as [[v c]|]; split; intros x E; try discriminate E; injection E as <-.
          -- left; eexists; split; reflexivity.
          -- right; eexists; split; [reflexivity|]; intros [|f'] r1 E; [discriminate E|].
             cbn in E; injection E as <-; split; reflexivity.
    - exact HR.
    - exact Hn.
    - cbn in E, HR'; subst o2; exists s2'; split; [exact H2|exact HR'].
  Qed.

  (** ** Leaves, depth first (of an iterator that was not started) *)
  Definition udl_R (s1 : dleaves Nd (option V)) (s2 : dleaves Nd V) : Prop :=
    dl_bottom s2 = [] /\ s1 = mkDl (dl_root s2) [] (dl_top s2) (map Some (dl_items s2)).

  Lemma udl_loop b s1 s2 o s1' : udl_R s1 s2 -> (fun fu => loop (dleaves_body tot) fu (b, s1)) ⇓ Ok (o, s1') ->
    exists s2', (fun fu => loop (udleaves_body gvc) fu (b, s2)) ⇓ Ok (option_map got o, s2') /\ udl_R s1' s2'.
  Proof.
    intros HR Hn.
    destruct (loop_sim_conv (dleaves_body tot) (udleaves_body gvc) (fun x y => fst x = fst y /\ udl_R (snd x) (snd y))
      (fun r1 r2 => fst r2 = option_map got (fst r1) /\ udl_R (snd r1) (snd r2)))
      with (s1 := (b, s1)) (s2 := (b, s2)) (r1 := (o, s1')) as ([o2 s2'] & H2 & E & HR').
    - intros f g s; reflexivity.
    - clear; intros f [b1 s1] [b2 [r2 bo2 to2 it2]] (E1 & E2 & E3); cbn in E1, E2, E3; subst b2 bo2 s1.
      unfold dleaves_body, udleaves_body, tot; cbn [dl_root dl_bottom dl_top dl_items].
      destruct to2 as [|[|n t] rest].
      + split; intros x E; [discriminate E|injection E as <-]; eexists; split; [reflexivity|].
        cbn [fst snd]; split; [reflexivity|split; reflexivity].
      + destruct b1; split; intros x E; try discriminate E; injection E as <-.
        * eexists; split; [reflexivity|]; cbn [fst snd]; split; [apply hd_got|split; cbn; rewrite ?map_tl; reflexivity].
        * left; eexists; split; [reflexivity|]; cbn [fst snd]; split; [reflexivity|split; cbn; rewrite ?map_tl; reflexivity].
      + destruct (gvc n) as [[v c]|]; split; intros x E; try discriminate E; injection E as <-.
        * left; eexists; split; [reflexivity|split; [reflexivity|split; reflexivity]].
        * right; eexists; split; [reflexivity|]; intros [|f'] r1 E; [discriminate E|].
          cbn in E; injection E as <-; split; [reflexivity|split; reflexivity].
    - split; [reflexivity|exact HR].
    - exact Hn.
    - cbn in E, HR'; subst o2; exists s2'; split; [exact H2|exact HR'].
  Qed.

  Lemma udl_sim s1 s2 o s1' : udl_R s1 s2 -> (fun fu => dleaves_next tot fu s1) ⇓ Ok (o, s1') ->
    exists s2', (fun fu => udleaves_next gvc fu s2) ⇓ Ok (option_map got o, s2') /\ udl_R s1' s2'.
  Proof.
    intros HR Hn; unfold dleaves_next, udleaves_next in *.
    destruct s2 as [[root|] bo to it]; destruct HR as (E1 & ->); cbn in E1; subst bo; cbn [dl_root dl_bottom dl_top dl_items] in *.
    - unfold tot in Hn at 1; destruct (gvc root) as [[v c]|].
      + apply (udl_loop true _ (mkDl None [] (c :: to) (v :: it))) in Hn; [exact Hn|split; reflexivity].
      + exists (mkDl None [] to it); split; [|split; [reflexivity|]].
        * assert (E : (fun fu => loop (dleaves_body tot) fu (true, mkDl None [] ([] :: to) (None :: map Some it))) ⇓ Ok (Some None, mkDl None [] to (map Some it))).
          { apply loop_done, conv_eq; reflexivity. }
          pose proof (conv_fun _ _ _ Hn E) as E'; injection E' as -> ->; apply conv_eq; reflexivity.
        * assert (E : (fun fu => loop (dleaves_body tot) fu (true, mkDl None [] ([] :: to) (None :: map Some it))) ⇓ Ok (Some None, mkDl None [] to (map Some it))).
          { apply loop_done, conv_eq; reflexivity. }
          pose proof (conv_fun _ _ _ Hn E) as E'; injection E' as -> ->; reflexivity.
    - apply (udl_loop false _ (mkDl None [] to it)) in Hn; [exact Hn|split; reflexivity].
  Qed.

  (** ** Leaves, breadth first *)
  Inductive qrel : list (list Nd) -> list (list Nd) -> Prop :=
  | qrel_nil : qrel [] []
  | qrel_skip q1 q2 : qrel q1 q2 -> qrel ([] :: q1) q2
  | qrel_cons l q1 q2 : qrel q1 q2 -> qrel (l :: q1) (l :: q2).
  Hint Constructors qrel : core.
  Lemma qrel_refl q : qrel q q.
  Proof. induction q; auto. Qed.
  Lemma qrel_app q1 q2 q1' q2' : qrel q1 q2 -> qrel q1' q2' -> qrel (q1 ++ q1') (q2 ++ q2').
  Proof. induction 1; cbn; auto. Qed.

  Definition ubl_R (s1 s2 : bleaves Nd) : Prop :=
    bl_root s1 = bl_root s2 /\ qrel (bl_old s1) (bl_old s2) /\ qrel (bl_new s1) (bl_new s2).
  Definition got2 (x : bool * option V) : outcome (bool * V) :=
    match snd x with Some v => Got (fst x, v) | None => Unwound end.

  Lemma flat_bl2 : flat_body (ubleaves_bfs_body gvc).
  Proof. intros f g s; reflexivity. Qed.
  Lemma more_flat_S {S R} (b : nat -> S -> Res (S + R)) f s r : flat_body b -> loop b f s = Ok r -> loop b (Datatypes.S f) s = Ok r.
  Proof. intros H E; rewrite <- E; apply (more_flat b H s f (Datatypes.S f)); [lia|rewrite E; discriminate]. Qed.

  Lemma ubl_loop f : forall s1 s2 o s1', bl_root s1 = None -> ubl_R s1 s2 -> loop (bleaves_bfs_body tot) f s1 = Ok (o, s1') ->
    exists s2', loop (ubleaves_bfs_body gvc) f s2 = Ok (option_map got2 o, s2') /\ ubl_R s1' s2' /\
      (forall b, o = Some (b, None) -> b = false).
  Proof.
    induction f as [|f IH]; intros [r1 o1 n1] [r2 o2 n2] o s1' Er (E1 & E2 & E3) E; [discriminate E|].
    cbn in Er, E1, E2, E3; subst r1 r2.
    destruct E2 as [|o1 o2 E2|l o1 o2 E2].
    - destruct E3 as [|n1 n2 E3|l n1 n2 E3].
      + cbn in E; injection E as <- <-; eexists; split; [reflexivity|split; [repeat split; auto|discriminate]].
      + cbn [loop bleaves_bfs_body bl_old bl_new bl_root] in E.
        destruct (IH (mkBl None [] n1) (mkBl None [] n2) o s1' eq_refl (conj eq_refl (conj qrel_nil E3)) E) as (s2' & H & HR).
        exists s2'; split; [apply more_flat_S; [exact flat_bl2|exact H]|exact HR].
      + destruct l as [|n l].
        * cbn [loop bleaves_bfs_body bl_old bl_new bl_root] in E |- *.
          apply (IH (mkBl None [] n1) (mkBl None [] n2) o s1' eq_refl (conj eq_refl (conj qrel_nil E3)) E).
        * cbn [loop bleaves_bfs_body ubleaves_bfs_body bl_old bl_new bl_root] in E |- *.
          unfold tot in E; destruct (gvc n) as [[v c]|]; injection E as <- <-; eexists; (split; [reflexivity|split; [|intros b Eb; try discriminate Eb; injection Eb as <-; reflexivity]]);
            (split; [reflexivity|split; [apply qrel_nil|]]); cbn [bl_new].
          -- apply (qrel_app (l :: n1) (l :: n2) [c] [c]); [constructor; exact E3|apply qrel_refl].
          -- rewrite <- (app_nil_r (l :: n2)); apply (qrel_app (l :: n1) (l :: n2) [[]] []); [constructor; exact E3|auto].
    - cbn [loop bleaves_bfs_body bl_old bl_new bl_root] in E.
      destruct (IH (mkBl None o1 n1) (mkBl None o2 n2) o s1' eq_refl (conj eq_refl (conj E2 E3)) E) as (s2' & H & HR).
      exists s2'; split; [apply more_flat_S; [exact flat_bl2|exact H]|exact HR].
    - destruct l as [|n l].
      + cbn [loop bleaves_bfs_body ubleaves_bfs_body bl_old bl_new bl_root] in E |- *.
        apply (IH (mkBl None o1 n1) (mkBl None o2 n2) o s1' eq_refl (conj eq_refl (conj E2 E3)) E).
      + cbn [loop bleaves_bfs_body ubleaves_bfs_body bl_old bl_new bl_root] in E |- *.
        unfold tot in E; destruct (gvc n) as [[v c]|]; injection E as <- <-; eexists; (split; [reflexivity|split; [|intros b Eb; try discriminate Eb; injection Eb as <-; reflexivity]]);
          (split; [reflexivity|split; [constructor; exact E2|]]); cbn [bl_new].
        * apply qrel_app; [exact E3|apply qrel_refl].
        * rewrite <- (app_nil_r n2); apply qrel_app; [exact E3|auto].
  Qed.

  Lemma ubl_bfs f s1 s2 o s1' : ubl_R s1 s2 -> bleaves_bfs_next tot f s1 = Ok (o, s1') ->
    exists s2', ubleaves_bfs_next gvc f s2 = Ok (option_map got2 o, s2') /\ ubl_R s1' s2' /\ (forall b, o = Some (b, None) -> b = false).
  Proof.
    intros HR E; unfold bleaves_bfs_next, ubleaves_bfs_next in *; destruct (bl_root s1) as [root|] eqn:Er; pose proof HR as (E1 & E2 & E3).
    - rewrite <- E1, Er; unfold tot in E; destruct (gvc root) as [[v c]|]; injection E as <- <-; eexists;
        (split; [reflexivity|split; [split; [reflexivity|split; [exact E2|]]|intros b Eb; try discriminate Eb; injection Eb as <-; reflexivity]]); cbn [bl_new].
      + apply qrel_app; [exact E3|apply qrel_refl].
      + rewrite <- (app_nil_r (bl_new s2)); apply qrel_app; [exact E3|auto].
    - rewrite <- E1, Er; apply (ubl_loop f s1 s2 o s1' Er HR E).
  Qed.

  Lemma ubl_sim s1 s2 o s1' : ubl_R s1 s2 -> (fun fu => bleaves_next tot fu s1) ⇓ Ok (o, s1') ->
    exists s2', (fun fu => ubleaves_next gvc fu s2) ⇓ Ok (option_map got o, s2') /\ ubl_R s1' s2'.
  Proof.
    intros HR [F HF]; unfold bleaves_next in HF.
    destruct (loop_sim (bleaves_body tot) (ubleaves_body gvc) ubl_R (fun r1 r2 => fst r2 = option_map got (fst r1) /\ ubl_R (snd r1) (snd r2)))
      with (f := F) (s1 := s1) (s2 := s2) (r1 := (o, s1')) as ([o2 s2'] & H2 & E & HR').
    - clear; intros f s1 s2 HR; unfold bleaves_body, ubleaves_body.
      destruct (bleaves_bfs_next tot f s1) as [[x s1']| | |] eqn:E; cbn [bindR]; try (split; discriminate).
      destruct (ubl_bfs f s1 s2 x s1' HR E) as (s2' & -> & HR' & Hb); cbn [bindR].
      destruct x as [[b [v|]]|]; cbn [option_map got2 fst snd].
      + destruct b; split; intros y Ey; try discriminate Ey; injection Ey as <-; eauto.
      + rewrite (Hb b eq_refl); split; intros y Ey; try discriminate Ey; injection Ey as <-; eexists; split; [reflexivity|split; [reflexivity|exact HR']].
      + split; intros y Ey; try discriminate Ey; injection Ey as <-; eexists; split; [reflexivity|split; [reflexivity|exact HR']].
    - exact HR.
    - apply HF; lia.
    - cbn in E, HR'; subst o2; exists s2'; split; [|exact HR'].
      apply (more_conv (fun fu => ubleaves_next gvc fu s2) F); [|exact H2|discriminate].
      apply more_loop; intros s; unfold ubleaves_body.
      apply (more_bind (fun f => ubleaves_bfs_next gvc f s) (fun _ => _)); [|intros [[[[[|] ?]|]|] ?]; apply more_const].
      unfold ubleaves_bfs_next; destruct (bl_root s) as [r|]; [destruct (gvc r) as [[? ?]|]; apply more_const|].
      apply more_flat, flat_bl2.
  Qed.
End UNary.
