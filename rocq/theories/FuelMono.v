(** * FuelMono: a result obtained with some fuel is obtained with more. *)
From Verif Require Import Prelim PrelimFacts ModelNode ModelPre ModelPost ModelBfs ModelOwn.

Definition more {A} (m : nat -> Res A) : Prop := forall f g, f <= g -> m f <> OutOfFuel -> m g = m f.

Lemma more_const {A} (r : Res A) : more (fun _ => r).
Proof. intros f g _ _; reflexivity. Qed.
Lemma more_bind {A B} (m : nat -> Res A) (k : nat -> A -> Res B) : more m -> (forall a, more (fun f => k f a)) -> more (fun f => bindR (m f) (k f)).
Proof.
  intros Hm Hk f g Hf Hne; specialize (Hm f g Hf); destruct (m f) as [a| | |] eqn:E; cbn in *; try (rewrite Hm by discriminate; cbn; try reflexivity).
  - apply (Hk a f g Hf); exact Hne.
  - contradiction.
Qed.
Lemma more_loop {S R} (body : nat -> S -> Res (S + R)) : (forall s, more (fun f => body f s)) -> forall s, more (fun f => loop body f s).
Proof.
  intros Hb s f; revert s; induction f as [|f IH]; intros s g Hf Hne; [exfalso; apply Hne; reflexivity|].
  destruct g as [|g]; [lia|]; cbn [loop] in *.
  rewrite (Hb s f g) by (lia || (intros E; rewrite E in Hne; congruence)).
  destruct (body f s) as [[s'|r]| | |]; try reflexivity; apply IH; [lia|exact Hne].
Qed.
Lemma more_calls {S O} (next : nat -> S -> Res (O * S)) : (forall s, more (fun f => next f s)) -> forall k s, more (calls next k s).
Proof.
  intros Hn; induction k as [|k IH]; intros s; cbn [calls]; [apply more_const|].
  apply (more_bind (fun f => next f s) (fun f x => let '(o, s1) := x in '(os, s2) <- calls next k s1 f ;; Ok (o :: os, s2))); [apply Hn|].
  intros [o s1]; apply (more_bind (calls next k s1) (fun f x => let '(os, s2) := x in Ok (o :: os, s2))); [apply IH|].
  intros [os s2]; apply more_const.
Qed.

Lemma more_conv {A} (m : nat -> Res A) F r : more m -> m F = r -> r <> OutOfFuel -> m ⇓ r.
Proof. intros Hm E Hne; exists F; intros f Hf; rewrite (Hm F f Hf) by congruence; exact E. Qed.

Section Own.
  Context {Nd V : Type}.
  Variable gvc : Nd -> V * list Nd.
  Variable owns : Nd -> bool.

  Lemma more_opost_advance s : more (fun f => opost_advance gvc owns f s).
  Proof.
    unfold opost_advance; destruct (op_root s) as [root|].
    - destruct (take_node gvc owns (op_heap s) root) as [[h v] c].
      apply (more_bind (fun f => loop _ f _) (fun f x => let '((h, stack, conts, path, anc), c) := x in Ok (mkOpost h None stack conts path anc (Some c)))).
      + apply more_loop; intros s0 f g _ _; reflexivity.
      + intros [[[[[h' ?] ?] ?] ?] ?]; apply more_const.
    - destruct (tl (op_anc s)); [apply more_const|].
      apply (more_bind (fun f => loop _ f _) (fun f x => let '((h, stack, conts, path, anc), c) := x in Ok (mkOpost h None stack conts path anc (Some c)))).
      + apply more_loop; intros s0 f g _ _; reflexivity.
      + intros [[[[[h' ?] ?] ?] ?] ?]; apply more_const.
  Qed.
  Lemma more_opost_next s : more (fun f => opost_next gvc owns f s).
  Proof. apply (more_bind (fun f => opost_advance gvc owns f s) (fun _ s' => Ok (opost_get s', s'))); [apply more_opost_advance|intros; apply more_const]. Qed.
  Lemma more_opost_reading s : more (fun f => opost_next_reading gvc owns f s).
  Proof.
    unfold opost_next_reading; apply (more_bind (fun f => opost_advance gvc owns f s) (fun _ s' => _)); [apply more_opost_advance|intros; apply more_const].
  Qed.

  Lemma more_opre_reading s : more (fun f => opre_next_reading gvc owns f s).
  Proof.
    unfold opre_next_reading; apply (more_bind (fun f => opre_advance gvc owns f s) (fun _ s' => _)); [|intros; apply more_const].
    unfold opre_advance; destruct (oq_root s); [intros f g _ _; reflexivity|].
    destruct (oq_anc s); [apply more_const|].
    destruct (oq_children s).
    - apply (more_bind (fun f => loop _ f _) (fun _ x => let '(next, (h, stack, path, anc)) := x in
        match next with Some node => let '(h, value, children) := take_node gvc owns h node in Ok (mkOpre h None stack path (value :: anc) (Some children)) | None => Ok (mkOpre h None stack path [] None) end)).
      + apply more_loop; intros s0 f g _ _; reflexivity.
      + intros [? [[[? ?] ?] ?]]; apply more_const.
    - apply (more_bind (fun f => loop _ f _) (fun _ x => let '(next, (h, stack, path, anc)) := x in
        match next with Some node => let '(h, value, children) := take_node gvc owns h node in Ok (mkOpre h None stack path (value :: anc) (Some children)) | None => Ok (mkOpre h None stack path [] None) end)).
      + apply more_loop; intros s0 f g _ _; reflexivity.
      + intros [? [[[? ?] ?] ?]]; apply more_const.
  Qed.

  Lemma more_cto_next_parent (s : cdfs_st (V:=V)) : more (fun f => cto_next_parent f s).
  Proof.
    unfold cto_next_parent; destruct s as [[[anc path] cache] stack].
    destruct (match top_children stack cache with [] => _ | _ :: _ => _ end) as [[[anc' path'] cache'] stack'].
    unfold cadvance_dfs; apply more_loop; intros s f g _ _; reflexivity.
  Qed.

  Lemma more_obfs_reading s : more (fun f => obfs_next_reading gvc owns f s).
  Proof.
    unfold obfs_next_reading; apply (more_bind (fun f => obfs_advance gvc owns f s) (fun _ s' => _)); [|intros; apply more_const].
    unfold obfs_advance; destruct (ob_is_root s); [apply more_const|]; destruct (ob_anc s); [apply more_const|].
    destruct (ob_children s) as [c|]; cbn [unwrap bindR]; [|apply more_const].
    apply more_loop; intros s0; unfold obfs_body.
    destruct (cmaybe_pop _) as [[[[? ?] ?] ?]| | |]; cbn [bindR]; try apply more_const.
    destruct (ob_queue s0) as [|front queue]; [apply more_const|].
    destruct (iter_next (ob_heap s0) front) as [[[nd iter]|]| | |]; cbn [bindR]; try apply more_const.
    apply (more_bind (fun f => cto_next_parent f _) (fun _ x => let '(anc, path, cache, stack) := x in
      h <- release (ob_heap s0) front ;; match queue with [] => Ok (inr (mkObfs h (ob_is_root s0) cache stack [] path [] (ob_children s0) 0))
        | _ => Ok (inl (mkObfs h (ob_is_root s0) cache stack queue path anc (ob_children s0) 0)) end)).
    - apply more_cto_next_parent.
    - intros [[[? ?] ?] ?]; apply more_const.
  Qed.
End Own.

Lemma more_use_and_drop {S O R} (next : nat -> S -> Res (O * S)) (drop : S -> Res R) k s : (forall s, more (fun f => next f s)) ->
  more (use_and_drop next drop k s).
Proof.
  intros H; unfold use_and_drop; apply (more_bind (calls next k s) (fun _ x => let '(os, s') := x in r <- drop s' ;; Ok (os, r))).
  - apply more_calls, H.
  - intros [os s']; apply more_const.
Qed.
